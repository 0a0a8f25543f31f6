(* The KZG properties C18-C27.  `srs_new_from_secret E s n` is the reference
   string for secret s and size n; a value of type {poly F} used as a list is
   its coefficient list without trailing zeros. *)
Set Warnings "-notation-overridden,-ambiguous-paths".
From mathcomp Require Import all_ssreflect all_algebra.
From mathcomp Require Import zify ring.
From Verif Require Import Base BaseLemmas ArkPoly ArkPolyLemmas KzgModel KzgSpec KzgLemmas.

Set Implicit Arguments.
Unset Strict Implicit.
Unset Printing Implicit Defensive.

Import GRing.Theory.
Local Open Scope ring_scope.

Section KzgProps.
Variables (F : fieldType) (E : pairing_group F).
Local Notation g1 := (g1_gen E).
Local Notation g2 := (g2_gen E).

(* ------------------------------------------------------------------ *)
(* C18 *)
Theorem C18_srs_contents (s : F) (n : nat) :
  let S := srs_new_from_secret E s n in
  [/\ size (srs_g1_points S) = (n + 3)%N,
      forall i, (i < n + 3)%N -> nth 0 (srs_g1_points S) i = s ^+ i *: g1,
      srs_g2 S = g2
    & srs_g2s S = s *: g2].
Proof.
split=> //; first exact: size_srs.
by move=> i lt; rewrite nth_srs_points // mul1r.
Qed.

(* ------------------------------------------------------------------ *)
(* C19 *)
Theorem C19_commit (s : F) (n : nat) (f : {poly F}) :
  kzg_commit (srs_new_from_secret E s n) f =
  if (size f <= n + 3)%N then Ret (f.[s] *: g1) else Panic.
Proof.
rewrite /kzg_commit evaluate_in_sE polyseqK; case: eqP => [->|/eqP ne].
  by rewrite size_poly0 /= horner0 scale0r.
by rewrite -[last _ _]nth_last -lead_coefE lead_coef_eq0 (negbTE ne).
Qed.

(* a stored list whose polynomial is non-zero but whose last coefficient is 0 *)
Theorem C19_commit_untrimmed_panics (s : F) (n : nat) (p : seq F) :
  has (fun a => a != 0) p -> last 0 p = 0 ->
  kzg_commit (srs_new_from_secret E s n) p = Panic.
Proof.
move=> h l; rewrite /kzg_commit evaluate_in_sE l eqxx -pis_zeroP.
by move: h; rewrite has_predC /pis_zero => /negbTE ->.
Qed.

Theorem C19_commit_vector (s : F) (n : nat) (v : seq F) :
  kzg_commit_vector (srs_new_from_secret E s n) v =
  if (size (Poly v) <= n + 3)%N then Ret ((Poly v).[s] *: g1) else Panic.
Proof. exact: commit_vectorE. Qed.

(* ------------------------------------------------------------------ *)
(* C20 *)
Lemma commit_ret s n (f : {poly F}) a :
  kzg_commit (srs_new_from_secret E s n) f = Ret a ->
  (size f <= n + 3)%N /\ a = f.[s] *: g1.
Proof. by rewrite C19_commit; case: ifP => // _ [<-]. Qed.

Theorem C20_homomorphism (s : F) (n : nat) (f g : {poly F}) (a b : G1 E) (k : F) :
  let commit := kzg_commit (srs_new_from_secret E s n) in
  commit f = Ret a -> commit g = Ret b ->
  [/\ commit (f + g) = Ret (com_add a b),
      commit (f - g) = Ret (com_sub a b),
      commit (- f) = Ret (com_neg a)
    & commit (k *: f) = Ret (com_mul a k)].
Proof.
move=> commit /commit_ret [sf ->] /commit_ret [sg ->].
have sD : (size (f + g)%R <= n + 3)%N.
  by apply: leq_trans (size_add _ _) _; rewrite geq_max sf sg.
have sB : (size (f - g)%R <= n + 3)%N.
  by apply: leq_trans (size_add _ _) _; rewrite geq_max size_opp sf sg.
have sZ : (size (k *: f)%R <= n + 3)%N by exact: leq_trans (size_scale_leq _ _) sf.
by split; rewrite /commit C19_commit ?sD ?sB ?sZ ?size_opp ?sf !hornerE
   /com_add /com_sub /com_neg /com_mul /com_add /= ?scalerDl ?scaleNr ?scalerA.
Qed.

Theorem C20_commit_para (s : F) (n : nat) (k : F) :
  kzg_commit_para (srs_new_from_secret E s n) k =
  kzg_commit (srs_new_from_secret E s n) k%:P.
Proof.
rewrite C19_commit (leq_trans (size_polyC_leq1 k)) ?addn3 // hornerC.
by rewrite /kzg_commit_para /srs_new_from_secret addn3 /index_at /= scale1r.
Qed.

(* ------------------------------------------------------------------ *)
(* C21 *)
Theorem C21_aggregate (cs : seq (G1 E)) (v : F) :
  aggregate_commitments cs v = \sum_(i < size cs) v ^+ i *: cs`_i.
Proof.
rewrite /aggregate_commitments.
have H (st : G1 E * F) :
    (foldl (fun (st : G1 E * F) c => (st.1 + st.2 *: c, st.2 * v)) st cs).1
    = st.1 + \sum_(i < size cs) (st.2 * v ^+ i) *: cs`_i.
  elim: cs st => [|c cs IH] st /=; first by rewrite big_ord0 addr0.
  rewrite IH /= big_ord_recl /= expr0 mulr1 addrA; congr (_ + _).
  by apply: eq_bigr => i _; rewrite /bump /= exprS mulrA.
by rewrite H add0r; apply: eq_bigr => i _; rewrite mul1r.
Qed.

Theorem C21_aggregate_commits (s : F) (n : nat) (fs : seq {poly F}) (cs : seq (G1 E)) (v : F) :
  let commit := kzg_commit (srs_new_from_secret E s n) in
  size cs = size fs ->
  (forall i, (i < size fs)%N -> commit fs`_i = Ret cs`_i) ->
  commit (\sum_(i < size fs) v ^+ i *: fs`_i) = Ret (aggregate_commitments cs v).
Proof.
move=> commit E0 H; rewrite C21_aggregate E0.
have : forall m, (m <= size fs)%N ->
    commit (\sum_(i < m) v ^+ i *: fs`_i) = Ret (\sum_(i < m) v ^+ i *: cs`_i).
  elim=> [|m IH] le.
    by rewrite !big_ord0 /commit C19_commit size_poly0 horner0 scale0r.
  rewrite !big_ord_recr /=.
  have [_ _ _ Z] := C20_homomorphism (v ^+ m) (H _ le) (H _ le).
  by have [D _ _ _] := C20_homomorphism 0 (IH (ltnW le)) Z; exact: D.
exact.
Qed.

(* ------------------------------------------------------------------ *)
(* C22: q is the exact quotient, p = p(z) + (X - z) q *)
Theorem C22_open (s : F) (n : nat) (f : {poly F}) (z : F) :
  f != 0 -> (size f <= n + 4)%N ->
  exists2 q : {poly F}, f = (f.[z])%:P + ('X - z%:P) * q
  & kzg_open (srs_new_from_secret E s n) f z = Ret (q.[s] *: g1, f.[z]).
Proof.
move=> ne le; exists (opening_quotient f z); first by rewrite -opening_quotient_mul addrC subrK.
rewrite /kzg_open open_coeffsE polyseqK.
have -> : (f == [::] :> seq F) = false by rewrite -size_eq0 size_poly_eq0 (negbTE ne).
case: leqP => lt.
  congr (Ret (_, _)); have := size_opening_quotient f z.
  have -> : (size f).-1 = 0%N by case: (size f) lt => [|[]].
  by move/eqP; rewrite size_poly_eq0 => /eqP ->; rewrite horner0 scale0r.
by rewrite -nth_last -lead_coefE lead_coef_eq0 (negbTE ne) le.
Qed.

(* the exact panic set of open on an arbitrary stored list *)
Theorem C22_open_panics_iff (s : F) (n : nat) (p : seq F) (z : F) :
  kzg_open (srs_new_from_secret E s n) p z = Panic <->
  p = [::] \/ ((1 < size (Poly p))%N /\ (last 0 p = 0 \/ (n + 4 < size p)%N)).
Proof.
rewrite /kzg_open open_coeffsE; case: eqP => [|ne]; first by split=> // ?; left.
case: leqP => lt; first by split=> // -[//|[]].
case: eqP => l; first by split=> // _; right; split=> //; left.
case: leqP => le; first by split=> // -[//|[_ []]].
by split=> // _; right; split=> //; right.
Qed.

Theorem C22_open_vector (s : F) (n : nat) (v : seq F) (z : F) :
  has (fun a => a != 0) v -> (size (Poly v) <= n + 4)%N ->
  exists2 q : {poly F}, Poly v = ((Poly v).[z])%:P + ('X - z%:P) * q
  & kzg_open_vector (srs_new_from_secret E s n) v z = Ret (q.[s] *: g1, (Poly v).[z]).
Proof.
rewrite has_predC -/(pis_zero v) pis_zeroP => ne le.
exists (opening_quotient (Poly v) z); first by rewrite -opening_quotient_mul addrC subrK.
by rewrite open_vectorE (negbTE ne) le.
Qed.

Theorem C22_open_vector_panics (s : F) (n : nat) (v : seq F) (z : F) :
  kzg_open_vector (srs_new_from_secret E s n) v z = Panic <->
  all (fun a => a == 0) v \/ (n + 4 < size (Poly v))%N.
Proof.
rewrite open_vectorE -/(pis_zero v) pis_zeroP; case: eqP => _; first by split=> // _; left.
by case: leqP => le; split=> //; [case|move=> _; right].
Qed.

(* ------------------------------------------------------------------ *)
(* verification *)
Section Pairing.
Hypothesis ok : pairing_ok E.

Lemma pair0l c : @pairing F E 0 c = 0.
Proof. by rewrite -(scale0r (0 : G1 E)) (pairing_scalel ok) scale0r. Qed.

Lemma pairNl a c : @pairing F E (- a) c = - pairing a c.
Proof. by rewrite -scaleN1r (pairing_scalel ok) scaleN1r. Qed.

Lemma pairNr a c : @pairing F E a (- c) = - pairing a c.
Proof. by rewrite -scaleN1r (pairing_scaler ok) scaleN1r. Qed.

Lemma pair_inj a b : (@pairing F E a g2 == pairing b g2) = (a == b).
Proof.
apply/eqP/eqP => [|->] // eqab; apply/eqP; rewrite -subr_eq0; apply/eqP.
by apply: (pairing_nondeg ok); rewrite (pairing_addl ok) pairNl eqab subrr.
Qed.

Lemma scale_g1_inj (a b : F) : (a *: g1 == b *: g1) = (a == b).
Proof.
rewrite -subr_eq0 -scalerBl scaler_eq0 subr_eq0.
by rewrite (negbTE (g1_gen_neq0 ok)) orbF.
Qed.

(* C24 *)
Theorem C24_verify_equation (s : F) (n : nat) (C W : G1 E) (y z : F) :
  kzg_verify (srs_new_from_secret E s n) C (W, y) z = ((s - z) *: W == C - y *: g1).
Proof.
rewrite /kzg_verify /= (pairing_addr ok) pairNr !(pairing_scaler ok) -scalerBl.
by rewrite -(pairing_scalel ok) pair_inj.
Qed.

Theorem C24_value_unique (s : F) (n : nat) (C W : G1 E) (y y' z : F) :
  let S := srs_new_from_secret E s n in
  kzg_verify S C (W, y) z -> kzg_verify S C (W, y') z -> y = y'.
Proof.
move=> S; rewrite /S !C24_verify_equation => /eqP -> /eqP E0; apply/eqP; rewrite -scale_g1_inj.
by rewrite -(inj_eq oppr_inj) -(inj_eq (addrI C)); apply/eqP.
Qed.

(* two accepted values for one commitment and point: the s-z inverse in the
   exponent (or z = s) is computable from the two openings *)
Theorem C24_binding (s : F) (n : nat) (C W W' : G1 E) (y y' z : F) :
  let S := srs_new_from_secret E s n in
  kzg_verify S C (W, y) z -> kzg_verify S C (W', y') z -> y <> y' ->
  s <> z /\ (y' - y)^-1 *: (W - W') = (s - z)^-1 *: g1.
Proof.
move=> S; rewrite /S !C24_verify_equation => /eqP E1 /eqP E2 /eqP ne.
have H : (s - z) *: (W - W') = (y' - y) *: g1.
  by rewrite scalerBr E1 E2 scalerBl opprB addrC addrA subrK.
have nz : s - z != 0.
  apply/negP => /eqP E0; move: H; rewrite E0 scale0r => /esym/eqP.
  by rewrite -(scale0r g1) scale_g1_inj subr_eq0 eq_sym (negbTE ne).
split; first by apply/eqP; rewrite -subr_eq0.
rewrite -[W - W']scale1r -(mulVf nz) -scalerA H !scalerA; congr (_ *: _).
by rewrite mulrCA mulVf ?mulr1 // subr_eq0 eq_sym.
Qed.

(* C23 *)
Theorem C23_completeness (s : F) (n : nat) (f : {poly F}) (z : F) :
  let S := srs_new_from_secret E s n in
  f != 0 -> (size f <= n + 3)%N ->
  exists C o, [/\ kzg_commit S f = Ret C, kzg_open S f z = Ret o & kzg_verify S C o z].
Proof.
move=> S ne le; have le4 : (size f <= n + 4)%N by lia.
have [q Eq Eo] := C22_open s z ne le4.
exists (f.[s] *: g1), (q.[s] *: g1, f.[z]); rewrite /S C19_commit le; split=> //.
rewrite C24_verify_equation scalerA -scalerBl; apply/eqP; congr (_ *: _).
by move/(congr1 (horner^~ s)): Eq => ->; rewrite hornerD hornerM hornerXsubC hornerC addrAC subrr add0r.
Qed.

(* C23 for the vector interface *)
Theorem C23_completeness_vector (s : F) (n : nat) (v : seq F) (z : F) :
  let S := srs_new_from_secret E s n in
  has (fun a => a != 0) v -> (size v <= n + 3)%N ->
  exists C o, [/\ kzg_commit_vector S v = Ret C, kzg_open_vector S v z = Ret o
               & kzg_verify S C o z].
Proof.
move=> S ne le; have lep := leq_trans (size_Poly v) le.
have le4 : (size (Poly v) <= n + 4)%N by lia.
have [q Eq Eo] := C22_open_vector s z ne le4.
exists ((Poly v).[s] *: g1), (q.[s] *: g1, (Poly v).[z]); rewrite /S C19_commit_vector lep; split=> //.
rewrite C24_verify_equation scalerA -scalerBl; apply/eqP; congr (_ *: _).
by move/(congr1 (horner^~ s)): Eq => ->; rewrite hornerD hornerM hornerXsubC hornerC addrAC subrr add0r.
Qed.

(* C25 *)
Theorem C25_wrong_value_rejected (s : F) (n : nat) (f : {poly F}) (z y' : F) C W y :
  let S := srs_new_from_secret E s n in
  kzg_commit S f = Ret C -> kzg_open S f z = Ret (W, y) ->
  kzg_verify S C (W, y') z = (y' == f.[z]).
Proof.
move=> S cf of_; have [le EC] := commit_ret cf.
have ne : f != 0.
  apply/negP => /eqP f0; move: of_.
  suff -> : kzg_open S f z = Panic by [].
  by apply/C22_open_panics_iff; left; rewrite f0 polyseq0.
have [C' [o [cf' of' v]]] := C23_completeness s z ne le.
move: v; rewrite -/S in cf' of'; move: cf' of'; rewrite cf of_ => -[<-] [<-] v.
have Ey : y = f.[z].
  have le4 : (size f <= n + 4)%N by lia.
  by have [q _] := C22_open s z ne le4; rewrite -/S of_ => -[].
rewrite -Ey; apply/idP/eqP => [v'|-> //].
exact: C24_value_unique v' v.
Qed.

(* ------------------------------------------------------------------ *)
(* C26.  Item i of a batch is (c_i, z_i, o_i); r i is its random coefficient. *)
Definition batch_item_ok (s : F) (n : nat) (cs : seq (G1 E)) (zs : seq F)
  (os : seq (kzg_opening E)) (i : nat) : bool :=
  kzg_verify (srs_new_from_secret E s n) (nth 0 cs i) (nth (0, 0) os i) (nth 0 zs i).

(* the defect C - y g1 - (s - z) W of an item; zero iff the item verifies *)
Definition defect (s : F) (C : G1 E) (o : kzg_opening E) (z : F) : G1 E :=
  C - o.2 *: g1 - (s - z) *: o.1.

Lemma defectP s n C o z :
  kzg_verify (srs_new_from_secret E s n) C o z = (defect s C o z == 0).
Proof. by case: o => W y; rewrite C24_verify_equation subr_eq0 eq_sym. Qed.

Lemma batch_step (s rk z : F) (a b d W : G1 E) :
  a + rk *: (d + z *: W) - s *: (b + rk *: W) = a - s *: b + rk *: (d - (s - z) *: W).
Proof.
rewrite scalerBl opprB !scalerDr !scalerN !scalerA [s * rk]mulrC opprD.
rewrite -!addrA; congr (_ + _); rewrite [RHS]addrCA; congr (_ + _).
by rewrite addrCA.
Qed.

Lemma batch_verifyE s n cs zs os r :
  batch_verify (srs_new_from_secret E s n) cs zs os r =
  if (size cs == size zs) && (size os == size zs) then
    Ret (\sum_(i < size zs) r i *: defect s (nth 0 cs i) (nth (0, 0) os i) (nth 0 zs i) == 0)
  else Panic.
Proof.
rewrite /batch_verify /oassert; case: eqP => //= e1; case: eqP => //= e2; rewrite -e2.
set stp := (fun _ _ => _).
have H : forall cs zs os e1 e2 k, size cs = size zs -> size os = size zs ->
   let: (a, b, _) := foldl stp (e1, e2, k) (zip (zip cs zs) os) in
   a - s *: b = e1 - s *: e2 +
     \sum_(i < size os) r (k + i)%N *: defect s (nth 0 cs i) (nth (0, 0) os i) (nth 0 zs i).
  elim=> [|c cs' IH] [|z zs'] [|[W y] os'] a b k //= => [_ _|[s1] [s2]].
    by rewrite big_ord0 addr0.
  have := IH zs' os' (a + r k *: (c - y *: g1 + z *: W)) (b + r k *: W) k.+1 s1 s2.
  case: (foldl _ _ _) => [[a' b'] k'] -> {IH}.
  rewrite big_ord_recl /= addn0 addrA; congr (_ + _); last first.
    by apply: eq_bigr => i _; rewrite /bump /= addSnnS.
  exact: batch_step.
have := H cs zs os 0 0 0%N e1 e2.
case: (foldl _ _ _) => [[a b] k]; rewrite scaler0 subrr add0r => <-; congr (Ret _).
by rewrite (pairing_scaler ok) -(pairing_scalel ok) pair_inj subr_eq0.
Qed.

Theorem C26_batch_complete (s : F) (n : nat) cs zs os (r : nat -> F) :
  size cs = size zs -> size os = size zs ->
  (forall i, (i < size zs)%N -> batch_item_ok s n cs zs os i) ->
  batch_verify (srs_new_from_secret E s n) cs zs os r = Ret true.
Proof.
move=> e1 e2 H; rewrite batch_verifyE e1 e2 eqxx /=; congr Ret; apply/eqP.
apply: big1 => i _; have := H i (ltn_ord i).
by rewrite /batch_item_ok defectP => /eqP ->; rewrite scaler0.
Qed.

(* r and r' may differ in coefficient i only *)
Theorem C26_batch_sound (s : F) (n : nat) cs zs os (i : nat) (r r' : nat -> F) :
  (i < size zs)%N -> ~~ batch_item_ok s n cs zs os i ->
  (forall j, j != i -> r j = r' j) ->
  batch_verify (srs_new_from_secret E s n) cs zs os r = Ret true ->
  batch_verify (srs_new_from_secret E s n) cs zs os r' = Ret true ->
  r i = r' i.
Proof.
move=> lt bad same; rewrite !batch_verifyE; case: ifP => // _ [/eqP E1] [/eqP E2].
have := etrans E1 (esym E2).
rewrite (bigD1 (Ordinal lt)) //= [in X in _ = X -> _](bigD1 (Ordinal lt)) //=.
rewrite (eq_bigr (fun j : 'I_(size zs) =>
  r' j *: defect s (nth 0 cs j) (nth (0, 0) os j) (nth 0 zs j))); last first.
  by move=> j nj; rewrite same //; apply: contraNneq nj => e; apply/eqP/val_inj.
move/addIr/eqP; rewrite -subr_eq0 -scalerBl scaler_eq0 => /orP[|/eqP D].
  by rewrite subr_eq0 => /eqP.
by move: bad; rewrite /batch_item_ok defectP D eqxx.
Qed.

Theorem C26_batch_lengths_panic (s : F) (n : nat) cs zs os (r : nat -> F) :
  batch_verify (srs_new_from_secret E s n) cs zs os r = Panic <->
  size cs <> size zs \/ size os <> size zs.
Proof.
rewrite batch_verifyE; case: eqP => e1 /=; last by split=> // _; left.
by case: eqP => e2; split=> //; [case|move=> _; right].
Qed.

(* C27 *)
Theorem C27_sum_of_openings (s : F) (n : nat) (C1 C2 : G1 E) (o1 o2 : kzg_opening E) (z : F) :
  let S := srs_new_from_secret E s n in
  kzg_verify S C1 o1 z -> kzg_verify S C2 o2 z ->
  (opening_add o1 o2).2 = o1.2 + o2.2 /\
  kzg_verify S (com_add C1 C2) (opening_add o1 o2) z = (o1.1 == o2.1) || (z == s).
Proof.
case: o1 o2 => [W1 y1] [W2 y2] S; rewrite /S !C24_verify_equation => /eqP E1 /eqP E2.
split=> //=; rewrite /com_add.
have -> : C1 + C2 - (y1 + y2) *: g1 = (s - z) *: W1 + (s - z) *: W2.
  by rewrite E1 E2 scalerDl opprD addrACA.
rewrite scalerDr (inj_eq (addrI _)) -subr_eq0 -scalerBr scaler_eq0 !subr_eq0 orbC.
by rewrite [z == s]eq_sym.
Qed.

End Pairing.
End KzgProps.
