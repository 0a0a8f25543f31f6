(* C69: soundness of Nova folding.  Three satisfied folds of the same two
   instances under distinct challenges give witnesses for both instances. *)
From Coq Require Import String Ascii NArith.
Set Warnings "-notation-overridden,-ambiguous-paths".
From mathcomp Require Import all_ssreflect all_algebra.
From mathcomp Require Import zify ring.
From Verif Require Import Base BaseLemmas ArkPoly ArkPolyLemmas KzgModel KzgSpec KzgLemmas
  KzgProps NovaModel NovaSpec NovaLemmas NovaTranscript NovaProps NovaSoundSpec.

Set Implicit Arguments.
Unset Strict Implicit.
Unset Printing Implicit Defensive.

Import GRing.Theory.
Local Open Scope ring_scope.

Section Interpolate.
Variable F : fieldType.
Implicit Types (r : F).

Lemma line_slopeP r0 r1 a0 a1 : r0 != r1 ->
  a0 = line_const r0 r1 a0 a1 + r0 * line_slope r0 r1 a0 a1 /\
  a1 = line_const r0 r1 a0 a1 + r1 * line_slope r0 r1 a0 a1.
Proof.
move=> n01; have n : r1 - r0 != 0 by rewrite subr_eq0 eq_sym.
by split; rewrite /line_const /line_slope; field.
Qed.

Lemma paraP r0 r1 r2 a0 a1 a2 : r0 != r1 -> r0 != r2 -> r1 != r2 ->
  let c0 := para0 r0 r1 r2 a0 a1 a2 in
  let c1 := para1 r0 r1 r2 a0 a1 a2 in
  let c2 := para2 r0 r1 r2 a0 a1 a2 in
  [/\ a0 = c0 + r0 * c1 + r0 ^+ 2 * c2, a1 = c0 + r1 * c1 + r1 ^+ 2 * c2
    & a2 = c0 + r2 * c1 + r2 ^+ 2 * c2].
Proof.
move=> n01 n02 n12.
have n1 : r1 - r0 != 0 by rewrite subr_eq0 eq_sym.
have n2 : r2 - r0 != 0 by rewrite subr_eq0 eq_sym.
have n3 : r2 - r1 != 0 by rewrite subr_eq0 eq_sym.
by split; rewrite /para0 /para1 /para2 /line_slope; field; rewrite ?n1 ?n2 ?n3.
Qed.

(* a parabola vanishing at three points is zero *)
Lemma para_eq0 r0 r1 r2 (c0 c1 c2 : F) : r0 != r1 -> r0 != r2 -> r1 != r2 ->
  c0 + r0 * c1 + r0 ^+ 2 * c2 = 0 -> c0 + r1 * c1 + r1 ^+ 2 * c2 = 0 ->
  c0 + r2 * c1 + r2 ^+ 2 * c2 = 0 -> [/\ c0 = 0, c1 = 0 & c2 = 0].
Proof.
move=> n01 n02 n12 e0 e1 e2.
have n1 : r1 - r0 != 0 by rewrite subr_eq0 eq_sym.
have n2 : r2 - r0 != 0 by rewrite subr_eq0 eq_sym.
have n3 : r2 - r1 != 0 by rewrite subr_eq0 eq_sym.
have d1 : c1 + (r0 + r1) * c2 = 0.
  apply: (mulfI n1); rewrite mulr0.
  have -> : (r1 - r0) * (c1 + (r0 + r1) * c2) =
    (c0 + r1 * c1 + r1 ^+ 2 * c2) - (c0 + r0 * c1 + r0 ^+ 2 * c2) by ring.
  by rewrite e1 e0 subrr.
have d2 : c1 + (r0 + r2) * c2 = 0.
  apply: (mulfI n2); rewrite mulr0.
  have -> : (r2 - r0) * (c1 + (r0 + r2) * c2) =
    (c0 + r2 * c1 + r2 ^+ 2 * c2) - (c0 + r0 * c1 + r0 ^+ 2 * c2) by ring.
  by rewrite e2 e0 subrr.
have z2 : c2 = 0.
  apply: (mulfI n3); rewrite mulr0.
  have -> : (r2 - r1) * c2 = (c1 + (r0 + r2) * c2) - (c1 + (r0 + r1) * c2) by ring.
  by rewrite d1 d2 subrr.
move: d1 e0; rewrite z2 mulr0 addr0 => ->; rewrite !mulr0 !addr0 => ->; by split.
Qed.

Lemma size_ew2 (f : F -> F -> F) a b : size (entrywise2 f a b) = size a.
Proof. by rewrite size_mkseq. Qed.
Lemma size_ew3 (f : F -> F -> F -> F) a b c : size (entrywise3 f a b c) = size a.
Proof. by rewrite size_mkseq. Qed.

Lemma nth_ew2 (f : F -> F -> F) a b i : f 0 0 = 0 -> size a = size b ->
  (entrywise2 f a b)`_i = f a`_i b`_i.
Proof.
move=> f0 es; case: (ltnP i (size a)) => lt; first by rewrite nth_mkseq.
by rewrite !nth_default ?size_mkseq -?es.
Qed.
Lemma nth_ew3 (f : F -> F -> F -> F) a b c i : f 0 0 0 = 0 -> size a = size b -> size a = size c ->
  (entrywise3 f a b c)`_i = f a`_i b`_i c`_i.
Proof.
move=> f0 es es'; case: (ltnP i (size a)) => lt; first by rewrite nth_mkseq.
by rewrite !nth_default ?size_mkseq -?es -?es'.
Qed.

Lemma slope00 r0 r1 : line_slope r0 r1 0 0 = 0 :> F.
Proof. by rewrite /line_slope subrr mul0r. Qed.
Lemma const00 r0 r1 : line_const r0 r1 0 0 = 0 :> F.
Proof. by rewrite /line_const slope00 mulr0 subrr. Qed.
Lemma para2_000 r0 r1 r2 : para2 r0 r1 r2 0 0 0 = 0 :> F.
Proof. by rewrite /para2 !slope00 subrr mul0r. Qed.
Lemma para1_000 r0 r1 r2 : para1 r0 r1 r2 0 0 0 = 0 :> F.
Proof. by rewrite /para1 slope00 para2_000 mulr0 subrr. Qed.
Lemma para0_000 r0 r1 r2 : para0 r0 r1 r2 0 0 0 = 0 :> F.
Proof. by rewrite /para0 para1_000 para2_000 !mulr0 !subrr. Qed.

(* the extracted vectors recombine to the answers *)
Lemma line_vec r0 r1 (a0 a1 : seq F) : r0 != r1 -> size a0 = size a1 ->
  let c := entrywise2 (line_const r0 r1) a0 a1 in
  let d := entrywise2 (line_slope r0 r1) a0 a1 in
  a0 = vec_comb r0 c d /\ a1 = vec_comb r1 c d.
Proof.
move=> n01 es c d.
have sc : size c = size a0 by rewrite size_ew2.
have sd : size d = size a0 by rewrite size_ew2.
have nn i : c`_i = line_const r0 r1 a0`_i a1`_i by rewrite nth_ew2 // const00.
have nd i : d`_i = line_slope r0 r1 a0`_i a1`_i by rewrite nth_ew2 // slope00.
by split; apply: (@eq_from_nth _ 0); rewrite ?size_comb ?sc ?sd ?minnn // => i _;
   rewrite nth_comb ?sc ?sd // nn nd; case: (line_slopeP a0`_i a1`_i n01).
Qed.

Definition quad_comb (r : F) (a b c : seq F) : seq F := vec_comb (r * r) (vec_comb r a b) c.

Lemma nth_quad r (a b c : seq F) i : size a = size b -> size a = size c ->
  (quad_comb r a b c)`_i = a`_i + r * b`_i + r ^+ 2 * c`_i.
Proof. by move=> es es'; rewrite /quad_comb !nth_comb ?size_comb -?es ?minnn // expr2. Qed.

Lemma size_quad r (a b c : seq F) : size a = size b -> size a = size c ->
  size (quad_comb r a b c) = size a.
Proof. by move=> es es'; rewrite !size_comb -es -es' !minnn. Qed.

Lemma para_vec r0 r1 r2 (a0 a1 a2 : seq F) :
  r0 != r1 -> r0 != r2 -> r1 != r2 -> size a0 = size a1 -> size a0 = size a2 ->
  let c0 := entrywise3 (para0 r0 r1 r2) a0 a1 a2 in
  let c1 := entrywise3 (para1 r0 r1 r2) a0 a1 a2 in
  let c2 := entrywise3 (para2 r0 r1 r2) a0 a1 a2 in
  [/\ a0 = quad_comb r0 c0 c1 c2, a1 = quad_comb r1 c0 c1 c2 & a2 = quad_comb r2 c0 c1 c2].
Proof.
move=> n01 n02 n12 es es' c0 c1 c2.
have s0 : size c0 = size a0 by rewrite size_ew3.
have s1 : size c1 = size a0 by rewrite size_ew3.
have s2 : size c2 = size a0 by rewrite size_ew3.
have m0 i : c0`_i = para0 r0 r1 r2 a0`_i a1`_i a2`_i by rewrite nth_ew3 // para0_000.
have m1 i : c1`_i = para1 r0 r1 r2 a0`_i a1`_i a2`_i by rewrite nth_ew3 // para1_000.
have m2 i : c2`_i = para2 r0 r1 r2 a0`_i a1`_i a2`_i by rewrite nth_ew3 // para2_000.
by split; apply: (@eq_from_nth _ 0); rewrite ?size_quad ?s0 ?s1 ?s2 // => i _;
   rewrite nth_quad ?s0 ?s1 ?s2 // m0 m1 m2; case: (paraP a0`_i a1`_i a2`_i n01 n02 n12).
Qed.

Lemma Poly_quad r (a b c : seq F) : size a = size b -> size a = size c ->
  Poly (quad_comb r a b c) = Poly a + r *: Poly b + (r ^+ 2) *: Poly c.
Proof. by move=> es es'; rewrite /quad_comb !Poly_comb ?size_comb -?es ?minnn // expr2. Qed.

(* vectors extracted from short polynomials are short *)
Lemma size_Poly_nth (a : seq F) m : (forall i, (m <= i)%N -> a`_i = 0) -> (size (Poly a) <= m)%N.
Proof. by move=> H; apply/leq_sizeP => i le; rewrite coef_Poly H. Qed.

Lemma nth_Poly_short (a : seq F) m i : (size (Poly a) <= m)%N -> (m <= i)%N -> a`_i = 0.
Proof. by move=> /leq_sizeP H le; rewrite -coef_Poly H. Qed.

End Interpolate.

Section Module_.
Variables (F : fieldType) (V : lmodType F).

Lemma line_mod (r0 r1 : F) (c d c' d' : V) : r0 != r1 ->
  c + r0 *: d = c' + r0 *: d' -> c + r1 *: d = c' + r1 *: d' -> c = c' /\ d = d'.
Proof.
move=> n01 e0 e1; have n : r1 - r0 != 0 by rewrite subr_eq0 eq_sym.
have ed : d = d'.
  have : (r1 - r0) *: d = (r1 - r0) *: d'.
    have h (x y : V) : (r1 - r0) *: y = (x + r1 *: y) - (x + r0 *: y).
      by rewrite scalerBl opprD addrACA subrr add0r.
    by rewrite (h c) (h c') e0 e1.
  by move/(congr1 ( *:%R (r1 - r0)^-1)); rewrite !scalerA mulVf // !scale1r.
by split=> //; move: e0; rewrite ed => /addIr.
Qed.

Lemma comb3 (l0 l1 l2 r0 r1 r2 : F) (x y z : V) :
  l0 *: (x + r0 *: y + (r0 ^+ 2) *: z) + l1 *: (x + r1 *: y + (r1 ^+ 2) *: z)
  + l2 *: (x + r2 *: y + (r2 ^+ 2) *: z) =
  (l0 + l1 + l2) *: x + (l0 * r0 + l1 * r1 + l2 * r2) *: y
  + (l0 * r0 ^+ 2 + l1 * r1 ^+ 2 + l2 * r2 ^+ 2) *: z.
Proof.
pose l (i : 'I_3) := nth 0 [:: l0; l1; l2] i.
pose r (i : 'I_3) := nth 0 [:: r0; r1; r2] i.
have s3 (W : zmodType) (f : 'I_3 -> W) : \sum_i f i = f (inord 0) + f (inord 1) + f (inord 2).
  rewrite !big_ord_recl big_ord0 addr0 addrA.
  by congr (f _ + f _ + f _); apply/val_inj; rewrite /= ?inordK.
have := s3 V (fun i => l i *: (x + r i *: y + (r i ^+ 2) *: z)).
rewrite (eq_bigr (fun i => l i *: x + (l i * r i) *: y + (l i * r i ^+ 2) *: z)); last first.
  by move=> i _; rewrite !scalerDr !scalerA.
rewrite !big_split /= -!scaler_suml !s3 /l /r !inordK //=.
Qed.

Lemma para_mod0 (r0 r1 r2 : F) (x y z : V) : r0 != r1 -> r0 != r2 -> r1 != r2 ->
  x + r0 *: y + (r0 ^+ 2) *: z = 0 -> x + r1 *: y + (r1 ^+ 2) *: z = 0 ->
  x + r2 *: y + (r2 ^+ 2) *: z = 0 -> [/\ x = 0, y = 0 & z = 0].
Proof.
move=> n01 n02 n12 e0 e1 e2.
have n1 : r1 - r0 != 0 by rewrite subr_eq0 eq_sym.
have n2 : r2 - r0 != 0 by rewrite subr_eq0 eq_sym.
have n3 : r2 - r1 != 0 by rewrite subr_eq0 eq_sym.
have K l0 l1 l2 : (l0 + l1 + l2) *: x + (l0 * r0 + l1 * r1 + l2 * r2) *: y
  + (l0 * r0 ^+ 2 + l1 * r1 ^+ 2 + l2 * r2 ^+ 2) *: z = 0.
  by rewrite -comb3 e0 e1 e2 !scaler0 !addr0.
pose d0 := ((r1 - r0) * (r2 - r0))^-1; pose d1 := - ((r1 - r0) * (r2 - r1))^-1.
pose d2 := ((r2 - r0) * (r2 - r1))^-1.
have nn : [&& r1 - r0 != 0, r2 - r0 != 0 & r2 - r1 != 0] by rewrite n1 n2 n3.
have X : x = 0.
  have := K (d0 * (r1 * r2)) (d1 * (r0 * r2)) (d2 * (r0 * r1)).
  have -> : d0 * (r1 * r2) + d1 * (r0 * r2) + d2 * (r0 * r1) = 1.
    by rewrite /d0 /d1 /d2; field; case/and3P: nn => -> -> ->.
  have -> : d0 * (r1 * r2) * r0 + d1 * (r0 * r2) * r1 + d2 * (r0 * r1) * r2 = 0.
    by rewrite /d0 /d1 /d2; field; case/and3P: nn => -> -> ->.
  have -> : d0 * (r1 * r2) * r0 ^+ 2 + d1 * (r0 * r2) * r1 ^+ 2 + d2 * (r0 * r1) * r2 ^+ 2 = 0.
    by rewrite /d0 /d1 /d2; field; case/and3P: nn => -> -> ->.
  by rewrite scale1r !scale0r !addr0.
have Z : z = 0.
  have := K d0 d1 d2.
  have -> : d0 + d1 + d2 = 0.
    by rewrite /d0 /d1 /d2; field; case/and3P: nn => -> -> ->.
  have -> : d0 * r0 + d1 * r1 + d2 * r2 = 0.
    by rewrite /d0 /d1 /d2; field; case/and3P: nn => -> -> ->.
  have -> : d0 * r0 ^+ 2 + d1 * r1 ^+ 2 + d2 * r2 ^+ 2 = 1.
    by rewrite /d0 /d1 /d2; field; case/and3P: nn => -> -> ->.
  by rewrite scale1r !scale0r !add0r.
split=> //; move: e0 e1; rewrite X Z !scaler0 !add0r !addr0 => e0 e1.
have : (r1 - r0) *: y = 0 by rewrite scalerBl e0 e1 subrr.
by move/eqP; rewrite scaler_eq0 (negbTE n1) => /eqP.
Qed.

Lemma para_mod (r0 r1 r2 : F) (a b c a' b' c' : V) : r0 != r1 -> r0 != r2 -> r1 != r2 ->
  a + r0 *: b + (r0 ^+ 2) *: c = a' + r0 *: b' + (r0 ^+ 2) *: c' ->
  a + r1 *: b + (r1 ^+ 2) *: c = a' + r1 *: b' + (r1 ^+ 2) *: c' ->
  a + r2 *: b + (r2 ^+ 2) *: c = a' + r2 *: b' + (r2 ^+ 2) *: c' -> [/\ a = a', b = b' & c = c'].
Proof.
move=> n01 n02 n12 e0 e1 e2.
have h (r : F) : a + r *: b + (r ^+ 2) *: c = a' + r *: b' + (r ^+ 2) *: c' ->
    (a - a') + r *: (b - b') + (r ^+ 2) *: (c - c') = 0.
  move=> e; rewrite !scalerBr [a - a' + _]addrACA -opprD addrACA -opprD e; exact: subrr.
have [x y z] := para_mod0 n01 n02 n12 (h _ e0) (h _ e1) (h _ e2).
by split; apply/eqP; rewrite -subr_eq0 ?x ?y ?z.
Qed.

End Module_.

Section Soundness.
Variables (F : fieldType) (E : pairing_group F).
Local Notation g1 := (g1_gen E).
Implicit Types (R : r1cs F) (fi : finstance E) (fw v : fwitness F).

Section Three.
Variables (R : r1cs F) (fi1 fi2 : finstance E) (com_t : G1 E) (s : F) (n : nat).
Variables (r0 r1 r2 : F) (v0 v1 v2 : fwitness F).
Hypotheses (n01 : r0 != r1) (n02 : r0 != r2) (n12 : r1 != r2).
Hypothesis ex : size (fi_x fi1) = size (fi_x fi2).
Let S := srs_new_from_secret E s n.
Hypothesis sat0 : is_r1cs_satisfied R (fold_instance r0 fi1 fi2 com_t) v0 S = Ret tt.
Hypothesis sat1 : is_r1cs_satisfied R (fold_instance r1 fi1 fi2 com_t) v1 S = Ret tt.
Hypothesis sat2 : is_r1cs_satisfied R (fold_instance r2 fi1 fi2 com_t) v2 S = Ret tt.

Let p := extract_left r0 r1 r2 v0 v1 v2.
Let q := extract_right r0 r1 r2 v0 v1 v2.
Let t := extract_cross r0 r1 r2 v0 v1 v2.

Let h0 := proj1 (satisfiedP _ _ _ _ _) sat0.
Let h1 := proj1 (satisfiedP _ _ _ _ _) sat1.
Let h2 := proj1 (satisfiedP _ _ _ _ _) sat2.

Lemma three_w : [/\ size (fw_w p) = num_vars R, size (fw_w q) = num_vars R,
   fw_w v0 = vec_comb r0 (fw_w p) (fw_w q) & fw_w v1 = vec_comb r1 (fw_w p) (fw_w q)].
Proof.
have ew : size (fw_w v0) = size (fw_w v1) by rewrite (sat_w h0) (sat_w h1).
have [a b] := line_vec n01 ew.
by split=> //; rewrite size_ew2 (sat_w h0).
Qed.

Lemma three_e : [/\ size (fw_e p) = size (matrix_c R), size (fw_e q) = size (matrix_c R),
   size t = size (matrix_c R) & 
   [/\ fw_e v0 = quad_comb r0 (fw_e p) t (fw_e q), fw_e v1 = quad_comb r1 (fw_e p) t (fw_e q)
     & fw_e v2 = quad_comb r2 (fw_e p) t (fw_e q)]].
Proof.
have e1 : size (fw_e v0) = size (fw_e v1) by rewrite (sat_e h0) (sat_e h1).
have e2 : size (fw_e v0) = size (fw_e v2) by rewrite (sat_e h0) (sat_e h2).
have := para_vec n01 n02 n12 e1 e2.
by split=> //; rewrite size_ew3 (sat_e h0).
Qed.

Lemma three_com : [/\ commits s p fi1, commits s q fi2 & com_t = (Poly t).[s] *: g1].
Proof.
have [sp sq w0 w1] := three_w; have [ep eq et [e0 e1 e2]] := three_e.
have spq : size (fw_w p) = size (fw_w q) by rewrite sp sq.
have ept : size (fw_e p) = size t by rewrite ep et.
have epq : size (fw_e p) = size (fw_e q) by rewrite ep eq.
have [c0 d0] := sat_commits h0; have [c1 d1] := sat_commits h1; have [c2 d2] := sat_commits h2.
have [W1 W2] : fi_com_w fi1 = (Poly (fw_w p)).[s] *: g1 /\ fi_com_w fi2 = (Poly (fw_w q)).[s] *: g1.
  apply: (line_mod n01); [move: d0|move: d1]; rewrite ?w0 ?w1 Poly_comb //= => ->;
  by rewrite !hornerE scalerA -scalerDl.
have [E1 T E2] : [/\ fi_com_e fi1 = (Poly (fw_e p)).[s] *: g1, com_t = (Poly t).[s] *: g1
    & fi_com_e fi2 = (Poly (fw_e q)).[s] *: g1].
  apply: (para_mod n01 n02 n12); [move: c0|move: c1|move: c2];
  rewrite ?e0 ?e1 ?e2 Poly_quad //= -expr2 => ->;
  by rewrite !hornerE !scalerA -!scalerDl.
by split=> //; split.
Qed.

Lemma three_fit_w : (size (Poly (fw_w p)) <= n + 3)%N /\ (size (Poly (fw_w q)) <= n + 3)%N.
Proof.
have ew : size (fw_w v0) = size (fw_w v1) by rewrite (sat_w h0) (sat_w h1).
split; apply: size_Poly_nth => i le; rewrite nth_ew2 ?const00 ?slope00 //;
by rewrite (nth_Poly_short (sat_fit_w h0) le) (nth_Poly_short (sat_fit_w h1) le) ?const00 ?slope00.
Qed.

Lemma three_fit_e : [/\ (size (Poly (fw_e p)) <= n + 3)%N, (size (Poly t) <= n + 3)%N
  & (size (Poly (fw_e q)) <= n + 3)%N].
Proof.
have e1 : size (fw_e v0) = size (fw_e v1) by rewrite (sat_e h0) (sat_e h1).
have e2 : size (fw_e v0) = size (fw_e v2) by rewrite (sat_e h0) (sat_e h2).
split; apply: size_Poly_nth => i le; rewrite nth_ew3 ?para0_000 ?para1_000 ?para2_000 //;
by rewrite (nth_Poly_short (sat_fit_e h0) le) (nth_Poly_short (sat_fit_e h1) le)
  (nth_Poly_short (sat_fit_e h2) le) ?para0_000 ?para1_000 ?para2_000.
Qed.

(* the answer to the third challenge and the extracted combination always have
   the same commitment *)
Theorem C69_third_answer_commitment :
  kzg_commit_vector S (fw_w v2) = kzg_commit_vector S (vec_comb r2 (fw_w p) (fw_w q)).
Proof.
have [sp sq w0 w1] := three_w.
have spq : size (fw_w p) = size (fw_w q) by rewrite sp sq.
have [[_ P] [_ Q] _] := three_com; have [_ d2] := sat_commits h2.
rewrite !C19_commit_vector (sat_fit_w h2) Poly_comb //.
have [fp fq] := three_fit_w.
have -> : (size (Poly (fw_w p) + r2 *: Poly (fw_w q))%R <= n + 3)%N.
  by rewrite (leq_trans (size_add _ _)) // geq_max fp (leq_trans (size_scale_leq _ _)).
congr Ret; rewrite -d2 /= P Q !hornerE scalerA -scalerDl //.
Qed.

(* if the third answer is the extracted combination, the extracted witnesses
   satisfy both instances and the folded cross term is the honest one *)
Theorem C69_extraction :
  fw_w v2 = vec_comb r2 (fw_w p) (fw_w q) ->
  [/\ is_r1cs_satisfied R fi1 p S = Ret tt,
      is_r1cs_satisfied R fi2 q S = Ret tt,
      compute_t R (fi_u fi1) (fi_u fi2) (fw_w p ++ fi_x fi1 ++ [:: fi_u fi1])
        (fw_w q ++ fi_x fi2 ++ [:: fi_u fi2]) = Ret t
    & kzg_commit_vector S t = Ret com_t].
Proof.
move=> w2; have [sp sq w0 w1] := three_w; have [ep eq et [e0 e1 e2]] := three_e.
have [fp fq] := three_fit_w; have [gp gt gq] := three_fit_e; have [cp cq ct] := three_com.
have spq : size (fw_w p) = size (fw_w q) by rewrite sp sq.
have ept : size (fw_e p) = size t by rewrite ep et.
have epq : size (fw_e p) = size (fw_e q) by rewrite ep eq.
have sx1 : size (fi_x fi1) = num_io R.
  by move: (sat_x h0); rewrite fold_instance_x size_comb -ex minnn.
have ez : size (assignment p fi1) = size (assignment q fi2).
  by rewrite /assignment !size_cat spq ex.
have as_ r v : fw_w v = vec_comb r (fw_w p) (fw_w q) ->
    assignment v (fold_instance r fi1 fi2 com_t) = vec_comb r (assignment p fi1) (assignment q fi2).
  move=> e; rewrite -(@fold_assignment _ _ r p q fi1 fi2 [::] com_t) //.
  by rewrite /assignment fold_witness_w e.
have rows i : (i < size (matrix_a R))%N ->
   let a := nth [::] (matrix_a R) i in
   let b := nth [::] (matrix_b R) i in
   let c := nth [::] (matrix_c R) i in
   let z1 := assignment p fi1 in let z2 := assignment q fi2 in
   [/\ dot a z1 * dot b z1 - fi_u fi1 * dot c z1 - (fw_e p)`_i = 0,
       dot a z1 * dot b z2 + dot a z2 * dot b z1 - fi_u fi1 * dot c z2 - fi_u fi2 * dot c z1 - t`_i = 0
     & dot a z2 * dot b z2 - fi_u fi2 * dot c z2 - (fw_e q)`_i = 0].
  move=> lt a b c z1 z2.
  have R0 := sat_rows h0 lt; have R1 := sat_rows h1 lt; have R2 := sat_rows h2 lt.
  move: R0 R1 R2; rewrite /row_holds !as_ // -/a -/b -/c !dot_comb // -/z1 -/z2.
  rewrite e0 e1 e2 !nth_quad // [fi_u (fold_instance _ _ _ _)]/=.
  rewrite [fi_u (fold_instance r1 _ _ _)]/= [fi_u (fold_instance r2 _ _ _)]/=.
  move: (dot a z1) (dot b z1) (dot c z1) (dot a z2) (dot b z2) (dot c z2) => A1 B1 C1 A2 B2 C2.
  move: (fi_u fi1) (fi_u fi2) (fw_e p)`_i (fw_e q)`_i t`_i => u1 u2 x1 x2 y R0 R1 R2.
  apply: (para_eq0 n01 n02 n12).
  - by move/eqP: R0; rewrite -subr_eq0 => /eqP <-; ring.
  - by move/eqP: R1; rewrite -subr_eq0 => /eqP <-; ring.
  - by move/eqP: R2; rewrite -subr_eq0 => /eqP <-; ring.
split.
- apply/satisfiedP; split=> //; [exact: sat_ac h0|exact: sat_ab h0|].
  move=> i lt; have [I _ _] := rows i lt; rewrite /row_holds.
  by apply/eqP; rewrite -subr_eq0 opprD addrA I.
- apply/satisfiedP; split=> //; [by rewrite -ex|exact: sat_ac h0|exact: sat_ab h0|].
  move=> i lt; have [_ _ I] := rows i lt; rewrite /row_holds.
  by apply/eqP; rewrite -subr_eq0 opprD addrA I.
- rewrite compute_tE (sat_ab h0) (sat_ac h0) eqxx /=; congr Ret.
  apply: (@eq_from_nth _ 0); rewrite size_mkseq ?et // => i lt.
  rewrite nth_mkseq // /cross_row -/(assignment p fi1) -/(assignment q fi2).
  have := rows i; rewrite (sat_ac h0) => /(_ lt) [_ I _].
  by apply/eqP; rewrite -subr_eq0 I.
- by rewrite C19_commit_vector gt -ct.
Qed.

End Three.

(* a prover answering three or more challenges for the same instances and
   cross-term commitment either holds witnesses for both instances, or three of
   its answers exhibit two vectors with the same commitment *)
Theorem C69_accepting_challenges R fi1 fi2 (com_t : G1 E) (s : F) (n : nat)
    (answer : F -> fwitness F) (rs : seq F) :
  let S := srs_new_from_secret E s n in
  size (fi_x fi1) = size (fi_x fi2) ->
  uniq rs -> (2 < size rs)%N ->
  {in rs, forall r, is_r1cs_satisfied R (fold_instance r fi1 fi2 com_t) (answer r) S = Ret tt} ->
  let r0 := rs`_0 in let r1 := rs`_1 in
  let w2 r := vec_comb r
    (fw_w (extract_left r0 r1 r (answer r0) (answer r1) (answer r)))
    (fw_w (extract_right r0 r1 r (answer r0) (answer r1) (answer r))) in
  (exists fw1 fw2, is_r1cs_satisfied R fi1 fw1 S = Ret tt /\
                   is_r1cs_satisfied R fi2 fw2 S = Ret tt) \/
  {in drop 2 rs, forall r, fw_w (answer r) <> w2 r /\
     kzg_commit_vector S (fw_w (answer r)) = kzg_commit_vector S (w2 r)}.
Proof.
move=> S ex; case: rs => [|r0 [|r1 [|r2 rs]]] //= /andP[] + /andP[+ _] _ ok.
rewrite inE negb_or => /andP[n01 nin0] nin1.
set bad := fun r => fw_w (answer r) != vec_comb r
    (fw_w (extract_left r0 r1 r (answer r0) (answer r1) (answer r)))
    (fw_w (extract_right r0 r1 r (answer r0) (answer r1) (answer r))).
have sat r : r \in [:: r0, r1, r2 & rs] -> is_r1cs_satisfied R (fold_instance r fi1 fi2 com_t)
    (answer r) (srs_new_from_secret E s n) = Ret tt by exact: ok.
have sub r : r \in r2 :: rs -> [/\ r0 != r, r1 != r & r \in [:: r0, r1, r2 & rs]].
  move=> rin; split.
  - by apply: contraNneq nin0 => ->.
  - by apply: contraNneq nin1 => ->.
  - by rewrite !in_cons in rin *; rewrite rin !orbT.
have s0 := sat r0 (mem_head _ _); have s1 := sat r1.
have {}s1 := s1 (ltac:(by rewrite !inE eqxx orbT)).
case: (boolP (all bad (r2 :: rs))) => [/allP H|/allPn[r rin]].
  right=> r rin; have [n0 n1 rin'] := sub r rin; split; first exact/eqP/H.
  exact: (C69_third_answer_commitment n01 n0 n1 s0 s1 (sat r rin')).
rewrite negbK => /eqP e; have [n0 n1 rin'] := sub r rin; left.
have [a b _ _] := C69_extraction n01 n0 n1 ex s0 s1 (sat r rin') e.
by exists (extract_left r0 r1 r (answer r0) (answer r1) (answer r)),
  (extract_right r0 r1 r (answer r0) (answer r1) (answer r)).
Qed.

(* equal numbers of public inputs are needed: an instance with surplus public
   inputs has no witness, yet it folds like the instance without them *)
Theorem C69_surplus_inputs_dropped R fi1 (ce cw : G1 E) (u : F) (x extra : seq F)
    (com_t : G1 E) (s : F) (n : nat) :
  size x = num_io R -> size (fi_x fi1) = num_io R -> extra <> [::] ->
  (forall fw, is_r1cs_satisfied R (FInstance ce u cw (x ++ extra)) fw
     (srs_new_from_secret E s n) <> Ret tt) /\
  (forall r, fold_instance r fi1 (FInstance ce u cw (x ++ extra)) com_t =
             fold_instance r fi1 (FInstance ce u cw x) com_t).
Proof.
move=> sx s1 ne; split.
  move=> fw /satisfiedP h; have := sat_x h; rewrite /= size_cat sx => /eqP.
  by rewrite -[X in _ == X]addn0 eqn_add2l size_eq0 => /eqP.
move=> r; rewrite /fold_instance /=; congr FInstance.
rewrite -[fi_x fi1]cats0 zip_cat ?s1 ?sx //= cats0.
by case: extra ne => // *; rewrite /= ?cats0.
Qed.

End Soundness.
