(* The Nova properties C28-C37 (vectors, R1CS, folding, NIFS, transcript). *)
From Coq Require Import String Ascii NArith.
Set Warnings "-notation-overridden,-ambiguous-paths".
From mathcomp Require Import all_ssreflect all_algebra.
From mathcomp Require Import zify ring.
From Verif Require Import Base BaseLemmas ArkPoly ArkPolyLemmas KzgModel KzgSpec KzgLemmas
  KzgProps NovaModel NovaSpec NovaLemmas NovaTranscript.

Set Implicit Arguments.
Unset Strict Implicit.
Unset Printing Implicit Defensive.

Import GRing.Theory.
Local Open Scope ring_scope.

(* ------------------------------------------------------------------ *)
(* C28 *)
Section C28.
Variable F : fieldType.
Implicit Types (a b z : seq F) (m : seq (seq F)).

Theorem C28_matrix_vector m z :
  matrix_vector_product m z = [seq dot row z | row <- m].
Proof. exact: matrix_vectorE. Qed.

Theorem C28_hadamard a b :
  hadamard_product a b =
  if (size b < size a)%N then Panic else Ret (mkseq (fun i => a`_i * b`_i) (size a)).
Proof.
rewrite hadamardE leqNgt; case: ltnP => //= le; congr Ret; apply: (@eq_from_nth _ 0).
  by rewrite size_mkseq size_map size_zip (minn_idPl le).
move=> i; rewrite size_map size_zip (minn_idPl le) => lt; rewrite nth_mkseq //.
by rewrite (nth_map (0, 0)) ?size_zip ?(minn_idPl le) // nth_zip_cond size_zip (minn_idPl le) lt.
Qed.

Theorem C28_scale a u : vector_elem_product a u = mkseq (fun i => a`_i * u) (size a).
Proof.
apply: (@eq_from_nth _ 0); rewrite ?size_mkseq ?size_map // => i lt.
by rewrite nth_mkseq // (nth_map 0).
Qed.

Theorem C28_add a b :
  vec_add a b = if size a == size b then Ret (mkseq (fun i => a`_i + b`_i) (size a)) else Panic.
Proof.
rewrite vec_addE; case: eqP => // es; congr Ret; apply: (@eq_from_nth _ 0).
  by rewrite size_mkseq size_map size_zip es minnn.
by move=> i; rewrite size_map size_zip -es minnn => lt; rewrite nth_mkseq // (nth_map_zip +%R).
Qed.

Theorem C28_sub a b :
  vec_sub a b = if size a == size b then Ret (mkseq (fun i => a`_i - b`_i) (size a)) else Panic.
Proof.
rewrite vec_subE; case: eqP => // es; congr Ret; apply: (@eq_from_nth _ 0).
  by rewrite size_mkseq size_map size_zip es minnn.
move=> i; rewrite size_map size_zip -es minnn => lt; rewrite nth_mkseq //.
by rewrite (nth_map_zip (fun x y => x - y)).
Qed.

Theorem C28_equal a b : vec_equal a b = (a == b).
Proof. exact: vec_equalE. Qed.

End C28.

(* ------------------------------------------------------------------ *)
Section Folding.
Variables (F B : fieldType) (E : pairing_group F) (X : nova_env B E).
Local Notation g1 := (g1_gen E).
Implicit Types (R : r1cs F) (fi : finstance E) (fw : fwitness F).

(* C29 *)
Theorem C29_satisfied_iff R fi fw (s : F) (n : nat) :
  is_r1cs_satisfied R fi fw (srs_new_from_secret E s n) = Ret tt <->
  [/\ size (fw_w fw) = num_vars R /\ size (fi_x fi) = num_io R,
      [/\ size (fw_e fw) = size (matrix_c R), size (matrix_a R) = size (matrix_c R)
        & (size (matrix_a R) <= size (matrix_b R))%N],
      forall i, (i < size (matrix_a R))%N ->
        row_holds R (fw_w fw ++ fi_x fi ++ [:: fi_u fi]) (fw_e fw) (fi_u fi) i,
      (size (Poly (fw_w fw)) <= n + 3)%N /\ (size (Poly (fw_e fw)) <= n + 3)%N
    & commits s fw fi].
Proof.
split=> [/satisfiedP[] *|[[? ?] [? ? ?] ? [? ?] ?]]; first by split.
by apply/satisfiedP; split.
Qed.

Theorem C29_shape_panics R fi fw (s : F) (n : nat) :
  size (fw_w fw) = num_vars R -> size (fi_x fi) = num_io R ->
  size (fw_e fw) <> size (matrix_c R) \/ (size (matrix_b R) < size (matrix_a R))%N ->
  is_r1cs_satisfied R fi fw (srs_new_from_secret E s n) = Panic.
Proof.
move=> ew ex H; rewrite satisfiedE ew ex !eqxx /=.
case: andP => // -[le /eqP e]; case: H => [|lt]; first by rewrite e.
by move: le; rewrite leqNgt lt.
Qed.

(* C31: the i-th entry of the cross term makes the fold identity hold *)
Theorem C31_cross_term R (u1 u2 r : F) (z1 z2 t : seq F) (i : nat) :
  size z1 = size z2 -> compute_t R u1 u2 z1 z2 = Ret t -> (i < size (matrix_a R))%N ->
  let a := nth [::] (matrix_a R) i in
  let b := nth [::] (matrix_b R) i in
  let c := nth [::] (matrix_c R) i in
  let z := vec_comb r z1 z2 in
  dot a z * dot b z - (u1 + r * u2) * dot c z =
  (dot a z1 * dot b z1 - u1 * dot c z1) + r * t`_i
  + r ^+ 2 * (dot a z2 * dot b z2 - u2 * dot c z2).
Proof.
move=> es; rewrite compute_tE; case: ifP => // _ [<-] lt a b c z.
by rewrite nth_mkseq // /cross_row -/a -/b -/c !dot_comb //; ring.
Qed.

Theorem C31_cross_term_total R (u1 u2 : F) (z1 z2 : seq F) :
  (exists2 t, compute_t R u1 u2 z1 z2 = Ret t & size t = size (matrix_a R)) <->
  (size (matrix_a R) <= size (matrix_b R))%N /\ size (matrix_a R) = size (matrix_c R).
Proof.
rewrite compute_tE; split.
  by case=> t; case: andP => // -[? /eqP].
case=> le /eqP e; rewrite le e /=; eexists; first by [].
by rewrite size_mkseq.
Qed.

(* C32 *)
Theorem C32_fold_commutes (s r : F) fw1 fw2 fi1 fi2 (t : seq F) :
  size (fw_w fw1) = size (fw_w fw2) ->
  size (fw_e fw1) = size (fw_e fw2) -> size t = size (fw_e fw1) ->
  commits s fw1 fi1 -> commits s fw2 fi2 ->
  let com_t := (Poly t).[s] *: g1 in
  commits s (fold_witness r fw1 fw2 t) (fold_instance r fi1 fi2 com_t) /\
  nifs_verifier r fi1 fi2 com_t = fold_instance r fi1 fi2 com_t.
Proof. by move=> ew ee et c1 c2 ct; split=> //; exact: fold_commits. Qed.

(* the folded vectors, entry by entry *)
Theorem C32_fold_entries (r : F) fw1 fw2 fi1 fi2 (t : seq F) (com_t : G1 E) (i : nat) :
  size (fw_w fw1) = size (fw_w fw2) -> size (fi_x fi1) = size (fi_x fi2) ->
  size (fw_e fw1) = size (fw_e fw2) -> size t = size (fw_e fw1) ->
  let fw := fold_witness r fw1 fw2 t in
  let fi := fold_instance r fi1 fi2 com_t in
  [/\ (fw_e fw)`_i = (fw_e fw1)`_i + r * t`_i + r ^+ 2 * (fw_e fw2)`_i,
      (fw_w fw)`_i = (fw_w fw1)`_i + r * (fw_w fw2)`_i,
      (fi_x fi)`_i = (fi_x fi1)`_i + r * (fi_x fi2)`_i
    & fi_u fi = fi_u fi1 + r * fi_u fi2].
Proof.
move=> ew ex ee et fw fi; split.
- by rewrite fold_witness_e !nth_comb ?size_comb ?et ?minnn // expr2.
- by rewrite fold_witness_w nth_comb.
- by rewrite fold_instance_x nth_comb.
- by rewrite /= mulrC.
Qed.

Lemma size_fold_e r fw1 fw2 t :
  size (fw_e fw1) = size (fw_e fw2) -> size t = size (fw_e fw1) ->
  size (fw_e (fold_witness r fw1 fw2 t)) = size (fw_e fw1).
Proof. by move=> ee et; rewrite fold_witness_e !size_comb et -ee !minnn. Qed.

Lemma size_fold_w r fw1 fw2 t :
  size (fw_w fw1) = size (fw_w fw2) ->
  size (fw_w (fold_witness r fw1 fw2 t)) = size (fw_w fw1).
Proof. by move=> ew; rewrite fold_witness_w size_comb -ew minnn. Qed.

(* C30: for every challenge r *)
Theorem C30_fold_any_challenge R fi1 fi2 fw1 fw2 (s r : F) (n : nat) (t : seq F) (com_t : G1 E) :
  let S := srs_new_from_secret E s n in
  is_r1cs_satisfied R fi1 fw1 S = Ret tt ->
  is_r1cs_satisfied R fi2 fw2 S = Ret tt ->
  compute_t R (fi_u fi1) (fi_u fi2) (fw_w fw1 ++ fi_x fi1 ++ [:: fi_u fi1])
    (fw_w fw2 ++ fi_x fi2 ++ [:: fi_u fi2]) = Ret t ->
  kzg_commit_vector S t = Ret com_t ->
  is_r1cs_satisfied R (fold_instance r fi1 fi2 com_t) (fold_witness r fw1 fw2 t) S = Ret tt.
Proof.
move=> S /satisfiedP s1 /satisfiedP s2 Et; rewrite C19_commit_vector; case: leqP => // ft [<-].
have ew : size (fw_w fw1) = size (fw_w fw2) by rewrite (sat_w s1) (sat_w s2).
have ex : size (fi_x fi1) = size (fi_x fi2) by rewrite (sat_x s1) (sat_x s2).
have ee : size (fw_e fw1) = size (fw_e fw2) by rewrite (sat_e s1) (sat_e s2).
have et : size t = size (fw_e fw1).
  by move: Et; rewrite compute_tE; case: ifP => // _ [<-]; rewrite size_mkseq (sat_e s1) (sat_ac s1).
have ez : size (assignment fw1 fi1) = size (assignment fw2 fi2).
  by rewrite /assignment !size_cat ew ex.
apply/satisfiedP; split.
- by rewrite size_fold_w // (sat_w s1).
- by rewrite fold_instance_x size_comb -ex minnn (sat_x s1).
- by rewrite size_fold_e // (sat_e s1).
- exact: sat_ac s1.
- exact: sat_ab s1.
- move=> i lt; rewrite /row_holds fold_assignment //.
  have := C31_cross_term r ez Et lt; rewrite /= => I.
  have [-> _ _ _] := @C32_fold_entries r fw1 fw2 fi1 fi2 t 0 i ew ex ee et.
  have := sat_rows s1 lt; have := sat_rows s2 lt; rewrite /row_holds.
  move: I; rewrite -/(assignment fw1 fi1) -/(assignment fw2 fi2).
  move=> /eqP; rewrite subr_eq => /eqP -> -> ->.
  rewrite /= [fi_u fi2 * r]mulrC expr2.
  move: (dot _ _) (dot _ _) (dot _ _) (fi_u fi1) (fi_u fi2) => c1 c2 c3 v1 v2.
  by move: (fw_e fw1)`_i (fw_e fw2)`_i t`_i => e1 e2 ti; ring.
- rewrite fold_witness_w Poly_comb //; apply: leq_trans (size_add _ _) _.
  by rewrite geq_max (sat_fit_w s1) (leq_trans (size_scale_leq _ _)) ?(sat_fit_w s2).
- rewrite fold_witness_e Poly_comb ?size_comb ?et ?minnn // Poly_comb ?et //.
  apply: leq_trans (size_add _ _) _; rewrite geq_max (leq_trans (size_add _ _)) /=.
    by rewrite (leq_trans (size_scale_leq _ _)) ?(sat_fit_e s2).
  by rewrite geq_max (sat_fit_e s1) (leq_trans (size_scale_leq _ _)).
- by apply: fold_commits => //; [exact: sat_commits s1|exact: sat_commits s2].
Qed.

Lemma nifs_proverP R fw1 fw2 fi1 fi2 (S : srs E) t fw fi com_t r t' :
  nifs_prover X R fw1 fw2 fi1 fi2 S t = Ret (fw, fi, com_t, r, t') ->
  exists tv,
  [/\ compute_t R (fi_u fi1) (fi_u fi2) (assignment fw1 fi1) (assignment fw2 fi2) = Ret tv,
      kzg_commit_vector S tv = Ret com_t,
      nt_challenge X (nt_feed X (nt_feed_scalar X (nt_feed_scalar X t (fi_u fi1)) (fi_u fi2)) com_t)
        = Ret (r, t'),
      fw = fold_witness r fw1 fw2 tv & fi = fold_instance r fi1 fi2 com_t].
Proof.
rewrite /nifs_prover -/(assignment fw1 fi1) -/(assignment fw2 fi2).
inv_bind=> tv Et; inv_bind=> ct Ec; inv_bind=> -[r0 t0] Er [<- <- <- <- <-].
by exists tv.
Qed.

(* C30: the pair returned by the prover *)
Theorem C30_prover_preserves R fi1 fi2 fw1 fw2 (s : F) (n : nat) t fw fi com_t r t' :
  let S := srs_new_from_secret E s n in
  is_r1cs_satisfied R fi1 fw1 S = Ret tt ->
  is_r1cs_satisfied R fi2 fw2 S = Ret tt ->
  nifs_prover X R fw1 fw2 fi1 fi2 S t = Ret (fw, fi, com_t, r, t') ->
  is_r1cs_satisfied R fi fw S = Ret tt.
Proof.
move=> S s1 s2 /nifs_proverP[tv [Et Ec _ -> ->]].
exact: C30_fold_any_challenge s1 s2 Et Ec.
Qed.

(* ... and the prover does return *)
Theorem C30_prover_returns R fi1 fi2 fw1 fw2 (s : F) (n : nat) t :
  let S := srs_new_from_secret E s n in
  (forall b, (8 <= size (digest X b))%N) ->
  (size (matrix_c R) <= n + 3)%N ->
  is_r1cs_satisfied R fi1 fw1 S = Ret tt ->
  is_r1cs_satisfied R fi2 fw2 S = Ret tt ->
  exists fw fi com_t r t', nifs_prover X R fw1 fw2 fi1 fi2 S t = Ret (fw, fi, com_t, r, t').
Proof.
move=> S Hl le /satisfiedP s1 /satisfiedP s2; rewrite /nifs_prover compute_tE.
rewrite (sat_ab s1) (sat_ac s1) eqxx bindRet C19_commit_vector.
rewrite (leq_trans (size_Poly _)) ?size_mkseq // bindRet challenge_absorb //=.
by do 5 eexists.
Qed.

(* ------------------------------------------------------------------ *)
(* NIFS proofs *)
Section Pairing.
Hypothesis ok : pairing_ok E.

Lemma verify_open_vector (s : F) (n : nat) (v : seq F) (z : F) o :
  kzg_open_vector (srs_new_from_secret E s n) v z = Ret o ->
  kzg_verify (srs_new_from_secret E s n) ((Poly v).[s] *: g1) o z.
Proof.
rewrite open_vectorE; case: ifP => // _; case: ifP => // _ [<-].
rewrite C24_verify_equation // /commitment_of scalerA -scalerBl; apply/eqP; congr (_ *: _).
by rewrite -[in LHS](hornerXsubC z s) -hornerM -opening_quotient_mul hornerD hornerN hornerC.
Qed.

Lemma verify_of_commits R fi1 fi2 fw1 fw2 (s : F) (n : nat) t fw fi com_t r t1 pf t2 :
  let S := srs_new_from_secret E s n in
  nifs_prover X R fw1 fw2 fi1 fi2 S t = Ret (fw, fi, com_t, r, t1) ->
  commits s fw fi ->
  nifs_prove X r fw fi S t1 = Ret (pf, t2) ->
  np_r pf = r /\
  nifs_verify X pf fi1 fi2 (nifs_verifier r fi1 fi2 com_t) com_t S t = Ret t2.
Proof.
move=> S /nifs_proverP[tv [_ _ Er _ Efi]] [ce cw].
rewrite /nifs_prove; inv_bind=> -[pt t3] Ept.
inv_bind=> oe Eoe; inv_bind=> ow Eow [<- <-].
have V : verify_challenge X r (fi_u fi1) (fi_u fi2) com_t t = Ret t1.
  by rewrite /verify_challenge Er bindRet eqxx.
split=> //; rewrite /nifs_verify /= V bindRet /verify_opening /nifs_verifier -Efi Ept bindRet /= eqxx /=.
by rewrite cw ce !verify_open_vector.
Qed.

(* C33: no satisfaction hypothesis is needed *)
Theorem C33_nifs_complete R fi1 fi2 fw1 fw2 (s : F) (n : nat) t fw fi com_t r t1 pf t2 :
  let S := srs_new_from_secret E s n in
  size (fw_w fw1) = size (fw_w fw2) ->
  size (fw_e fw1) = size (matrix_a R) -> size (fw_e fw2) = size (matrix_a R) ->
  commits s fw1 fi1 -> commits s fw2 fi2 ->
  nifs_prover X R fw1 fw2 fi1 fi2 S t = Ret (fw, fi, com_t, r, t1) ->
  nifs_prove X r fw fi S t1 = Ret (pf, t2) ->
  nifs_verifier r fi1 fi2 com_t = fi /\
  nifs_verify X pf fi1 fi2 (nifs_verifier r fi1 fi2 com_t) com_t S t = Ret t2.
Proof.
move=> S ew e1 e2 c1 c2 P0 P; have [tv [Et Ec Er Efw Efi]] := nifs_proverP P0.
split; first by rewrite Efi.
have Etv : size tv = size (matrix_a R).
  by move: Et; rewrite compute_tE; case: ifP => // _ [<-]; rewrite size_mkseq.
have EC : com_t = (Poly tv).[s] *: g1.
  by move: Ec; rewrite C19_commit_vector; case: ifP => // _ [<-].
have cm : commits s fw fi.
  by rewrite Efw Efi EC; apply: fold_commits => //; rewrite ?e1 ?e2 ?Etv.
by have [] := verify_of_commits P0 cm P.
Qed.

(* C34 *)
Theorem C34_prove_zero_panics fw fi (s : F) (n : nat) r t :
  all (fun a => a == 0) (fw_e fw) || all (fun a => a == 0) (fw_w fw) ->
  nifs_prove X r fw fi (srs_new_from_secret E s n) t = Panic.
Proof.
move=> z; rewrite /nifs_prove.
case: (challenge_cases X (nt_feed X (nt_feed X t (fi_com_e fi)) (fi_com_w fi))) => [|->] //.
case: (nt_challenge _ _) => // -[pt t3] _; rewrite bindRet.
case/orP: z => z.
  by rewrite (proj2 (C22_open_vector_panics _ _ _ _ _)); last by left.
case: (kzg_open_vector _ (fw_e fw) pt) (open_vectorE E s n (fw_e fw) pt) => [oe|m|] //.
  by move=> _; rewrite bindRet (proj2 (C22_open_vector_panics _ _ _ _ _)); last by left.
by case: ifP => // _; case: ifP.
Qed.

Theorem C34_self_fold_panics R fi fw (s : F) (n : nat) t fw' fi' com_t r t' :
  let S := srs_new_from_secret E s n in
  is_r1cs_satisfied R fi fw S = Ret tt -> all (fun a => a == 0) (fw_e fw) ->
  nifs_prover X R fw fw fi fi S t = Ret (fw', fi', com_t, r, t') ->
  nifs_prove X r fw' fi' S t' = Panic.
Proof.
move=> S /satisfiedP st /allP z /nifs_proverP[tv [Et _ _ -> ->]].
apply: C34_prove_zero_panics; apply/orP; left.
have et : size tv = size (fw_e fw).
  by move: Et; rewrite compute_tE; case: ifP => // _ [<-]; rewrite size_mkseq (sat_e st) (sat_ac st).
have z0 i : (fw_e fw)`_i = 0.
  case: (ltnP i (size (fw_e fw))) => lt; last by rewrite nth_default.
  by apply/eqP/z/mem_nth.
apply/(all_nthP 0) => i; rewrite size_fold_e // => lt.
have lt' : (i < size (matrix_a R))%N by rewrite (sat_ac st) -(sat_e st).
rewrite fold_witness_e !nth_comb ?size_comb ?et ?minnn // z0.
move: Et; rewrite compute_tE; case: ifP => // _ [<-]; rewrite nth_mkseq // /cross_row.
have := sat_rows st lt'; rewrite /row_holds z0 addr0 => ->.
by rewrite addrK subrr !mulr0 !addr0.
Qed.

(* C35: whatever the relation, an unsatisfied fold is accepted *)
Theorem C35_accepts_unsatisfied R fi1 fi2 fw1 fw2 (s : F) (n : nat) t fw fi com_t r t1 pf t2 :
  let S := srs_new_from_secret E s n in
  size (fw_w fw1) = size (fw_w fw2) ->
  size (fw_e fw1) = size (matrix_a R) -> size (fw_e fw2) = size (matrix_a R) ->
  commits s fw1 fi1 -> commits s fw2 fi2 ->
  nifs_prover X R fw1 fw2 fi1 fi2 S t = Ret (fw, fi, com_t, r, t1) ->
  nifs_prove X r fw fi S t1 = Ret (pf, t2) ->
  is_r1cs_satisfied R fi fw S <> Ret tt ->
  exists t3, nifs_verify X pf fi1 fi2 (nifs_verifier r fi1 fi2 com_t) com_t S t = Ret t3.
Proof.
by move=> S ew e1 e2 c1 c2 P1 P2 _; exists t2; have [_] := C33_nifs_complete ew e1 e2 c1 c2 P1 P2.
Qed.

Lemma kzg_verify00 (s : F) n (pt : F) : kzg_verify (srs_new_from_secret E s n) 0 (0, 0) pt.
Proof. by rewrite C24_verify_equation // scaler0 scale0r subrr. Qed.

(* C35: a proof accepted for arbitrary public inputs and scalars, made without
   any witness *)
Theorem C35_forgery (x1 x2 : seq F) (u1 u2 s : F) (n : nat) t :
  (forall b, (8 <= size (digest X b))%N) ->
  exists pf t',
    let fi1 := FInstance (0 : G1 E) u1 0 x1 in
    let fi2 := FInstance (0 : G1 E) u2 0 x2 in
    nifs_verify X pf fi1 fi2 (nifs_verifier (np_r pf) fi1 fi2 0) 0 (srs_new_from_secret E s n) t
    = Ret t'.
Proof.
move=> Hl.
case Er: (nt_challenge X (nt_feed X (nt_feed_scalar X (nt_feed_scalar X t u1) u2) 0)) =>
  [[r t1]||]; try by rewrite challenge_absorb in Er.
case Ep: (nt_challenge X (nt_feed X (nt_feed X t1 0) 0)) => [[pt t2]||];
  try by rewrite challenge_absorb in Ep.
exists (NifsProof r pt (0 : G1 E, 0) (0 : G1 E, 0)), t2 => /=.
rewrite /nifs_verify /verify_challenge /= Er /= eqxx /= /verify_opening /=.
by rewrite !scaler0 !addr0 Ep /= eqxx /= !kzg_verify00.
Qed.

(* C36 *)
Theorem C36_challenge_ignores_instances pf (fi1 fi2 fi1' fi2' fi3 : finstance E) com_t
  (S : srs E) t :
  fi_u fi1 = fi_u fi1' -> fi_u fi2 = fi_u fi2' ->
  nifs_verify X pf fi1 fi2 fi3 com_t S t = nifs_verify X pf fi1' fi2' fi3 com_t S t.
Proof. by rewrite /nifs_verify => -> ->. Qed.

(* the prover can pick the first instance after seeing the challenge: an
   accepting proof for any chosen folded commitments transfers to it *)
Theorem C36_adaptive_instance pf (fi2 : finstance E) (u1 : F) (x : seq F) (ce cw com_t : G1 E)
  (S : srs E) t t' (xs : seq F) :
  nifs_verify X pf (FInstance ce u1 cw xs) fi2 (FInstance ce u1 cw xs) com_t S t = Ret t' ->
  exists fi1, [/\ fi_u fi1 = u1, fi_x fi1 = x
    & let fi3 := nifs_verifier (np_r pf) fi1 fi2 com_t in
      [/\ fi_com_e fi3 = ce, fi_com_w fi3 = cw
        & nifs_verify X pf fi1 fi2 fi3 com_t S t = Ret t']].
Proof.
move=> V; set r := np_r pf.
exists (FInstance (ce - (r * r) *: fi_com_e fi2 - r *: com_t) u1 (cw - r *: fi_com_w fi2) x).
split=> //; have e1 : ce - (r * r) *: fi_com_e fi2 - r *: com_t + r *: com_t
  + (r * r) *: fi_com_e fi2 = ce by rewrite !subrK.
split=> //=; first by rewrite subrK.
by move: V; rewrite /nifs_verify /verify_opening /= e1 subrK.
Qed.

End Pairing.
End Folding.

(* ------------------------------------------------------------------ *)
(* C37 *)
Section C37.
Variables (F B : fieldType) (E : pairing_group F) (X : nova_env B E).
Implicit Types (ops : seq (nt_op E)).
Local Notation H := (digest X).


Lemma hungry_rcons ops o : hungry (rcons ops o) <->
  hungry ops \/ (~~ is_feed o /\ (ops = [::] \/ exists ops' n', ops = rcons ops' (NChallenges n'))).
Proof.
split.
  case=> pre [n [post [Eo C]]]; case/lastP: post Eo => [|post o'].
    by rewrite cats1 => /rcons_inj[-> ->]; right.
  rewrite -rcons_cons -rcons_cat => /rcons_inj[-> _]; left.
  by exists pre, n, post.
case=> [[pre [n [post [-> C]]]]|[nf C]].
  by exists pre, n, (rcons post o); split=> //; rewrite -rcons_cons -rcons_cat.
by case: o nf => // n _; exists ops, n, [::]; rewrite cats1.
Qed.

Lemma nt_run_rcons t ops o :
  nt_run X t (rcons ops o) =
  (r1 <- nt_run X t ops;; r2 <- nt_step X r1.2 o;; Ret (rcons r1.1 r2.1, r2.2)).
Proof.
rewrite -cats1 nt_run_cat; case: (nt_run X t ops) => [[outs t1]||] //=.
by case: (nt_step X t1 o) => [[out t2]||] //=; rewrite cats1.
Qed.

Lemma nt_run_noerr ops t m : nt_run X t ops <> Err m.
Proof.
elim: ops t => //= -[c|x|n] ops IH t /=.
- by case: (nt_run X _ ops) (IH (nt_feed X t c)) => [[]||].
- by case: (nt_run X _ ops) (IH (nt_feed_scalar X t x)) => [[]||].
rewrite /nt_challenges /nt_seed; case: (nt_generated t) => //; case: ifP => //= _.
by case: (nt_run X _ ops) (IH (NTranscript (nt_data t) true)) => [[]||].
Qed.

Lemma fed_ne ops o : is_feed o -> (fed X (rcons ops o) == [::]) = false.
Proof.
move=> f; apply/eqP => /(congr1 size); rewrite -cats1 fed_cat size_cat.
by case: o f => [c|x|n] //= _; lia.
Qed.

(* C37: which histories panic *)
Theorem C37_panics_iff ops :
  (forall b, (8 <= size (H b))%N) ->
  nt_run X nt_default ops = Panic <-> hungry ops.
Proof.
move=> Hl; elim/last_ind: ops => [|ops o IH].
  by split=> // -[[|? ?] [n [post []]]].
rewrite hungry_rcons nt_run_rcons.
case Er: (nt_run X nt_default ops) => [[outs t]|m|]; last 1 first.
- by split=> // _; left; apply/IH.
- rewrite bindRet.
  have [tr _ g] := nt_run_state (tracks_default X) Er; rewrite cat0s in tr.
  have nh : ~ hungry ops by move/IH; rewrite Er.
  case: o => [c|x|n].
  + by split=> // -[|[]].
  + by split=> // -[|[]].
  rewrite [nt_step _ _ _]/= (nt_step_panic _ Hl tr) g.
  case/lastP: ops {Er tr g IH} nh => [|ops o] nh.
    by split=> // _; right; split=> //; left.
  rewrite (_ : (if rcons ops o is o0 :: _ then ~~ is_feed (last o0 (rcons ops o))
    else nt_generated nt_default) = ~~ is_feed o); last by case: (ops) => //= a l; rewrite last_rcons.
  case: o nh => [c|x|n'] nh.
  + rewrite fed_ne // /=; split=> // -[//|[_ [/(congr1 size)|[ops' [n' /rcons_inj[]]]]]] //.
    by rewrite size_rcons.
  + rewrite fed_ne // /=; split=> // -[//|[_ [/(congr1 size)|[ops' [n' /rcons_inj[]]]]]] //.
    by rewrite size_rcons.
  + by split=> // _; right; split=> //; right; exists ops, n'.
- by case: (nt_run_noerr Er).
Qed.

(* C37: the value of every output *)
Theorem C37_outputs ops outs t (i : nat) (n : nat) :
  (forall b, (8 <= size (H b))%N) ->
  nt_run X nt_default ops = Ret (outs, t) ->
  (i < size ops)%N -> nth (NChallenges 0) ops i = NChallenges n ->
  nth [::] outs i = mkseq (fs_challenge X (fed X (take i ops))) n.
Proof.
move=> Hl Er lt En.
have E0 : ops = take i ops ++ NChallenges n :: drop i.+1 ops.
  by rewrite -En -drop_nth // cat_take_drop.
move: Er; rewrite {1}E0 nt_run_cat.
case Ea: (nt_run X nt_default (take i ops)) => [[outs1 t1]||] //.
rewrite bindRet [_.2]/= [nt_run X t1 _]/=.
have [tr sz _] := nt_run_state (tracks_default X) Ea; rewrite cat0s in tr.
rewrite (nt_step_panic _ Hl tr); case: ifP => // _; rewrite bindRet.
case: (nt_run X _ (drop _ _)) => [[outs2 t2]||] //; rewrite !bindRet => -[<- _].
by rewrite nth_cat sz size_takel ?(ltnW lt) // ltnn subnn.
Qed.


(* the strings hashed, in order of hashing *)
Lemma chain_inputs_rcons d ms m :
  hash_chain_inputs X d (rcons ms m) =
  rcons (hash_chain_inputs X d ms) (foldl (fun d m => H (d ++ m)) d ms ++ m).
Proof. by elim: ms d => //= m0 ms IH d; rewrite IH. Qed.

Lemma chain_binding (dl : nat) (sizes : seq nat) ms ms' :
  (forall b, size (H b) = dl) -> (0 < dl)%N ->
  (forall a b, a \in sizes -> b \in sizes -> a <> dl + b)%N ->
  all (fun m => size m \in sizes) ms -> all (fun m => size m \in sizes) ms' ->
  hash_chain X ms = hash_chain X ms' ->
  ms = ms' \/ exists x y, [/\ x \in hash_chain_inputs X [::] ms, y \in hash_chain_inputs X [::] ms',
    x <> y & H x = H y].
Proof.
move=> Hs dl0 sep; elim/last_ind: ms ms' => [|ms m IH] ms'; case/lastP: ms' => [|ms' m'].
- by left.
- by move=> _ _; rewrite hash_chain_rcons => /(congr1 size); rewrite Hs /= => e; rewrite -e in dl0.
- by move=> _ _; rewrite hash_chain_rcons => /(congr1 size); rewrite Hs /= => e; rewrite e in dl0.
rewrite !all_rcons => /andP[sm sms] /andP[sm' sms']; rewrite !hash_chain_rcons => e.
case: (eqVneq (hash_chain X ms ++ m) (hash_chain X ms' ++ m')) => [eq|/eqP ne]; last first.
  right; exists (hash_chain X ms ++ m), (hash_chain X ms' ++ m'); split=> //;
  by rewrite chain_inputs_rcons mem_rcons in_cons eqxx.
have szc l : size (hash_chain X l) = if l is [::] then 0%N else dl.
  by case/lastP: l => // l a; rewrite hash_chain_rcons Hs; case: l.
have esz : size (hash_chain X ms) = size (hash_chain X ms').
  have := congr1 size eq; rewrite !size_cat !szc.
  case: (ms) (ms') => [|a l] [|a' l'] //; rewrite add0n => e'.
  - by case: (sep _ _ sm sm').
  - by case: (sep _ _ sm' sm).
have /andP[/eqP e1 /eqP e2] : (hash_chain X ms == hash_chain X ms') && (m == m').
  by rewrite -eqseq_cat // eq.
case: (IH ms' sms sms' e1) => [->|[x [y [hx hy nxy exy]]]]; first by left; rewrite e2.
by right; exists x, y; rewrite !chain_inputs_rcons !mem_rcons !in_cons hx hy !orbT.
Qed.

Lemma fed_inj ops ops' :
  injective (ser_g1 X) -> injective (ser_fr X) -> (forall c x, ser_g1 X c <> ser_fr X x) ->
  fed X ops = fed X ops' -> [seq o <- ops | is_feed o] = [seq o <- ops' | is_feed o].
Proof.
move=> ig ifr d; elim: ops ops' => [|o ops IH] ops'.
  by elim: ops' => //= -[].
case: o => [c|x|n] /=; last exact: IH.
- elim: ops' => //= -[c'|x'|n'] ops' IH' //=; first by case=> /ig -> /IH ->.
  by case=> /d.
- elim: ops' => //= -[c'|x'|n'] ops' IH' //=; last by case=> /ifr -> /IH ->.
  by case=> /esym /d.
Qed.

(* C37: binding.  Two histories that reach the same transcript data have made
   the same feed calls, or a digest collision is among the hashed strings. *)
Theorem C37_binding ops ops' outs outs' t t' (dl gl fl : nat) :
  (forall b, size (H b) = dl) ->
  (forall c, size (ser_g1 X c) = gl) -> (forall x, size (ser_fr X x) = fl) ->
  (0 < dl)%N -> gl <> fl -> gl <> (dl + fl)%N -> fl <> (dl + gl)%N ->
  injective (ser_g1 X) -> injective (ser_fr X) ->
  nt_run X nt_default ops = Ret (outs, t) -> nt_run X nt_default ops' = Ret (outs', t') ->
  nt_data t = nt_data t' ->
  [seq o <- ops | is_feed o] = [seq o <- ops' | is_feed o] \/
  exists x y, [/\ x \in hash_chain_inputs X [::] (fed X ops),
                  y \in hash_chain_inputs X [::] (fed X ops'), x <> y & H x = H y].
Proof.
move=> Hs Hg Hf dl0 n1 n2 n3 ig ifr R1 R2 ed.
have [[d1 _] _ _] := nt_run_state (tracks_default X) R1.
have [[d2 _] _ _] := nt_run_state (tracks_default X) R2.
rewrite !cat0s in d1 d2.
have sz o : all (fun m => size m \in [:: gl; fl]) (fed X o).
  by elim: o => //= -[c|x|n] o IH //=; rewrite ?Hg ?Hf !in_cons eqxx ?orbT.
case: (@chain_binding dl [:: gl; fl] (fed X ops) (fed X ops')) => //.
- by move=> a b; rewrite !inE => /orP[] /eqP -> /orP[] /eqP ->; lia.
- by rewrite -d1 -d2 /ntd ed.
- move/fed_inj => Hi; left; apply: Hi => // c x e.
  by apply: n1; rewrite -(Hg c) -(Hf x) e.
- by right.
Qed.

(* the constructors are histories *)
Theorem C37_from_commitment cs :
  exists outs, nt_run X nt_default [seq NFeed c | c <- cs] = Ret (outs, nt_from_commitment X cs).
Proof.
rewrite /nt_from_commitment; elim: cs nt_default => [|c cs IH] t /=; first by exists [::].
by have [outs ->] := IH (nt_feed X t c); exists ([::] :: outs).
Qed.

Theorem C37_from_scalar_number xs :
  exists outs, nt_run X nt_default [seq NFeedScalar x | x <- xs] =
               Ret (outs, nt_from_scalar_number X xs).
Proof.
rewrite /nt_from_scalar_number; elim: xs nt_default => [|c cs IH] t /=; first by exists [::].
by have [outs ->] := IH (nt_feed_scalar X t c); exists ([::] :: outs).
Qed.

End C37.
