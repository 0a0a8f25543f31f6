(* C94: what Nova proofs and instances show of the witness. *)
From Coq Require Import String Ascii NArith.
Set Warnings "-notation-overridden,-ambiguous-paths".
From mathcomp Require Import all_ssreflect all_algebra.
From mathcomp Require Import zify ring.
From Verif Require Import Base BaseLemmas ArkPoly ArkPolyLemmas KzgModel KzgSpec KzgLemmas
  KzgProps NovaModel NovaSpec NovaLemmas NovaTranscript NovaProps.

Set Implicit Arguments.
Unset Strict Implicit.
Unset Printing Implicit Defensive.

Import GRing.Theory.
Local Open Scope ring_scope.

(* Specification: the public part of a proof gives the value of the witness
   polynomial (the polynomial with the entries of w as coefficients) at the
   proof's opening point. *)
Definition shows (F : fieldType) (E : pairing_group F) (w : seq F) (pf : nifs_proof E) : Prop :=
  (np_opening_w pf).2 = np_r pf * (Poly w).[np_opening_point pf].

Section Reveal.
Variables (F B : fieldType) (E : pairing_group F) (X : nova_env B E).
Implicit Types (S : srs E) (R : r1cs F) (t : ntranscript) (w g e x : seq F).

Lemma open_value S v z o : kzg_open_vector S v z = Ret o -> o.2 = (Poly v).[z].
Proof.
rewrite /kzg_open_vector /open_coeffs; case Et: (trim v) => [|a p] //.
case: divide_lin => //= q; case Eq: (evaluate_in_s S q) => [W| |] //= [<-] /=.
by rewrite -[LHS]/(peval (a :: p) z) -Et pevalE Poly_trim.
Qed.

Lemma nifs_proveP r (fw : fwitness F) fi S t pf t2 : nifs_prove X r fw fi S t = Ret (pf, t2) ->
  [/\ np_r pf = r, (np_opening_w pf).2 = (Poly (fw_w fw)).[np_opening_point pf]
    & (np_opening_e pf).2 = (Poly (fw_e fw)).[np_opening_point pf]].
Proof.
rewrite /nifs_prove; case: nt_challenge => //= -[pt t3].
case Ee: kzg_open_vector => [oe| |] //=; case Ew: kzg_open_vector => [ow| |] //= [<- _] /=.
by rewrite (open_value Ee) (open_value Ew).
Qed.

Section Fold.
Variables (R : r1cs F) (fw1 fw2 fw : fwitness F) (fi1 fi2 fi : finstance E) (S : srs E)
  (t t1 t2 : ntranscript) (com_t : G1 E) (r : F) (pf : nifs_proof E).
Hypothesis folded : nifs_prover X R fw1 fw2 fi1 fi2 S t = Ret (fw, fi, com_t, r, t1).
Hypothesis proved : nifs_prove X r fw fi S t1 = Ret (pf, t2).

(* every proof shows one value of each folded witness polynomial *)
Theorem C94_shown_value : size (fw_w fw1) = size (fw_w fw2) ->
  let z := np_opening_point pf in
  (np_opening_w pf).2 = (Poly (fw_w fw1)).[z] + np_r pf * (Poly (fw_w fw2)).[z].
Proof.
move=> es z; have [-> -> _] := nifs_proveP proved; have [tv [_ _ _ -> _]] := nifs_proverP folded.
by rewrite fold_witness_w Poly_comb // !hornerE.
Qed.

(* the first fold, into the trivial pair, shows the step's own witness *)
Theorem C94_first_fold x_len w_len : create_trivial_pair x_len w_len S = Ret (fw1, fi1) ->
  size (fw_w fw2) = w_len -> shows (fw_w fw2) pf.
Proof.
rewrite /create_trivial_pair; case: fw_commit => //= ti [Ew _] sz; rewrite /shows C94_shown_value; last first.
  by rewrite -Ew /= size_nseq.
suff -> : Poly (fw_w fw1) = 0 by rewrite horner0 add0r.
by rewrite -Ew /=; apply/polyP => i; rewrite coef_Poly coef0 nth_nseq; case: ifP.
Qed.

End Fold.

(* one unknown entry is computed from one such proof *)
Theorem C94_unknown_entry w (pf : nifs_proof E) (j : nat) : shows w pf -> (j < size w)%N ->
  np_r pf != 0 -> np_opening_point pf != 0 ->
  w`_j = ((np_opening_w pf).2 / np_r pf - \sum_(i < size w | i != j :> nat) w`_i * np_opening_point pf ^+ i)
         / np_opening_point pf ^+ j.
Proof.
rewrite /shows; set z := np_opening_point pf => -> lj r0 z0.
have -> : np_r pf * (Poly w).[z] / np_r pf = \sum_(i < size w) w`_i * z ^+ i.
  rewrite mulrAC mulfV // mul1r (horner_coef_wide _ (size_Poly w)).
  by apply: eq_bigr => i _; rewrite coef_Poly.
rewrite (bigD1 (Ordinal lj)) //= addrK mulfK // expf_neq0 //.
Qed.

(* as many proofs as the witness has entries determine it *)
Theorem C94_enough_proofs w w' (pfs : seq (nifs_proof E)) :
  size w = size w' -> (size w <= size pfs)%N ->
  uniq (map (@np_opening_point F E) pfs) ->
  (forall i pf, ohead (drop i pfs) = Some pf -> [/\ np_r pf != 0, shows w pf & shows w' pf]) ->
  w = w'.
Proof.
move=> es le un H; have Ep : Poly w - Poly w' = 0.
  apply/eqP; apply: contraTT le => nz; rewrite -ltnNge.
  have := max_poly_roots nz _ un; rewrite size_map => lt.
  apply: leq_trans (lt _) _; last first.
    by apply: leq_trans (size_add _ _) _; rewrite size_opp geq_max {2}es !size_Poly.
  rewrite all_map; have : forall i pf, ohead (drop i pfs) = Some pf -> root (Poly w - Poly w') (np_opening_point pf).
    move=> i pf /H[r0 s1 s2]; rewrite rootE !hornerE subr_eq0; apply/eqP/(mulfI r0).
    by rewrite -s1 -s2.
  elim: (pfs) => //= pf s IH Hs; rewrite (Hs 0%N) //=; apply: IH => i; exact: (Hs i.+1).
apply: (@eq_from_nth _ 0) => // i _; move/eqP: Ep; rewrite subr_eq0 => /eqP Ep.
by rewrite -(coef_Poly w) Ep coef_Poly.
Qed.

(* instances carry deterministic commitments: a right guess of the witness is
   confirmed by everyone, a wrong one is refuted except for few trapdoors *)
Theorem C94_right_guess (fw : fwitness F) S x (fi : finstance E) : fw_commit fw S x = Ret fi ->
  kzg_commit_vector S (fw_w fw) = Ret (fi_com_w fi).
Proof.
rewrite /fw_commit; case: kzg_commit_vector => //= ce.
by case: kzg_commit_vector => //= cw [<-].
Qed.

Theorem C94_wrong_guess w g (ss : seq F) : g1_gen E != 0 -> Poly g != Poly w -> uniq ss ->
  (forall s, s \in ss -> exists m e x (fi : finstance E), let S := srs_new_from_secret E s m in
     fw_commit (FWitness e w) S x = Ret fi /\ kzg_commit_vector S g = Ret (fi_com_w fi)) ->
  (size ss < maxn (size g) (size w))%N.
Proof.
move=> g0 ne us H; have nz : Poly g - Poly w != 0 by rewrite subr_eq0.
have sq : (size (Poly g - Poly w)%R <= maxn (size g) (size w))%N.
  apply: leq_trans (size_add _ _) _; rewrite size_opp geq_max.
  by rewrite !(leq_trans (size_Poly _)) ?leq_maxl ?leq_maxr.
apply: leq_trans sq; apply: max_poly_roots => //.
apply/allP => s /H[m [e [x [fi [/C94_right_guess]]]]]; rewrite !C19_commit_vector /=.
case: ifP => // _ [<-]; case: ifP => // _ [] /eqP.
rewrite -subr_eq0 -scalerBl scaler_eq0 (negbTE g0) orbF subr_eq0 => /eqP e'.
by rewrite rootE !hornerE e' subrr.
Qed.

End Reveal.
