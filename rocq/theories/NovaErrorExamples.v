(* Concrete cases meeting the hypotheses of C81 and C82. *)
From Coq Require Import String Ascii NArith.
Set Warnings "-notation-overridden,-ambiguous-paths".
From mathcomp Require Import all_ssreflect all_algebra.
From Verif Require Import Base KzgModel KzgSpec KzgProps KzgExamples NovaModel NovaSpec NovaProps
  NovaTranscript NovaExamples OracleProver NovaForgeProps NovaErrorSpec NovaErrorProps.

Set Implicit Arguments.
Unset Strict Implicit.
Unset Printing Implicit Defensive.

Import GRing.Theory.
Local Open Scope ring_scope.

(* the relation w * w = u * x + e *)
Definition square_rel : r1cs K17 :=
  R1cs [:: [:: 1; 0; 0]] [:: [:: 1; 0; 0]] [:: [:: 0; 1; 0]] 1 1.
(* 2 * 2 = 5 (false) and 3 * 3 = 9 (true) *)
Definition wrong17 : opened K17 := Opened (FWitness [:: 0] [:: 2%:R]) 1 [:: 5%:R].
Definition right17 : opened K17 := Opened (FWitness [:: 0] [:: 3%:R]) 1 [:: 9%:R].

Example fits17 : fits_relation square_rel wrong17 /\ fits_relation square_rel right17.
Proof. by []. Qed.

Example wrong_one17 : ~ relation_holds square_rel wrong17 /\ relation_holds square_rel right17.
Proof.
split.
  move/relation_gap => /(_ 0%N isT); rewrite /row_gap /dot /= !big_ord_recr !big_ord0 /=.
  by move=> /(congr1 (@nat_of_ord _)); vm_compute.
apply/relation_gap => -[|//] _; rewrite /row_gap /dot /= !big_ord_recr !big_ord0 /=.
by apply/eqP; vm_compute.
Qed.

(* the prover hopes for the challenge 1 *)
Definition hoped_T : {poly K17} := (- 3%:R)%:P.
Definition hoped_fw : fwitness K17 := FWitness [:: - 3%:R] [:: 5%:R].

(* C82_folding_error: the fold is satisfied for the challenge 1 and every secret *)
Example lucky17 s : fold_satisfied E17 square_rel 6 s wrong17 right17 hoped_T 1 hoped_fw.
Proof.
rewrite /fold_satisfied.
suff -> : is_r1cs_satisfied square_rel (fold_instance 1 (instance_of E17 s wrong17)
   (instance_of E17 s right17) (commitment_of E17 s hoped_T)) hoped_fw (srs_new_from_secret E17 s 6) = Ret tt by [].
apply/C29_satisfied_iff; split=> //=.
- by move=> [|//] _; rewrite /row_holds /dot /= !big_ord_recr !big_ord0 /=; apply/eqP; vm_compute.
- by split; [exact: (leq_trans (size_Poly [:: 5%:R]))|exact: (leq_trans (size_Poly [:: - 3%:R]))].
have cp (c : K17) : cons_poly c 0%:P = c%:P by rewrite cons_poly_def mul0r add0r.
split=> /=; rewrite /commitment_of /= !cp !hornerC.
- by apply/eqP; vm_compute.
by apply/eqP; vm_compute.
Qed.

(* C82_fiat_shamir: with a table giving 1 for every seed the hope comes true *)
Section Fs.
Variables (K : nat) (K0 : (0 < K)%N) (s : K17).
Let F17 := [finFieldType of 'F_17].
Let ones : fr_table F17 K := [ffun=> 1].

Example hoping_folds : exists p : fold_prover (F := F17) E17,
  folds K0 X17 s wrong17 right17 [::] square_rel 6 nt_default p ones /\
  (forall t, size (asked (fold_entry K0 X17 s wrong17 right17 [::]) p t) = 0%N).
Proof.
have long m : (8 <= size (digest (with_fr_table K0 X17 ones) m))%N by exact: X17_digest.
have [r Hr] := @accepted_for_known F17 B257 E17 (with_fr_table K0 X17 ones) E17_ok long
  1 1 (commitment_of E17 s hoped_T) s 6 nt_default.
have cp (c : K17) : cons_poly c 0%:P = c%:P by rewrite cons_poly_def mul0r add0r.
pose fi1 := instance_of E17 s wrong17; pose fi2 := instance_of E17 s right17.
have [e3 w3] : fi_com_e (fold_instance 1 fi1 fi2 (commitment_of E17 s hoped_T)) = (Poly [:: (- 3%:R : K17)]).[s] *: g1_gen E17 /\
    fi_com_w (fold_instance 1 fi1 fi2 (commitment_of E17 s hoped_T)) = (Poly [:: (5%:R : K17)]).[s] *: g1_gen E17.
  by split; rewrite /= /commitment_of /= !cp !hornerC; apply/eqP; vm_compute.
have [pf [t' [_ V]]] := Hr fi1 fi2 (nifs_verifier 1 fi1 fi2 (commitment_of E17 s hoped_T)) _ _ erefl erefl e3 w3.
have r1 : np_r pf = 1.
  have := @accepted_challenge F17 B257 E17 X17 X17_digest K K0 s wrong17 right17 [::] [::] nt_default erefl
     ones pf (nifs_verifier 1 fi1 fi2 (commitment_of E17 s hoped_T)) hoped_T
     (srs_new_from_secret E17 s 6).
  by rewrite V => /(_ isT) ->; rewrite ffunE.
exists (Answer (hoped_T, pf, hoped_fw)); split; last by [].
rewrite /folds -[output _ _ _]/(hoped_T, pf, hoped_fw); cbv iota zeta beta; rewrite r1 -/fi1 -/fi2; split.
- by rewrite V.
- have := lucky17 s; rewrite /fold_satisfied -/fi1 -/fi2 /nifs_verifier.
  by case: is_r1cs_satisfied => [[]||].
- rewrite /other_opening /hoped_T /= !cp scale1r expr1n !scale1r -!polyCD -!polyCB.
  by case=> -[]; rewrite polyC_eq0; [move/eqP => + _|move/eqP => + _]; case; apply/eqP; vm_compute.
by move=> T1 T2; rewrite !mem_seq1 => /eqP -> /eqP ->.
Qed.

End Fs.

(* C81: the forged first instance claims 2 * 2 = 5 with u = 1 *)
Example forged17 s : exists ce cw pf fw t',
  let fi1 := FInstance ce 1 cw [:: 5%:R] in
  let fi2 := instance_of E17 s right17 in
  let fi3 := nifs_verifier (np_r pf) fi1 fi2 (g1_gen E17) in
  [/\ nifs_verify X17 pf fi1 fi2 fi3 (g1_gen E17) (srs_new_from_secret E17 s 6) nt_default = Ret t',
      is_r1cs_satisfied square_rel fi3 fw (srs_new_from_secret E17 s 6) = Ret tt
    & fw_w fw = [:: 2%:R]].
Proof.
exact: (@C81_first_instance_last K17 B257 E17 X17 E17_ok X17_digest square_rel
  (instance_of E17 s right17) 1 [:: 5%:R] (g1_gen E17) [:: 2%:R] s 6 nt_default).
Qed.

Example challenge17 : folding_challenge X17 [::] 1 1 (g1_gen E17) != 0.
Proof. by vm_compute. Qed.
