(* Concrete cases meeting the hypotheses of C79. *)
From Coq Require Import NArith.
Set Warnings "-notation-overridden,-ambiguous-paths".
From mathcomp Require Import all_ssreflect all_algebra.
From mathcomp Require Import zify ring.
From Verif Require Import Base BaseLemmas ArkPoly ArkPolyLemmas KzgModel KzgSpec KzgLemmas KzgProps
  Concrete ConcreteProps PlonkErrorProps PlonkErrorExamples KzgAlgSpec KzgAlgProps.

Set Implicit Arguments.
Unset Strict Implicit.
Unset Printing Implicit Defensive.

Import GRing.Theory.
Local Open Scope ring_scope.

Section AnyField.
Variable F : fieldType.

(* The polynomial X opened at 0: truly, with value 0 and witness 1; falsely, with value
   1 and witness 0. *)
Definition true_claim : claim F := Claim 'X 1 0 0.
Definition false_claim : claim F := Claim 'X 0 1 0.

Lemma claims_small : all (claim_small 2) [:: true_claim; false_claim].
Proof. by rewrite /= /claim_small /= size_polyX size_poly1 size_poly0. Qed.
Lemma claims_false : ~~ all (@claim_true F) [:: true_claim; false_claim].
Proof. by rewrite /= /claim_true /= hornerX eqxx /= eq_sym oner_eq0. Qed.

(* the true claim is accepted for every secret, the false one for the secret 1 only *)
Lemma verdicts n s : claim_accepted (self_groups F) n s true_claim /\
  claim_accepted (self_groups F) n s false_claim = (s == 1).
Proof.
rewrite !(claim_gapE (@self_ok F)) /claim_gap /= !(mulr0, mulr1, sub0r).
by split; [rewrite subrr horner0 | rewrite hornerN hornerXsubC oppr_eq0 subr_eq0].
Qed.
End AnyField.

Example opening_error_bls : exists (F : finFieldType) (E : pairing_group F),
  [/\ #|F| = N.to_nat bls_r, pairing_ok E &
      (#|[set zs : F * F | claim_accepted E 1%N zs.2 (Claim 'X 0%R 1%R zs.1) && ('X.[zs.1] != 1%R :> F)]|
         <= 2 * #|F|)%N].
Proof.
have := @card_self _ C63_bls_prime; set F := [finFieldType of 'F_(N.to_nat bls_r)] => card.
exists F, (self_groups F); split; [exact: card|exact: self_ok|].
have s1 : (size ('X : {poly F}) <= 2)%N by rewrite size_polyX.
have s2 : (size (0%R : {poly F}) <= 2)%N by rewrite size_poly0.
exact: (@C79_opening_error F (self_groups F) (@self_ok F) 1 2 'X (fun=> 0) (fun=> 1) s1 (fun=> s2)).
Qed.

Example batch_error_bls (B : nat) : B = (2 ^ 128)%N ->
  exists (F : finFieldType) (E : pairing_group F) (cs : seq (claim F)),
  [/\ #|F| = N.to_nat bls_r, pairing_ok E, size cs = 2%N, ~~ all (@claim_true F) cs &
      (2 ^ 127 * #|[set ds : {ffun 'I_(size cs) -> 'I_B} * F | batch_accepted E 1 ds.2 cs (drawn F ds.1)]|
       <= #|F| * B ^ size cs)%N].
Proof.
move=> eB; have := @card_self _ C63_bls_prime; set F := [finFieldType of 'F_(N.to_nat bls_r)] => card.
exists F, (self_groups F), [:: true_claim F; false_claim F].
split; [exact: card|exact: self_ok|reflexivity|exact: claims_false|].
exact: (@C79_bls_batch F (self_groups F) 1 2 [:: true_claim F; false_claim F] B card (@self_ok F) eB
  (@pow2_ge2 32%N isT) (claims_small F) (claims_false F)).
Qed.
