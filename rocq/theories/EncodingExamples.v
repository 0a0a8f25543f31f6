(* C86: fields, groups and an environment that meet the hypotheses; small encodings. *)
From Coq Require Import String Ascii NArith.
Set Warnings "-notation-overridden,-ambiguous-paths".
From mathcomp Require Import all_ssreflect all_algebra.
From mathcomp Require Import zify.
From Verif Require Import Base BaseLemmas KzgModel KzgSpec Concrete ConcreteProps BasePrime Sha256
  PlonkErrorExamples Encodings EncodingProps NovaModel.

Set Implicit Arguments.
Unset Strict Implicit.
Unset Printing Implicit Defensive.

Import GRing.Theory.
Local Open Scope ring_scope.

Section PrimeField.
Variable p : N.
Hypothesis pp : prime (N.to_nat p).
Definition Fpt := [finFieldType of 'F_(N.to_nat p)].
Definition rep_of (x : Fpt) : N := N.of_nat (nat_of_ord (x : 'F_(N.to_nat p))).
Lemma rep_ok : bigint_of p (rep_of : [fieldType of 'F_(N.to_nat p)] -> N).
Proof.
move=> x; split; last by rewrite /inR /rep_of Nat2N.id natr_Zp.
have lt : (nat_of_ord (x : 'F_(N.to_nat p)) < N.to_nat p)%N.
  by rewrite -[X in (_ < X)%N](Fp_cast pp); exact: ltn_ord.
by rewrite /rep_of; move: (nat_of_ord _) lt => m; clear; lia.
Qed.
End PrimeField.

Section Env.
Variables (r q : N).
Hypotheses (pr : prime (N.to_nat r)) (pq : prime (N.to_nat q)) (rq : (r <= q)%num).
Local Notation F := (Fpt r).
Local Notation B := (Fpt q).
Local Notation E := (self_groups F).
Definition coords (c : G1 E) : affine B := Affine (inR B (@rep_of r c)) 0.
Lemma coords_inj : injective coords.
Proof.
move=> c c' [e].
have [l1 e1] := rep_ok pr c; have [l2 e2] := rep_ok pr c'.
have charB : N.to_nat q \in [char B] := char_Fp pq.
have er : @rep_of r c = @rep_of r c'.
  by apply: (inR_inj charB) e; [apply: N.lt_le_trans rq|apply: N.lt_le_trans rq].
by rewrite -e1 -e2 er.
Qed.
Definition real_env : nova_env B E :=
  NovaEnv sha256_standard (fun c => point_bytes (@rep_of q) (coords c)) (field_bytes 32 (@rep_of r))
    (field_bytes 48 (@rep_of q)) (field_of_bytes B) (scalar_of_base F (@rep_of q)) (fun _ _ => 0).
End Env.

(* an environment with the real encodings exists *)
Example real_nova : exists (F B : fieldType) (E : pairing_group F) (X : nova_env B E)
  (repF : F -> N) (repB : B -> N) (co : G1 E -> affine B),
  [/\ bigint_of bls_r repF, bigint_of bls_q repB, injective co,
      N.to_nat bls_q \in [char B] & N.to_nat bls_r \in [char F]] /\
  [/\ forall c, ser_g1 X c = point_bytes repB (co c), forall x, ser_fr X x = field_bytes 32 repF x,
      forall x, ser_fq X x = field_bytes 48 repB x, forall b, digest X b = sha256_standard b &
      (forall b, fq_of_bytes X b = field_of_bytes B b) /\ forall h, fr_of_fq X h = scalar_of_base F repB h].
Proof.
have rq : (bls_r <= bls_q)%num by apply: N.le_trans q_large; apply: N.le_trans r_bits _; vm_compute.
have pr := C63_bls_prime; have pq := C86_base_modulus_prime.
exists (Fpt bls_r), (Fpt bls_q), (self_groups (Fpt bls_r)), (real_env bls_r bls_q),
  (@rep_of bls_r), (@rep_of bls_q), (@coords bls_r bls_q).
split; split; [exact: rep_ok|exact: rep_ok|exact: coords_inj|exact: char_Fp|exact: char_Fp|..]; try reflexivity.
by split; reflexivity.
Qed.

(* the encodings of small values *)
Definition rep17 : 'F_17 -> N := fun x => N.of_nat (nat_of_ord x).
Example scalar_three : field_bytes 32 rep17 3%:R = ascii_of_nat 3 :: nseq 31 zero.
Proof. by vm_compute. Qed.
Example point_one_two : point_bytes rep17 (Affine 1%:R 2%:R) =
  nseq 47 zero ++ ascii_of_nat 1 :: nseq 47 zero ++ [:: ascii_of_nat 2].
Proof. by vm_compute. Qed.
(* two digests with the same public input: 0 and r *)
Example digests_0_r : let b := le_bytes 32 0 in
  size b = 32%N /\ N.modulo (le_decode b) bls_r = N.modulo bls_r bls_r.
Proof. by vm_compute. Qed.
