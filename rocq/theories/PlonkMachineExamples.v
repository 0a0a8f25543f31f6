(* A concrete case meeting the hypotheses of C74: the repository's test circuit
   over F_97, words of 64 bits. *)
From Coq Require Import NArith.
Set Warnings "-notation-overridden,-ambiguous-paths".
From mathcomp Require Import all_ssreflect all_algebra.
From mathcomp Require Import zify.
From Verif Require Import Base ArkDomain ArkDomainLemmas KzgModel KzgSpec PlonkModel PlonkSpec PlonkCompile PlonkProps
  PlonkForgeProps PlonkExamples PlonkSoundExamples PlonkMachine PlonkMachineProps.

Set Implicit Arguments.
Unset Strict Implicit.
Unset Printing Implicit Defensive.

Import GRing.Theory.
Local Open Scope ring_scope.

Lemma pow_half n : (2 ^ n.+1 <= 2 * (2 ^ n).+1)%N.
Proof. by rewrite expnS leq_mul2l leqnSn orbT. Qed.
Lemma fits_word n bits : (n <= 5)%N -> (6 <= bits)%N -> (2 * n + 4 < 2 ^ bits)%N.
Proof.
move=> n5 b6; apply: leq_trans (_ : 2 ^ 6 <= _)%N; last by rewrite leq_pexp2l.
by apply: leq_trans (_ : 15 <= _)%N => //; lia.
Qed.

(* an honest proof accepted by both builds, and what the checked build does once
   its degree field is raised to 2^63 *)
Example machine97 : exists cc pf,
  [/\ compile (pk_fft X97) (build (calls97 25)) = Ret cc,
      forall checked, verify_machine X97 checked 64 (pk_sha256 X97) cc
        (srs_new_from_secret E97 s97 (cc_size cc)) pf = Ret tt &
      verify_machine X97 true 64 (pk_sha256 X97) cc
        (srs_new_from_secret E97 s97 (cc_size cc)) (with_degree pf (2 ^ 63)) = Panic].
Proof.
have [cc [pf [Ec Eg Ev]]] := (@run_accepted K97 E97 X97 b97 s97 (calls97 25) accepted97).
have sz : (cc_size cc <= 5)%N.
  have [-> _ _ _] := compile_inv Ec; apply: (_ : (csize (calls97 25) <= 5)%N).
  by rewrite /csize.
have acc checked : verify_machine X97 checked 64 (pk_sha256 X97) cc
        (srs_new_from_secret E97 s97 (cc_size cc)) pf = Ret tt.
  rewrite (C74_honest_proofs okE97 (ok97 : fft_ok (pk_fft X97)) Ec (leqnn _) checked long97 _ Eg).
    move: Ev; rewrite (C49_completeness okE97 (ok97 : fft_ok (pk_fft X97)) long97 Ec (leqnn _) Eg).
    by case: ifP.
  exact: fits_word.
exists cc, pf; split=> //.
exact: (C74_raised_degree_panics okE97 (ok97 : fft_ok (pk_fft X97)) Ec (leqnn _) long97 (acc true) (pow_half 63)).
Qed.
