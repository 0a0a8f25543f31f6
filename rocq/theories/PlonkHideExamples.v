(* A concrete case meeting the hypotheses of C73: the repository's test circuit
   x^2 + y^2 = z^2 with the witnesses (3, 4, 5) and (5, 12, 13). *)
From Coq Require Import NArith.
Set Warnings "-notation-overridden,-ambiguous-paths".
From mathcomp Require Import all_ssreflect all_algebra.
From Verif Require Import Base ArkDomain KzgModel KzgSpec PlonkModel PlonkSpec PlonkCompile PlonkProps
  PlonkExamples StatementSpec PlonkHideSpec.

Set Implicit Arguments.
Unset Strict Implicit.
Unset Printing Implicit Defensive.

Import GRing.Theory.
Local Open Scope ring_scope.

Definition pyth97 (x y z : nat) : seq (gate_call K97) :=
  [:: GateCall Multiplication (w97 1 0 x) (w97 0 0 x) (w97 0 3 (x * x)) 0;
      GateCall Multiplication (w97 1 1 y) (w97 0 1 y) (w97 1 3 (y * y)) 0;
      GateCall Multiplication (w97 1 2 z) (w97 0 2 z) (w97 2 3 (z * z)) 0;
      GateCall Addition (w97 2 0 (x * x)) (w97 2 1 (y * y)) (w97 2 2 (z * z)) 0].

Example two_witnesses97 :
  satisfied (pyth97 3 4 5) 4 && satisfied (pyth97 5 12 13) 4 &&
  (slot_value (pyth97 3 4 5) (0%N, 0%N) != slot_value (pyth97 5 12 13) (0%N, 0%N)).
Proof. by vm_compute. Qed.
Example same_statement97 : same_statement (pyth97 3 4 5) (pyth97 5 12 13).
Proof. by []. Qed.

Definition outside97 (s zeta w : K97) : bool :=
  [&& s ^+ 4 != 1, zeta ^+ 4 != 1 & uniq [:: s; zeta; zeta * w]].
Lemma outside97_ok : outside97 5%:R 7%:R (root_of_unity P97 2).
Proof. by vm_compute. Qed.

Lemma outside_compiled (F : fieldType) (E : pairing_group F) (X : plonk_env E) calls s zeta :
  size calls = 4%N -> positions_ok calls 4 -> (2 <= two_adicity (pk_fft X))%N ->
  (let w := root_of_unity (pk_fft X) 2 in
   [&& s ^+ 4 != 1, zeta ^+ 4 != 1 & uniq [:: s; zeta; zeta * w]]) ->
  exists2 cc, compile (pk_fft X) (build calls) = Ret cc & outside_domain X cc s zeta.
Proof.
move=> sz pos two out; exists (compiled_of (pk_fft X) calls).
  rewrite compileE sz [up_log 2 4](_ : _ = 2%N) // two.
  by rewrite [csize calls](_ : _ = 4%N) ?pos // /csize sz.
by rewrite /outside_domain /omega_of /= /csize sz.
Qed.

Example outside_domain97 :
  exists2 cc, compile (pk_fft X97) (build (pyth97 3 4 5)) = Ret cc & outside_domain X97 cc 5%:R 7%:R.
Proof.
refine (@outside_compiled K97 E97 X97 (pyth97 3 4 5) 5%:R 7%:R _ _ _ outside97_ok); by vm_compute.
Qed.
