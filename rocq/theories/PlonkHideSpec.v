(* Specification vocabulary for the hiding property C73: what an honest PLONK proof
   shows of the four blinded polynomials, for an evaluation point zeta. *)
From Coq Require Import NArith.
Set Warnings "-notation-overridden,-ambiguous-paths".
From mathcomp Require Import all_ssreflect all_algebra.
From Verif Require Import Base ArkDomain KzgModel KzgSpec PlonkModel PlonkSpec.

Set Implicit Arguments.
Unset Strict Implicit.
Unset Printing Implicit Defensive.

Import GRing.Theory.
Local Open Scope ring_scope.

Section View.
Variables (F : fieldType) (E : pairing_group F) (X : plonk_env E).
Variables (cc : compiled_circuit F) (s zeta : F).

(* values at the secret s (shown as commitments) and at zeta of the three wire
   polynomials, and values of the permutation polynomial at s, zeta and zeta w;
   beta and gamma are the challenges drawn from the wire commitments *)
Definition view (b : nat -> F) : seq F :=
  [:: (hr_A cc b).[s]; (hr_A cc b).[zeta]; (hr_B cc b).[s]; (hr_B cc b).[zeta];
      (hr_C cc b).[s]; (hr_C cc b).[zeta];
      (hr_z X cc b s).[s]; (hr_z X cc b s).[zeta]; (hr_z X cc b s).[zeta * omega_of (pk_fft X) cc]].

(* s, zeta and zeta w are different points outside the evaluation domain *)
Definition outside_domain : bool :=
  let w := omega_of (pk_fft X) cc in
  [&& s ^+ cc_size cc != 1, zeta ^+ cc_size cc != 1 & uniq [:: s; zeta; zeta * w]].

End View.

(* the nine blinders b_1 ... b_9 *)
Definition same_blinders (F : fieldType) (b b' : nat -> F) : Prop :=
  forall i, (1 <= i <= 9)%N -> b i = b' i.
