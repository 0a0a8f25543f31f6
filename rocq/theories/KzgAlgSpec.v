(* Specification vocabulary for C79: openings made by provers that compute their
   group elements from the reference string. *)
Set Warnings "-notation-overridden,-ambiguous-paths".
From mathcomp Require Import all_ssreflect all_algebra.
From Verif Require Import Base KzgModel KzgSpec.

Set Implicit Arguments.
Unset Strict Implicit.
Unset Printing Implicit Defensive.

Import GRing.Theory.
Local Open Scope ring_scope.

(* A claimed opening: commitment [f], witness [q], value y, point z. *)
Record claim (F : fieldType) := Claim {
  cl_f : {poly F}; cl_q : {poly F}; cl_y : F; cl_z : F;
}.
Definition claim_true (F : fieldType) (c : claim F) : bool := (cl_f c).[cl_z c] == cl_y c.
Definition claim_small (F : fieldType) (N : nat) (c : claim F) : bool :=
  (size (cl_f c) <= N)%N && (size (cl_q c) <= N)%N.

Section Verdicts.
Variables (F : fieldType) (E : pairing_group F) (n : nat) (s : F).
(* the verdict of the code on a claim, and on a batch of claims *)
Definition claim_accepted (c : claim F) : bool :=
  kzg_verify (srs_new_from_secret E s n) (commitment_of E s (cl_f c))
    (commitment_of E s (cl_q c), cl_y c) (cl_z c).
Definition batch_accepted (cs : seq (claim F)) (r : nat -> F) : bool :=
  if batch_verify (srs_new_from_secret E s n) [seq commitment_of E s (cl_f c) | c <- cs]
       [seq cl_z c | c <- cs] [seq (commitment_of E s (cl_q c), cl_y c) | c <- cs] r
  is Ret b then b else false.
End Verdicts.

(* m draws of integers below B (`rng.gen::<u128>()`, B = 2^128), as field elements *)
Definition drawn (F : fieldType) (B m : nat) (d : {ffun 'I_m -> 'I_B}) (i : nat) : F :=
  if insub i is Some j then (d j : nat)%:R else 0.
