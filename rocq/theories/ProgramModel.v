(* Models of the three example programs /repo/{fri,kzg,plonk}/examples/example.rs
   as callers of the modelled functions.  Definitions only.  Printed lines are
   not modelled; `Srs::new` draws its secret, here a parameter. *)
From Coq Require Import NArith.
Set Warnings "-notation-overridden,-ambiguous-paths".
From mathcomp Require Import all_ssreflect all_algebra.
From Verif Require Import Base ArkPoly FriModel KzgModel PlonkModel PlonkSpec.

Set Implicit Arguments.
Unset Strict Implicit.
Unset Printing Implicit Defensive.

Import GRing.Theory.
Local Open Scope ring_scope.

(* `assert!(r.is_ok())`: panics on a panic, and on an error *)
Definition assert_ok (A : Type) (r : outcome A) : outcome unit :=
  if r is Ret _ then Ret tt else Panic.

(* kzg/examples/example.rs:7-26 with the secret s drawn by Srs::new(10) *)
Definition kzg_example (F : fieldType) (E : pairing_group F) (s : F) : outcome unit :=
  let S := srs_new_from_secret E s 10 in
  let poly := trim [:: 5%:R; 3%:R; 0; 1 : F] in
  _ <- oassert (peval poly 1 == 9%:R);;
  commitment <- kzg_commit S poly;;
  opening <- kzg_open S poly 4%:R;;
  oassert (kzg_verify S commitment opening 4%:R).

(* fri/examples/example.rs:9-31; the field and its constants are those of X, the
   digest is H (SHA-256 in the program) *)
Definition fri_example (F : fieldType) (X : fri_env F) (H : bytes -> bytes) : outcome unit :=
  let poly := trim [:: 1; 2%:R; 3%:R; 4%:R; 5%:R; 6%:R : F] in
  proof <- fri_generate_proof X H poly 2 2;;
  assert_ok (fri_verify X H proof).

(* plonk/examples/example.rs:12-55: the seven calls *)
Definition plonk_example_calls (F : fieldType) : seq (gate_call F) :=
  let wire (l i v : nat) : nat * nat * F := (l, i, v%:R) in
  [:: GateCall Multiplication (wire 0 1 1)%N (wire 1 0 2)%N (wire 0 3 2)%N 0;
      GateCall Multiplication (wire 1 1 1)%N (wire 0 0 1)%N (wire 0 2 1)%N 0;
      GateCall Multiplication (wire 2 1 1)%N (wire 2 6 3)%N (wire 1 3 3)%N 0;
      GateCall Addition (wire 0 4 2)%N (wire 2 2 3)%N (wire 0 5 5)%N 0;
      GateCall Multiplication (wire 2 0 2)%N (wire 1 4 3)%N (wire 1 5 6)%N 0;
      GateCall Addition (wire 2 3 5)%N (wire 2 4 6)%N (wire 2 5 11)%N 0;
      GateCall Constant (wire 0 6 3)%N (wire 1 6 0)%N (wire 1 2 3)%N 0].

(* plonk/examples/example.rs:57-64, with blinders b and secret s *)
Definition plonk_example (F : fieldType) (E : pairing_group F) (X : plonk_env E) (b : nat -> F) (s : F)
  : outcome unit :=
  cc <- compile (pk_fft X) (build (plonk_example_calls F));;
  let S := srs_new_from_secret E s (cc_size cc) in
  pf <- generate_proof X (pk_sha256 X) b cc S;;
  assert_ok (verify X (pk_sha256 X) cc S pf).
