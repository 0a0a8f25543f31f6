(* The public part of a PLONK circuit: what is left of a list of gate-adding
   calls when the wire values are forgotten, and the statement the circuit makes
   about wire values. *)
From Coq Require Import NArith.
Set Warnings "-notation-overridden,-ambiguous-paths".
From mathcomp Require Import all_ssreflect all_algebra.
From Verif Require Import Base PlonkModel PlonkSpec.

Set Implicit Arguments.
Unset Strict Implicit.
Unset Printing Implicit Defensive.

Import GRing.Theory.
Local Open Scope ring_scope.

(* kind, the three positions, the public input, and for constant gates the value
   of the first wire (the constant) *)
Definition public_call (F : fieldType) (g : gate_call F)
  : gate_type * (nat * nat) * (nat * nat) * (nat * nat) * F * option F :=
  (call_type g, (call_a g).1, (call_b g).1, (call_c g).1, call_pi g,
   if call_type g is Constant then Some (call_a g).2 else None).
Definition same_statement (F : fieldType) (calls calls' : seq (gate_call F)) : Prop :=
  map (@public_call F) calls = map (@public_call F) calls'.

(* the wire values satisfy the circuit: gate relations and copy constraints *)
Definition satisfied (F : fieldType) (calls : seq (gate_call F)) (n : nat) : bool :=
  all (@call_holds F) calls && copies_hold calls n.

(* the same call with all wire values but a constant gate's constant set to zero *)
Definition blank_call (F : fieldType) (g : gate_call F) : gate_call F :=
  GateCall (call_type g)
    ((call_a g).1, if call_type g is Constant then (call_a g).2 else 0)
    ((call_b g).1, 0) ((call_c g).1, 0) (call_pi g).
