(* Specification vocabulary for the KZG properties. *)
Set Warnings "-notation-overridden,-ambiguous-paths".
From mathcomp Require Import all_ssreflect all_algebra.
From Verif Require Import KzgModel.

Set Implicit Arguments.
Unset Strict Implicit.
Unset Printing Implicit Defensive.

Import GRing.Theory.
Local Open Scope ring_scope.

(* What a pairing is: bilinear, and pairing with the second generator (of a
   prime-order group) has trivial kernel. *)
Record pairing_ok (F : fieldType) (E : pairing_group F) : Prop := {
  pairing_addl : forall a b c, @pairing F E (a + b) c = pairing a c + pairing b c;
  pairing_scalel : forall k a c, @pairing F E (k *: a) c = k *: pairing a c;
  pairing_addr : forall a b c, @pairing F E a (b + c) = pairing a b + pairing a c;
  pairing_scaler : forall k a c, @pairing F E a (k *: c) = k *: pairing a c;
  pairing_nondeg : forall a, @pairing F E a (g2_gen E) = 0 -> a = 0;
  g1_gen_neq0 : g1_gen E != 0;
}.

(* The commitment of f under secret s: f(s) g1. *)
Definition commitment_of (F : fieldType) (E : pairing_group F) (s : F) (f : {poly F}) : G1 E :=
  f.[s] *: g1_gen E.

(* The quotient (f - f(z)) / (X - z). *)
Definition opening_quotient (F : fieldType) (f : {poly F}) (z : F) : {poly F} :=
  (f - (f.[z])%:P) %/ ('X - z%:P).
