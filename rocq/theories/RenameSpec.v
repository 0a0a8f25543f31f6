(* Specification vocabulary for C91: renaming the variables of an equation. *)
From Coq Require Import String Ascii NArith.
Set Warnings "-notation-overridden,-ambiguous-paths".
From mathcomp Require Import all_ssreflect.
From Verif Require Import Base ParserModel ParserSpec.

Set Implicit Arguments.
Unset Strict Implicit.
Unset Printing Implicit Defensive.

Definition rename_factor (f : bytes -> bytes) (t : factor) : factor :=
  Factor (f_neg t) (match f_atom t with Var x => Var (f x) | Num d => Num d end) (f_pow t).
Definition rename_equation (f : bytes -> bytes) (e : equation) : equation :=
  Equation (map (map (rename_factor f)) (e_lhs e)) (map (rename_factor f) (e_rhs e)).

(* the right side starts with a negated numeral: "... = -d * ..." *)
Definition negative_head (e : equation) (d : bytes) (t : seq factor) : Prop :=
  e_rhs e = Factor true (Num d) None :: t.
(* the same equation with a variable in the place of the negated numeral *)
Definition head_replaced (e : equation) (z : bytes) (t : seq factor) : equation :=
  Equation (e_lhs e) (Factor false (Var z) None :: t).
