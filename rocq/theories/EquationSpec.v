(* Vocabulary for C88: the size of an equation. *)
From Coq Require Import String Ascii NArith ZArith.
Set Warnings "-notation-overridden,-ambiguous-paths".
From mathcomp Require Import all_ssreflect all_algebra.
From Verif Require Import Base ParserModel ParserSpec.

Set Implicit Arguments.
Unset Strict Implicit.
Unset Printing Implicit Defensive.

(* v^k counts as k factors *)
Definition factor_degree (f : factor) : nat :=
  if f_pow f is Some k then N.to_nat (digits_val k) else 1.
Definition is_numeral (f : factor) : bool := if f_atom f is Num _ then true else false.

(* all factors of both sides *)
Definition equation_factors (e : equation) : seq factor := flatten (rcons (e_lhs e) (e_rhs e)).

(* The binary operations of "left side minus right side" (n factors are joined by
   n - 1 additions and multiplications), plus the numerals. *)
Definition equation_size (e : equation) : nat :=
  (sumn (map factor_degree (equation_factors e))).-1 + count is_numeral (equation_factors e).
