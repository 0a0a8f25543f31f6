(* Concrete cases for C88: the equation of the repository's tests over any field. *)
From Coq Require Import String Ascii NArith ZArith.
Set Warnings "-notation-overridden,-ambiguous-paths".
From mathcomp Require Import all_ssreflect all_algebra.
From mathcomp Require Import zify ring.
From Verif Require Import Base KzgModel PlonkModel PlonkSpec ParserModel ParserSpec ParserExamples PlonkExamples
  EquationSpec.

Set Implicit Arguments.
Unset Strict Implicit.
Unset Printing Implicit Defensive.

Import GRing.Theory.
Local Open Scope ring_scope.

Section AnyField.
Variable F : fieldType.
Definition W123 : bytes -> option F :=
  add_witness (add_witness (add_witness (@no_witness F) (str "x") 1) (str "y") 2%:R) (str "z") 3%:R.

Example names123 : names_only W123.
Proof. by move=> k v; rewrite /W123 /add_witness; do 3! (case: eqP => [-> //|_]). Qed.

Example solved123 : [&& equation_ok e_test, defined_on W123 e_test & equation_holds W123 e_test].
Proof.
apply/and3P; split; [by vm_compute|by []|].
apply/eqP; rewrite /term_value /= !big_cons !big_nil /factor_value /atom_value /= /W123 /add_witness /= ?expr1 ?expr2.
have -> : Pos.to_nat 3 = 3%N by []. have -> : Pos.to_nat 11 = 11%N by [].
by ring.
Qed.
End AnyField.

(* ten operations and numerals; nine gates because x*y occurs twice *)
Example size_test : (equation_size e_test == 10%N) && (1 < equation_size e_test <= 2 ^ 4)%N.
Proof. by vm_compute. Qed.
Example gates_test :
  (if parse Wxyz (str "x*y+3*x^2+x*y*z=11") is Ret c then size (gates c) == 9%N else false) = true.
Proof. by vm_compute. Qed.

(* x=y: one gate, which the code cannot compile *)
Definition e_xy : equation := Equation [:: [:: var "x"]] [:: var "y"].
Example small_xy : [&& equation_ok e_xy, equation_size e_xy == 1%N &
  (if parse Wxyz (str "x=y") is Ret c then (size (gates c) == 1%N) && is_panic (compile P97 c) else false)].
Proof. by vm_compute. Qed.
(* x=1: two gates *)
Example small_x1 : (equation_size (Equation [:: [:: var "x"]] [:: num "1"]) == 2%N) &&
  (if parse Wxyz (str "x=1") is Ret c then is_ret (compile P97 c) else false).
Proof. by vm_compute. Qed.
