(* C95: a polynomial of four coefficients over F_17 meets the hypotheses. *)
Set Warnings "-notation-overridden,-ambiguous-paths".
From mathcomp Require Import all_ssreflect all_algebra.
From Verif Require Import Base ArkPoly ArkPolyLemmas KzgModel KzgSpec KzgExamples KzgRevealProps.

Import GRing.Theory.
Local Open Scope ring_scope.

Definition zs17 : seq K17 := [:: 1; 2%:R].

(* secret 5, openings at 1 and 2, another point 3 *)
Example reveal_meets : [/\ g1_gen E17 != 0, (size (Poly f17) <= 4)%N, (4 <= 2 + 3)%N,
  (size zs17 + 2)%N = 4%N & uniq zs17] /\
  [/\ (Poly f17).[5%:R] != 0, 5%:R \notin zs17, 3%:R \notin zs17 & (3%:R : K17) != 5%:R].
Proof.
split; split; try by vm_compute.
- exact: (leq_trans (size_Poly _)).
- by rewrite -pevalE; vm_compute.
Qed.

(* two polynomials with the same commitment and openings at 1 and 2 *)
Definition g17 : seq K17 := [:: 8%:R; 2%:R; 12%:R; 5%:R].
Definition same17 (z : K17) : bool :=
  match kzg_open S17 f17 z, kzg_open S17 g17 z with
  | Ret (w, v), Ret (w', v') => (w == w') && (v == v')
  | _, _ => false
  end.
Example two_left : [&& same17 1, same17 2%:R & peval f17 3%:R != peval g17 3%:R] &&
  (if (kzg_commit S17 f17, kzg_commit S17 g17) is (Ret a, Ret b) then a == b else false).
Proof. by vm_compute. Qed.
