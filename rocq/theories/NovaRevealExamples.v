(* C94: the first fold of the test program over F_17. *)
From Coq Require Import String Ascii NArith.
Set Warnings "-notation-overridden,-ambiguous-paths".
From mathcomp Require Import all_ssreflect all_algebra.
From Verif Require Import Base ArkPoly KzgModel KzgSpec NovaModel NovaSpec KzgExamples NovaExamples NovaRevealProps.

Import GRing.Theory.
Local Open Scope ring_scope.

(* folding the first instance into the trivial pair *)
Definition first17 : outcome (nifs_proof E17) :=
  p0 <- create_trivial_pair 1 4 N17;;
  '(w, u, T, r, t1) <- nifs_prover X17 R17r p0.1 (pair17 3).1 p0.2 (pair17 3).2 N17 nt_default;;
  '(pf, t2) <- nifs_prove X17 r w u N17 t1;;
  Ret pf.

Example first_shows : if first17 is Ret pf then
   [&& (np_opening_w pf).2 == np_r pf * (Poly (test_witness K17 3)).[np_opening_point pf],
       np_r pf != 0 & np_opening_point pf != 0] else false.
Proof.
have -> : (if first17 is Ret pf then
   [&& (np_opening_w pf).2 == np_r pf * (Poly (test_witness K17 3)).[np_opening_point pf],
       np_r pf != 0 & np_opening_point pf != 0] else false) =
  (if first17 is Ret pf then
   [&& (np_opening_w pf).2 == np_r pf * peval (test_witness K17 3) (np_opening_point pf),
       np_r pf != 0 & np_opening_point pf != 0] else false).
  by case: first17 => // pf; rewrite ArkPolyLemmas.pevalE.
by vm_compute.
Qed.

(* right and wrong guesses of the witness *)
Example guesses17 :
  (if kzg_commit_vector N17 (test_witness K17 3) is Ret c then c == fi_com_w (pair17 3).2 else false) &&
  (if kzg_commit_vector N17 (test_witness K17 4) is Ret c then c != fi_com_w (pair17 3).2 else false).
Proof. by vm_compute. Qed.
