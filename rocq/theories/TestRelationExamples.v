(* Concrete cases for C97 over F_17. *)
From Coq Require Import String Ascii NArith.
Set Warnings "-notation-overridden,-ambiguous-paths".
From mathcomp Require Import all_ssreflect all_algebra.
From Verif Require Import Base BaseLemmas ArkPoly KzgModel KzgSpec KzgExamples NovaModel NovaSpec NovaExamples TestRelationProps.

Set Implicit Arguments.
Unset Strict Implicit.
Unset Printing Implicit Defensive.

Import GRing.Theory.
Local Open Scope ring_scope.

Definition verdict (w : seq K17) (y : K17) : bool :=
  if fw_commit (fw_new w 4) N17 [:: y] is Ret fi then is_ret (is_r1cs_satisfied R17r fi (fw_new w 4) N17) else false.
(* input 3: 3, 9, 27, 30 and 35 *)
Example input3 : verdict [:: 3%:R; 9%:R; 27%:R; 30%:R] 35%:R.
Proof. by vm_compute. Qed.
Example wrong_output : ~~ verdict [:: 3%:R; 9%:R; 27%:R; 30%:R] 34%:R.
Proof. by vm_compute. Qed.
Example wrong_square : ~~ verdict [:: 3%:R; 8%:R; 27%:R; 30%:R] 35%:R.
Proof. by vm_compute. Qed.
