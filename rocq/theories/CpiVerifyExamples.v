(* Concrete cases for C89 over the field with 97 elements. *)
From Coq Require Import String Ascii NArith ZArith.
Set Warnings "-notation-overridden,-ambiguous-paths".
From mathcomp Require Import all_ssreflect all_algebra.
From Verif Require Import Base ArkDomain KzgModel KzgSpec PlonkModel PlonkSpec ParserModel ParserSpec ParserExamples PlonkExamples
  EquationSpec CpiProps CpiVerifyProps.

Set Implicit Arguments.
Unset Strict Implicit.
Unset Printing Implicit Defensive.

Import GRing.Theory.
Local Open Scope ring_scope.

Local Notation input := (str "x*y+3*x^2+x*y*z=11").
Local Notation S97 := (srs_new_from_secret E97 s97 16).

(* hypotheses: the repository's test equation, nine gates padded to 16 *)
Example text_hypotheses : [&& equation_ok e_test, preprocess_ok e_test,
  cleaned input == equation_text e_test & (1 < equation_size e_test <= 2 ^ 4)%N] && (4 <= two_adicity P97)%N.
Proof. by vm_compute. Qed.

(* the preprocessed input exists *)
Example preprocessed_text : (if compute_cpi P97 S97 input is Ret c then cpi_n c == 16%N else false) = true.
Proof. by vm_compute. Qed.

(* too short a reference string *)
Example short_reference_string :
  (if compute_cpi P97 (srs_new_from_secret E97 s97 8) input is Ret _ then false else true) = true.
Proof. by vm_compute. Qed.
