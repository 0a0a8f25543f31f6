(* Concrete cases for C91 over the field with 97 elements. *)
From Coq Require Import String Ascii NArith ZArith.
Set Warnings "-notation-overridden,-ambiguous-paths".
From mathcomp Require Import all_ssreflect all_algebra.
From Verif Require Import Base ArkDomain KzgModel KzgSpec PlonkModel PlonkSpec ParserModel ParserSpec ParserExamples PlonkExamples
  CpiProps RenameSpec RenameProps.

Set Implicit Arguments.
Unset Strict Implicit.
Unset Printing Implicit Defensive.

Import GRing.Theory.
Local Open Scope ring_scope.

Local Notation S97 := (srs_new_from_secret E97 s97 16).

(* x*y=-3, and z in the place of -3 *)
Definition e_neg : equation := Equation [:: [:: var "x"; var "y"]] [:: Factor true (Num (str "3")) None].
Example negative_hypotheses : [&& equation_ok e_neg, cleaned (str "x*y=-3") == equation_text e_neg,
  all (all factor_canonical) (rcons (e_lhs e_neg) (e_rhs e_neg)), name_ok (str "z"),
  str "z" \notin equation_names e_neg & equation_text (head_replaced e_neg (str "z") [::]) == str "x*y=z"].
Proof. by vm_compute. Qed.
Example negative_shape : negative_head e_neg (str "3") [::]. Proof. by []. Qed.

(* the same preprocessed input *)
Definition codes (input : bytes) : option (nat * seq K97 * seq K97) :=
  if compute_cpi P97 S97 input is Ret c then
    Some (cpi_n c, [:: cpi_k1 c; cpi_k2 c] ++ cpi_pi_x c,
      [:: com_q_lx c : K97; com_q_rx c : K97; com_q_mx c : K97; com_q_ox c : K97; com_q_cx c : K97;
        com_s_sigma_1 c : K97; com_s_sigma_2 c : K97; com_s_sigma_3 c : K97]) else None.
Example same_codes : (codes (str "x*y=-3") == codes (str "x*y=z")) && isSome (codes (str "x*y=z")).
Proof. by vm_compute. Qed.
(* a positive right side is read *)
Example other_codes : codes (str "x*y=3") != codes (str "x*y=4").
Proof. by vm_compute. Qed.

(* values 2 and 5, which do not solve x*y=-3: a proof accepted on that preprocessed input *)
Definition Wxyz10 : bytes -> option K97 := with_value (str "z") (Wxy 2 5) 10%:R.
Example negative_accepted :
  (if run_parsed Wxyz10 (str "x*y=z") is Ret (Ret tt, false) then true else false) = true.
Proof. by vm_compute. Qed.
Example negative_sizes :
  (if compute_cpi P97 S97 (str "x*y=-3") is Ret c then (cpi_n c <= 16)%N && (4 * cpi_n c + 6 <= 2 ^ two_adicity P97)%N else false) = true.
Proof. by vm_compute. Qed.

(* renaming x, y, z of the repository's test equation to bob, z, y *)
Definition f_ren (x : bytes) : bytes :=
  if x == str "x" then str "b" else if x == str "y" then str "zed" else str "y".
Example renaming_hypotheses : [&& equation_ok e_test, equation_ok (rename_equation f_ren e_test),
  uniq (map f_ren (undup (equation_names e_test))) &
  equation_text (rename_equation f_ren e_test) == str "b*zed+3*b^2+b*zed*y=11"].
Proof. by vm_compute. Qed.
Definition Wren : bytes -> option K97 :=
  add_witness (add_witness (add_witness (@no_witness K97) (str "b") 1) (str "zed") 2%:R) (str "y") 3%:R.
Example renamed_circuit :
  outcome_same (parse Wxyz (str "x*y+3*x^2+x*y*z=11")) (parse Wren (str "b*zed+3*b^2+b*zed*y=11")).
Proof. by vm_compute. Qed.
(* two names made one: another circuit *)
Example not_injective :
  ~~ outcome_same (parse Wxyz (str "x*y+3*x^2+x*y*z=11")) (parse Wxyz (str "x*x+3*x^2+x*x*z=11")).
Proof. by vm_compute. Qed.
