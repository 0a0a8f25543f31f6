(* Concrete cases meeting the hypotheses of the parser and preprocessor
   theorems: the equations and circuits of the repository's tests, over the
   field with 97 elements. *)
From Coq Require Import String Ascii NArith ZArith.
Set Warnings "-notation-overridden,-ambiguous-paths".
From mathcomp Require Import all_ssreflect all_algebra.
From mathcomp Require Import zify ring.
From Verif Require Import Base BaseLemmas ArkPoly ArkDomain ArkDomainLemmas ArkPolyFft KzgModel KzgSpec
  PlonkModel PlonkSpec PlonkLemmas PlonkCompile PlonkProps PlonkExamples.
From Verif Require Import ParserModel ParserSpec ParserProps CpiProps.

Set Implicit Arguments.
Unset Strict Implicit.
Unset Printing Implicit Defensive.

Import GRing.Theory.
Local Open Scope ring_scope.

(* parser.rs:432-436: x = 1, y = 2, z = 3 *)
Definition Wxyz : bytes -> option K97 :=
  add_witness (add_witness (add_witness (@no_witness K97) (str "x") 1%:R) (str "y") 2%:R) (str "z") 3%:R.

Lemma names_xyz : names_only Wxyz.
Proof.
move=> k v; rewrite /Wxyz /add_witness; do 3! (case: eqP => [-> //|_]).
by [].
Qed.

Definition var (x : string) : factor := Factor false (Var (str x)) None.
Definition num (x : string) : factor := Factor false (Num (str x)) None.
Definition pow (x k : string) : factor := Factor false (Var (str x)) (Some (str k)).

(* x*y+3*x^2+x*y*z=11, parser.rs:436 *)
Definition e_test : equation :=
  Equation [:: [:: var "x"; var "y"]; [:: num "3"; pow "x" "2"]; [:: var "x"; var "y"; var "z"]] [:: num "11"].

Example e_test_text : cleaned (str "X * y + 3*x^2 + x*y*z = 11") = equation_text e_test.
Proof. by []. Qed.
Example e_test_ok : [&& equation_ok e_test, preprocess_ok e_test & defined_on Wxyz e_test].
Proof. by vm_compute. Qed.
Example e_test_holds : equation_holds Wxyz e_test.
Proof. by rewrite /equation_holds /term_value /= !big_cons !big_nil; vm_compute. Qed.

(* parser.rs:498-570 parser_circuit_test: the generated circuit is the
   hand-written one *)
Definition calls_test : seq (gate_call K97) :=
  [:: GateCall Multiplication (w97 1 2 1) (w97 1 0 2) (w97 0 4 2) 0;
      GateCall Constant (w97 0 2 3) (w97 1 7 0) (w97 2 1 3) 0;
      GateCall Multiplication (w97 0 1 3) (w97 1 3 1) (w97 0 3 3) 0;
      GateCall Multiplication (w97 2 2 3) (w97 0 0 1) (w97 1 4 3) 0;
      GateCall Addition (w97 0 5 2) (w97 2 3 3) (w97 0 6 5) 0;
      GateCall Multiplication (w97 2 0 2) (w97 1 5 3) (w97 1 6 6) 0;
      GateCall Addition (w97 2 4 5) (w97 2 5 6) (w97 0 8 11) 0;
      GateCall Constant (w97 1 8 86) (w97 1 1 0) (w97 2 7 86) 0;
      GateCall Addition (w97 2 6 11) (w97 0 7 86) (w97 2 8 0) 0].
Definition pcode (p : position) : option (nat * nat) := if p is Pos l i then Some (l, i) else None.
Definition outcome_same (a b : outcome (circuit K97)) : bool :=
  match a, b with
  | Ret c, Ret c' =>
      [&& vals_a c == vals_a c', vals_b c == vals_b c', vals_c c == vals_c c' &
        map (fun g => (pcode (a_pos g), pcode (b_pos g), pcode (c_pos g))) (gates c) == map (fun g => (pcode (a_pos g), pcode (b_pos g), pcode (c_pos g))) (gates c')]
      && (map (fun g => (q_l g, q_r g, q_o g, (q_m g, q_c g, g_pi g))) (gates c) ==
          map (fun g => (q_l g, q_r g, q_o g, (q_m g, q_c g, g_pi g))) (gates c'))
  | _, _ => false
  end.
Example parser_circuit_test :
  outcome_same (parse Wxyz (str "x*y+3*x*x+x*y*z=11")) (Ret (build calls_test)).
Proof. by vm_compute. Qed.

(* cpi_parser.rs:432-487 parser_prover_test: both front ends, same polynomials *)
Example cpi_test : exists c, compute_cpi P97 (srs_new_from_secret E97 s97 20) (str "x*y+3*x^2+x*y*z=11") = Ret c
  /\ cpi_n c = 16%N.
Proof.
have : (if compute_cpi P97 (srs_new_from_secret E97 s97 20) (str "x*y+3*x^2+x*y*z=11") is Ret c
        then cpi_n c == 16%N else false) by vm_compute.
by case: compute_cpi => // c /eqP h; exists c.
Qed.

(* end to end: x*y=6 with x = 2, y = 3, and the non-solution x = y = 1 *)
Definition Wxy (x y : nat) : bytes -> option K97 :=
  add_witness (add_witness (@no_witness K97) (str "x") x%:R) (str "y") y%:R.
Definition run_parsed (W : bytes -> option K97) (input : bytes) : outcome (outcome unit * bool) :=
  cir <- parse W input;;
  cc <- compile P97 cir;;
  let S := srs_new_from_secret E97 s97 (cc_size cc) in
  pf <- generate_proof X97 (pk_sha256 X97) b97 cc S;;
  Ret (verify X97 (pk_sha256 X97) cc S pf, ch_zeta X97 (pk_sha256 X97) pf == 1).
Example parsed_accepted :
  (if run_parsed (Wxy 2 3) (str "x*y=6") is Ret (Ret tt, false) then true else false) = true.
Proof. by vm_compute. Qed.
(* parser.rs:487-497 parser_false_witness_test: the prover panics *)
Example parsed_refused : (if run_parsed (Wxy 1 1) (str "x*y=6") is Panic then true else false) = true.
Proof. by vm_compute. Qed.

(* C58: a proof for the circuit of x*y=6 made from x = y = 1, where the last
   wire carries 1 - 6 instead of 0 *)
Definition forged_calls : seq (gate_call K97) :=
  [:: GateCall Multiplication (w97 0 0 1) (w97 1 0 1) (w97 0 2 1) 0;
      GateCall Constant (w97 1 2 91) (w97 1 1 0) (w97 2 1 91) 0;
      GateCall Addition (w97 2 0 1) (w97 0 1 91) (w97 2 2 92) 0].
Definition run_forged : outcome (outcome unit * bool) :=
  cir <- parse (Wxy 1 1) (str "x*y=6");;
  cc <- compile P97 cir;;
  cc' <- compile P97 (build forged_calls);;
  let S := srs_new_from_secret E97 s97 (cc_size cc) in
  pf <- generate_proof X97 (pk_sha256 X97) b97 cc' S;;
  Ret (verify X97 (pk_sha256 X97) cc S pf, ch_zeta X97 (pk_sha256 X97) pf == 1).
Example forged_accepted : (if run_forged is Ret (Ret tt, false) then true else false) = true.
Proof. by vm_compute. Qed.

(* C59: inputs that panic *)
Example panics : all (fun s => is_panic (parse Wxyz (str s)))
  [:: "x*y"; "x=y=z"; "x**y=1"; "u=1"; "x=2147483648"; "x^+y=1"; "x^99999999999=1"; "x+=1"]%string.
Proof. by vm_compute. Qed.
(* C55: 12^2 becomes 12 followed by 121 factors 2, not 12 * 12 *)
Example power_of_numeral : exists s, parse_string (str "12^2") = Ret (str "12" ++ s) /\ size s = 242%N.
Proof.
have : (if parse_string (str "12^2") is Ret s then (take 2 s == str "12") && (size s == 244%N) else false) by vm_compute.
case: parse_string => // s /andP[/eqP h /eqP k]; exists (drop 2 s).
by rewrite -h cat_take_drop size_drop k.
Qed.
(* C60: the hypotheses of the negative case *)
Example negative_case : [&& numeral_ok (str "1"), numeral_ok (str "5") & (2 <= two_adicity P97)%N].
Proof. by []. Qed.
