(* C93: the hypotheses are met by x*y=06, x = 2, y = 3, over F_97. *)
From Coq Require Import String Ascii NArith ZArith.
Set Warnings "-notation-overridden,-ambiguous-paths".
From mathcomp Require Import all_ssreflect all_algebra.
From Verif Require Import Base ArkDomain KzgModel KzgSpec PlonkModel PlonkSpec PlonkExamples
  ParserModel ParserSpec ParserExamples CpiProps NumeralProps.

Import GRing.Theory.
Local Open Scope ring_scope.

Example numerals_meet : numeral_ok (str "06") && ~~ canonical (str "06") && numeral_ok (str "6")
  && (digits_val (str "06") == digits_val (str "6")).
Proof. by vm_compute. Qed.

Example hypotheses_meet : [/\ (2 <= two_adicity P97)%N, g1_gen E97 != 0,
  Wxy 2 3 (str "x") = Some 2%:R & Wxy 2 3 (str "y") = Some 3%:R].
Proof. by split; vm_compute. Qed.
Example codes_meet : [/\ 2%:R != 0 :> K97, 3%:R != 0 :> K97, 2%:R ^+ 4 != 1 :> K97, 3%:R ^+ 4 != 1 :> K97
  & 2%:R ^+ 4 != 3%:R ^+ 4 :> K97].
Proof. by split; vm_compute. Qed.

(* the two texts have one preprocessed input; the prover's circuits differ *)
Local Notation S97 := (srs_new_from_secret E97 s97 16).
Definition seen (t : string) : outcome (K97 * K97) :=
  c <- compute_cpi P97 S97 (str t);; Ret (com_s_sigma_1 c : K97, com_s_sigma_2 c : K97).
Definition proved (t : string) : outcome (K97 * K97) :=
  cir <- parse (Wxy 2 3) (str t);; cc <- compile P97 cir;;
  a <- kzg_commit S97 (s_sigma_1 (cc_copy cc));; b <- kzg_commit S97 (s_sigma_2 (cc_copy cc));;
  Ret (a : K97, b : K97).
Definition is_pair (o : outcome (K97 * K97)) (a b : nat) : bool :=
  if o is Ret (u, v) then (u == a%:R) && (v == b%:R) else false.
Example zeros_seen : is_pair (seen "x*y=06") 16 65 && is_pair (seen "x*y=6") 16 65.
Proof. by vm_compute. Qed.
Example zeros_proved : is_pair (proved "x*y=06") 95 10 && is_pair (proved "x*y=6") 16 65.
Proof. by vm_compute. Qed.
