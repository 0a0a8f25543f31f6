(* Specification vocabulary for the parser properties: token sequences with
   exponents, equations between polynomials as syntax trees, their text and
   their meaning. *)
From Coq Require Import String Ascii NArith ZArith.
Set Warnings "-notation-overridden,-ambiguous-paths".
From mathcomp Require Import all_ssreflect all_algebra.
From Verif Require Import Base PlonkModel PlonkSpec ParserModel.

Set Implicit Arguments.
Unset Strict Implicit.
Unset Printing Implicit Defensive.

Import GRing.Theory.
Local Open Scope ring_scope.

(* ------------------------------------------------------------------ *)
(* Text with exponents. *)

(* what remains of an input after dropping blanks and lower-casing *)
Definition cleaned (s : bytes) : bytes := to_lowercase [seq c <- s | c != " "%char].

(* a character other than the blank and '^', not upper-case *)
Definition ordinary (c : ascii) : bool := [&& c != " "%char, c != "^"%char & ~~ is_upper c].

(* an ordinary character, or a power: base character and exponent digits *)
Inductive token := TChar of ascii | TPow of ascii & bytes.

Definition max_i32 : N := 2147483647%num.

Definition token_ok (t : token) : bool :=
  match t with
  | TChar c => ordinary c
  | TPow v ds => [&& ordinary v, ~~ is_digit v, ds != [::], all is_digit ds
                   & (digits_val ds <=? max_i32)%num]
  end.
(* no digit directly after an exponent *)
Definition no_digit_next (ts : seq token) : bool :=
  if ts is TChar c :: _ then ~~ is_digit c else true.
Fixpoint tokens_ok (ts : seq token) : bool :=
  if ts is t :: ts' then
    [&& token_ok t, (if t is TPow _ _ then no_digit_next ts' else true) & tokens_ok ts']
  else true.

(* as written, and with v^k replaced by v*v*...*v (k factors) *)
Definition token_text (t : token) : bytes :=
  match t with TChar c => [:: c] | TPow v ds => v :: "^"%char :: ds end.
Definition token_expanded (t : token) : bytes :=
  match t with
  | TChar c => [:: c]
  | TPow v ds => v :: flatten (nseq (N.to_nat (digits_val ds)).-1 [:: "*"%char; v])
  end.
Definition text (ts : seq token) : bytes := flatten (map token_text ts).
Definition expanded (ts : seq token) : bytes := flatten (map token_expanded ts).

(* Exponents on which normalisation panics: a maximal run of digits and '^'
   with at least one '^' (the digits before the '^' are read as part of the
   exponent too), without any digit and not at the end of the text, or with a
   number above 2^31 - 1. *)
Definition run_char (c : ascii) : bool := is_digit c || (c == "^"%char).
Definition bad_exponent (s : bytes) : Prop := exists a run b,
  [/\ s = a ++ run ++ b, all run_char run, "^"%char \in run,
      ~~ (if a is c :: a' then run_char (last c a') else false)
    & ~~ (if b is c :: _ then run_char c else false)] /\
  let ds := [seq c <- run | is_digit c] in
  (ds = [::] /\ b <> [::]) \/ (max_i32 < digits_val ds)%num.

(* ------------------------------------------------------------------ *)
(* Equations: a sum of products of (possibly negated) factors on the left, one
   product on the right. *)
Inductive atom := Var of bytes | Num of bytes.
Record factor := Factor { f_neg : bool; f_atom : atom; f_pow : option bytes }.
Record equation := Equation { e_lhs : seq (seq factor); e_rhs : seq factor }.

Fixpoint join (c : ascii) (ss : seq bytes) : bytes :=
  match ss with
  | [::] => [::]
  | [:: s] => s
  | s :: ss' => s ++ c :: join c ss'
  end.

Definition atom_text (a : atom) : bytes := match a with Var x => x | Num d => d end.
Definition factor_text (f : factor) : bytes :=
  (if f_neg f then [:: "-"%char] else [::]) ++ atom_text (f_atom f) ++
  (if f_pow f is Some k then "^"%char :: k else [::]).
Definition term_text (t : seq factor) : bytes := join "*"%char (map factor_text t).
Definition equation_text (e : equation) : bytes :=
  join "+"%char (map term_text (e_lhs e)) ++ "="%char :: term_text (e_rhs e).

(* Names: not starting with a digit or '-', free of the operators '+', '*',
   '=', '^', of blanks and of upper-case letters. *)
Definition name_char (c : ascii) : bool :=
  [&& c != "+"%char, c != "*"%char, c != "="%char, c != "^"%char, ~~ is_space c & ~~ is_upper c].
Definition name_ok (x : bytes) : bool :=
  if x is c :: _ then [&& ~~ is_digit c, c != "-"%char & all name_char x] else false.

(* Numerals: digits, value at most 2^31 - 1. *)
Definition numeral_ok (d : bytes) : bool :=
  [&& d != [::], all is_digit d & (digits_val d <=? max_i32)%num].

(* Only one-letter names may carry an exponent, which must be at least 1. *)
Definition factor_ok (f : factor) : bool :=
  match f_atom f with
  | Var x => name_ok x &&
      (if f_pow f is Some k then [&& size x == 1%N, numeral_ok k & (1 <=? digits_val k)%num] else true)
  | Num d => numeral_ok d && (if f_pow f is Some _ then false else true)
  end.
(* The right side may start with a minus sign only before a numeral. *)
Definition rhs_ok (t : seq factor) : bool :=
  if t is f :: _ then if f_neg f then if f_atom f is Num _ then true else false else true
  else false.
Definition equation_ok (e : equation) : bool :=
  [&& (0 < size (e_lhs e))%N, all (fun t => (0 < size t)%N && all factor_ok t) (e_lhs e),
      rhs_ok (e_rhs e) & all factor_ok (e_rhs e)].

Section Meaning.
Variable F : fieldType.
(* the registered witnesses *)
Variable W : bytes -> option F.

Definition atom_value (a : atom) : F :=
  match a with
  | Var x => odflt 0 (W x)
  | Num d => (N.to_nat (digits_val d))%:R
  end.
Definition factor_value (f : factor) : F :=
  let v := atom_value (f_atom f) ^+ (if f_pow f is Some k then N.to_nat (digits_val k) else 1%N) in
  if f_neg f then - v else v.
Definition term_value (t : seq factor) : F := \prod_(f <- t) factor_value f.
Definition equation_holds (e : equation) : bool :=
  \sum_(t <- e_lhs e) term_value t == term_value (e_rhs e).

(* every variable of the equation has a registered value *)
Definition factor_names (f : factor) : seq bytes := if f_atom f is Var x then [:: x] else [::].
Definition equation_names (e : equation) : seq bytes :=
  flatten (map factor_names (flatten (rcons (e_lhs e) (e_rhs e)))).
Definition defined_on (e : equation) : bool :=
  all (fun x => isSome (W x)) (equation_names e).
(* all registered witnesses have proper names (upper-case letters allowed) *)
Definition names_only : Prop := forall k v, W k = Some v -> name_ok (to_lowercase k).

End Meaning.

(* Numerals written without leading zeros. *)
Definition canonical (d : bytes) : bool := (d == [:: "0"%char]) || (ohead d != Some "0"%char).
Definition factor_canonical (f : factor) : bool :=
  if f_atom f is Num d then canonical d else true.
(* the inputs on which the two front ends agree: canonical numerals, no
   leading minus sign on the right *)
Definition preprocess_ok (e : equation) : bool :=
  all (all factor_canonical) (rcons (e_lhs e) (e_rhs e)) &&
  (if e_rhs e is f :: _ then ~~ f_neg f else true).

(* ------------------------------------------------------------------ *)
(* Inputs the parser accepts, on the normalised text. *)
Section Accepts.
Variable F : fieldType.
Variable W : bytes -> option F.

(* the factor without one leading minus sign *)
Definition unsigned (f : bytes) : bytes :=
  if f is c :: f' then if c == "-"%char then f' else f else f.
Definition known_factor (f : bytes) : bool :=
  (f != [::]) && (isSome (W (unsigned f)) || isSome (parse_i32 (unsigned f))).
Definition known_term (t : bytes) : bool :=
  all (fun f => known_factor (str_trim f)) (split_on "*"%char t).
Definition acceptable (n : bytes) : Prop :=
  exists l r, [/\ n = l ++ "="%char :: r, "="%char \notin l, "="%char \notin r,
    all known_term (split_on "+"%char l) & known_term ("-"%char :: r)].
End Accepts.

(* ------------------------------------------------------------------ *)
(* Two lists of gate-adding calls that describe the same circuit: everything
   but the wire values agrees (and the constants of constant gates). *)
Definition same_circuit (F : fieldType) (cs cs' : seq (gate_call F)) : Prop :=
  gates (build cs) = gates (build cs').
