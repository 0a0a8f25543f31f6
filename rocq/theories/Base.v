(* Common infrastructure of the model: outcomes of Rust functions, bytes and
   strings, indexing, powers of two.  Definitions only (plus the eqType
   instances the definitions need); lemmas are in BaseLemmas.v. *)
From Coq Require Import String Ascii NArith.
Set Warnings "-notation-overridden,-ambiguous-paths".
From mathcomp Require Import all_ssreflect all_algebra.

Set Implicit Arguments.
Unset Strict Implicit.
Unset Printing Implicit Defensive.

(* ------------------------------------------------------------------ *)
(* Outcome of a Rust function: normal return, `Err(String)` of a
   `Result<_, String>`, or a panic (assert!, unwrap, expect, index out of
   bounds, division by zero). *)
Inductive outcome (A : Type) : Type :=
| Ret of A
| Err of string
| Panic.

Arguments Ret {A} _.
Arguments Err {A} _.
Arguments Panic {A}.

(* Sequencing: the `?` operator and panic propagation. *)
Definition obind (A B : Type) (m : outcome A) (k : A -> outcome B) : outcome B :=
  match m with
  | Ret a => k a
  | Err s => Err s
  | Panic => Panic
  end.

Notation "x <- m ;; k" := (obind m (fun x => k))
  (at level 100, m at next level, right associativity, format
   "'[v' x  <-  m  ;;  '/' k ']'").
Notation "' p <- m ;; k" := (obind m (fun x => let p := x in k))
  (at level 100, p strict pattern, m at next level, right associativity).

Definition omap (A B : Type) (f : A -> B) (m : outcome A) : outcome B :=
  obind m (fun a => Ret (f a)).

(* `.unwrap()` / `.expect(..)` on an Option. *)
Definition unwrap (A : Type) (o : option A) : outcome A :=
  if o is Some a then Ret a else Panic.

(* `assert!(b)` *)
Definition oassert (b : bool) : outcome unit := if b then Ret tt else Panic.

(* Slice/Vec indexing `v[i]`: panics out of bounds. *)
Definition index_at (A : Type) (s : seq A) (i : nat) : outcome A :=
  unwrap (ohead (drop i s)).

(* `.iter().map(f).collect()` for an f that may fail/panic, left to right. *)
Fixpoint omapM (A B : Type) (f : A -> outcome B) (s : seq A) : outcome (seq B) :=
  match s with
  | [::] => Ret [::]
  | a :: s' => b <- f a;; bs <- omapM f s';; Ret (b :: bs)
  end.

(* A `for` loop over a list with an accumulator and possible failure. *)
Fixpoint ofold (A S : Type) (f : S -> A -> outcome S) (st : S) (s : seq A)
  : outcome S :=
  match s with
  | [::] => Ret st
  | a :: s' => st' <- f st a;; ofold f st' s'
  end.

Definition is_ret (A : Type) (m : outcome A) : bool :=
  if m is Ret _ then true else false.
Definition is_panic (A : Type) (m : outcome A) : bool :=
  if m is Panic then true else false.

(* ------------------------------------------------------------------ *)
(* Bytes and ASCII strings. *)
Lemma ascii_eqP : Equality.axiom Ascii.eqb.
Proof. by move=> a b; apply: (iffP idP) => [/Ascii.eqb_eq|/Ascii.eqb_eq]. Qed.
Definition ascii_eqMixin := EqMixin ascii_eqP.
Canonical ascii_eqType := Eval hnf in EqType ascii ascii_eqMixin.

Definition bytes := seq ascii.

(* String literals as character lists. *)
Definition str (s : string) : bytes := list_ascii_of_string s.

(* `u64::to_le_bytes` / the k low bytes of n, little-endian. *)
Fixpoint le_bytes (k n : nat) : bytes :=
  if k is k'.+1 then ascii_of_nat (n %% 256) :: le_bytes k' (n %/ 256)
  else [::].

(* `u64::from_le_bytes` *)
Fixpoint le_decode (b : bytes) : N :=
  if b is c :: b' then (N_of_ascii c + 256 * le_decode b')%num else 0%num.

(* Decimal digits of a natural number, most significant first, with no
   digit at all for 0: `ark_ff::Fp`'s Display prints the decimal big integer
   with leading '0's trimmed, so zero is the empty string. *)
Fixpoint decimal_fuel (fuel n : nat) (acc : bytes) : bytes :=
  if fuel is f.+1 then
    if n == 0 then acc
    else decimal_fuel f (n %/ 10) (ascii_of_nat (48 + n %% 10) :: acc)
  else acc.
Definition decimal (n : nat) : bytes := decimal_fuel n n [::].

(* ------------------------------------------------------------------ *)
(* `usize::next_power_of_two` (1 for 0). *)
Definition next_power_of_two (n : nat) : nat := 2 ^ up_log 2 n.

(* `usize::ilog2`: panics for 0. *)
Definition ilog2 (n : nat) : outcome nat :=
  if n == 0 then Panic else Ret (trunc_log 2 n).

(* `n` is a power of two *)
Definition is_pow2 (n : nat) : bool := n == next_power_of_two n.

(* `a % b` and `a / b` on usize: panic for b = 0. *)
Definition umod (a b : nat) : outcome nat := if b == 0 then Panic else Ret (a %% b).

(* Arithmetic on machine words of a given number of bits (64 for `usize` on the
   targets considered): the result of an operation whose exact result is x, in a
   build with overflow checks (debug profile: panic) or without (release profile:
   wrap around). *)
Definition word (checked : bool) (bits x : nat) : outcome nat :=
  if (x < 2 ^ bits)%N then Ret x else if checked then Panic else Ret (x %% 2 ^ bits)%N.
