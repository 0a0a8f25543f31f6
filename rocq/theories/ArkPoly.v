(* Model of the ark-poly 0.4 `DensePolynomial` operations used by the fri and
   kzg crates, on coefficient lists (low degree first).  ark-poly is not part
   of /repo; this is the semantics recalled in DESIGN.md section 4. *)
Set Warnings "-notation-overridden,-ambiguous-paths".
From mathcomp Require Import all_ssreflect all_algebra.
From Verif Require Import Base.

Set Implicit Arguments.
Unset Strict Implicit.
Unset Printing Implicit Defensive.

Import GRing.Theory.
Local Open Scope ring_scope.

Section ArkPoly.
Variable F : fieldType.
Implicit Types (s p q : seq F) (x a : F).

(* `DensePolynomial::from_coefficients_vec`: drop trailing zero coefficients. *)
Fixpoint trim s : seq F :=
  if s is a :: s' then
    let t := trim s' in if nilp t && (a == 0) then [::] else a :: t
  else [::].

(* `Zero::is_zero`: no coefficients, or all of them zero. *)
Definition pis_zero s : bool := all (fun a => a == 0) s.

(* `Polynomial::degree`: 0 for the zero polynomial, else asserts that the last
   stored coefficient is non-zero and returns len - 1. *)
Definition pdegree s : outcome nat :=
  if pis_zero s then Ret 0%N
  else if last 0 s == 0 then Panic else Ret (size s).-1.

(* `Polynomial::evaluate`: Horner. *)
Definition peval s x : F := foldr (fun a acc => a + x * acc) 0 s.

(* coefficient-wise sum of the longer with the shorter, before trimming *)
Fixpoint padd_raw p q : seq F :=
  match p, q with
  | [::], _ => q
  | _, [::] => p
  | a :: p', b :: q' => (a + b) :: padd_raw p' q'
  end.

(* `&p + &q`.  Simplification: ark asserts (through `degree`) that non-zero
   operands are trimmed; at every call site of the repo the operands are. *)
Definition padd p q : seq F := trim (padd_raw p q).

(* `&p * a` for a scalar: the empty polynomial when either is zero. *)
Definition pscale p a : seq F :=
  if pis_zero p || (a == 0) then [::] else [seq c * a | c <- p].

(* Synthetic division by the monic linear polynomial X - z: (quotient
   coefficients, remainder); the quotient list has one spare zero at the end. *)
Definition quot_lin z s : seq F * F :=
  foldr (fun a qr => (qr.2 :: qr.1, a + z * qr.2)) ([::], 0) s.

(* Quotient of `divide_with_q_and_r` (hence of `&p / &q`) for the divisors
   X - z used in the repo; it is returned trimmed. *)
Definition pdiv_lin z s : seq F := trim (quot_lin z s).1.

End ArkPoly.
