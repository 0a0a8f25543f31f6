(* Further ark-poly 0.4 operations used by the plonk crate, on coefficient
   lists.  ark-poly is not part of /repo; this is the semantics recalled in
   DESIGN.md section 4.  Definitions only; lemmas are in ArkPolyFftLemmas.v. *)
Set Warnings "-notation-overridden,-ambiguous-paths".
From mathcomp Require Import all_ssreflect all_algebra.
From Verif Require Import Base ArkPoly ArkDomain.

Set Implicit Arguments.
Unset Strict Implicit.
Unset Printing Implicit Defensive.

Import GRing.Theory.
Local Open Scope ring_scope.

Section ArkPolyFft.
Variables (F : fieldType) (P : fft_field F).
Implicit Types (s p q v : seq F) (x z a : F) (d : domain F).

(* `-p` *)
Definition pneg p : seq F := [seq - c | c <- p].

(* `&p - &q` *)
Definition psub p q : seq F := trim (padd_raw p (pneg q)).

(* schoolbook product, before trimming *)
Definition pmul_raw p q : seq F :=
  foldr (fun a acc => padd_raw [seq a * b | b <- q] (0 :: acc)) [::] p.

(* `&p * &q`: zero when either is zero, else through an evaluation domain of
   size len p + len q - 1, with `.expect` when the field has none.  The FFT
   itself is modelled by its result, the product. *)
Definition pmul p q : outcome (seq F) :=
  if pis_zero p || pis_zero q then Ret [::]
  else if domain_new P (size p + size q - 1) is Some _ then Ret (trim (pmul_raw p q))
  else Panic.

(* `p.coeffs[0] += a`: panics on an empty coefficient vector; no re-trimming *)
Definition padd_coeff0 p a : outcome (seq F) :=
  if p is c :: p' then Ret (c + a :: p') else Panic.

(* `domain.vanishing` : value of X^n - 1 at x (`evaluate_vanishing_polynomial`) *)
Definition vanishing_at d x : F := x ^+ dom_size d - 1.

(* `p.mul_by_vanishing_poly(domain)`: shift by n, subtract p, trim *)
Definition mul_vanishing d p : seq F :=
  trim (padd_raw (nseq (dom_size d) 0 ++ p) (pneg p)).

(* `p.divide_by_vanishing_poly(domain)`: quotient and remainder by X^n - 1;
   the quotient is the sum of the shifts p[n..], p[2n..], ...; None never
   happens.  `fuel` bounds the number of blocks of n coefficients. *)
Fixpoint div_vanishing_fuel (fuel n : nat) p : seq F * seq F :=
  if fuel is f.+1 then
    if (size p < n)%N then ([::], p)
    else
      let qr := div_vanishing_fuel f n (drop n p) in
      (padd_raw (drop n p) qr.1, padd_raw (take n p) qr.2)
  else ([::], p).
Definition div_vanishing d p : seq F * seq F :=
  let qr := div_vanishing_fuel (size p).+1 (dom_size d) p in (trim qr.1, trim qr.2).

(* `Evaluations::from_vec_and_domain(v, domain).interpolate()`: the vector is
   resized to the domain size with zeros, inverse DFT, trim. *)
Definition resize v (n : nat) : seq F := take n v ++ nseq (n - size v) 0.
Definition interpolate d v : seq F :=
  let e := resize v (dom_size d) in
  trim [seq (dom_size d)%:R^-1 * peval e ((dom_gen d)^-1 ^+ j) | j <- iota 0 (dom_size d)].

(* `divide_with_q_and_r` by X - z: zero dividend first, then the degree
   comparison (which asserts a non-zero leading coefficient), then long
   division. *)
Definition divide_qr_lin p z : outcome (seq F * seq F) :=
  if pis_zero p then Ret ([::], [::])
  else
    dg <- pdegree p;;
    if (dg < 1)%N then Ret ([::], p)
    else Ret (pdiv_lin z p, trim [:: (quot_lin z p).2]).

(* field division `a / b`: `inverse().unwrap()` *)
Definition fdiv (a b : F) : outcome F := if b == 0 then Panic else Ret (a / b).

End ArkPolyFft.
