(* Model of the kzg crate: /repo/kzg/src/{srs,scheme,opening,commitment}.rs.
   Definitions only.  Polynomials are the stored coefficient lists
   (`DensePolynomial::coeffs`). *)
Set Warnings "-notation-overridden,-ambiguous-paths".
From mathcomp Require Import all_ssreflect all_algebra.
From Verif Require Import Base ArkPoly.

Set Implicit Arguments.
Unset Strict Implicit.
Unset Printing Implicit Defensive.

Import GRing.Theory.
Local Open Scope ring_scope.

(* types.rs: the pairing engine (Bls12_381 in the repo), abstract: two groups
   and a target group with scalars in F (written additively), the fixed
   generators and the pairing map.  Affine/projective conversions are
   identities here. *)
Record pairing_group (F : fieldType) := PairingGroup {
  G1 : lmodType F;
  G2 : lmodType F;
  GT : lmodType F;
  g1_gen : G1;
  g2_gen : G2;
  pairing : G1 -> G2 -> GT;
}.

(* srs.rs:14-21 *)
Record srs (F : fieldType) (E : pairing_group F) := Srs {
  srs_g1_points : seq (G1 E);
  srs_g2 : G2 E;
  srs_g2s : G2 E;
}.

Section Kzg.
Variables (F : fieldType) (E : pairing_group F).
Local Notation g1 := (g1_gen E).
Local Notation g2 := (g2_gen E).

(* srs.rs:51-60: the map closure with the running power `cur` *)
Fixpoint srs_points (secret cur : F) (n : nat) : seq (G1 E) :=
  if n is n'.+1 then (cur *: g1) :: srs_points secret (cur * secret) n' else [::].

(* srs.rs:48-69 (`Srs::new`, lines 33-36, draws the secret at random) *)
Definition srs_new_from_secret (secret : F) (circuit_size : nat) : srs E :=
  Srs (srs_points secret 1 (circuit_size + 3)) g2 (secret *: g2).

Implicit Types (S : srs E) (p : seq F).

(* `.reduce(|acc, e| acc + e).unwrap_or(zero)` of scheme.rs:93-94 *)
Definition reduce_add (s : seq (G1 E)) : G1 E :=
  if s is x :: s' then foldl +%R x s' else 0.

(* scheme.rs:84-96; `degree` asserts a non-zero leading coefficient *)
Definition evaluate_in_s S p : outcome (G1 E) :=
  d <- pdegree p;;
  _ <- oassert (d < size (srs_g1_points S))%N;;
  Ret (reduce_add [seq cs.1 *: cs.2 | cs <- zip p (srs_g1_points S)]).

(* scheme.rs:49-52 *)
Definition kzg_commit S p : outcome (G1 E) := evaluate_in_s S p.

(* scheme.rs:63-67 *)
Definition kzg_commit_vector S (coeffs : seq F) : outcome (G1 E) :=
  evaluate_in_s S (trim coeffs).

(* scheme.rs:78-82 *)
Definition kzg_commit_para S (para : F) : outcome (G1 E) :=
  g <- index_at (srs_g1_points S) 0;;
  Ret (para *: g).

(* opening.rs:11 *)
Definition kzg_opening : Type := (G1 E * F)%type.

(* `&p / &(X - z)` (ark-poly `divide_with_q_and_r`): zero dividend first, then
   the degree comparison (which asserts a non-zero leading coefficient), then
   long division. *)
Definition divide_lin p (z : F) : outcome (seq F) :=
  if pis_zero p then Ret [::]
  else
    d <- pdegree p;;
    if (d < 1)%N then Ret [::] else Ret (pdiv_lin z p).

(* scheme.rs:113-119, shared by open and open_vector *)
Definition open_coeffs S p (z : F) : outcome kzg_opening :=
  let y := peval p z in
  if p is a :: p' then
    q <- divide_lin ((a - y) :: p') z;;
    w <- evaluate_in_s S q;;
    Ret (w, y)
  else Panic.

(* scheme.rs:108-120 *)
Definition kzg_open S p (z : F) : outcome kzg_opening := open_coeffs S p z.

(* scheme.rs:132-142 *)
Definition kzg_open_vector S (coeffs : seq F) (z : F) : outcome kzg_opening :=
  open_coeffs S (trim coeffs) z.

(* scheme.rs:155-173 *)
Definition kzg_verify S (commitment : G1 E) (opening : kzg_opening) (z : F) : bool :=
  let y := opening.2 in
  let a := srs_g2s S - z *: srs_g2 S in
  let b := commitment - y *: g1 in
  @pairing F E opening.1 a == @pairing F E b (srs_g2 S).

(* scheme.rs:187-200: accumulators (result, pow) *)
Definition aggregate_commitments (cs : seq (G1 E)) (challenge : F) : G1 E :=
  (foldl (fun (st : G1 E * F) c => (st.1 + st.2 *: c, st.2 * challenge)) (0, 1) cs).1.

(* scheme.rs:215-246; `r` is the stream of `Fr::from(rng.gen::<u128>())` draws,
   one per item. *)
Definition batch_verify S (cs : seq (G1 E)) (points : seq F) (openings : seq kzg_opening)
  (r : nat -> F) : outcome bool :=
  _ <- oassert (size cs == size points);;
  _ <- oassert (size openings == size points);;
  let items := zip (zip cs points) openings in
  let step (st : G1 E * G1 E * nat) (it : G1 E * F * kzg_opening) :=
    let: (e_1, e_2, i) := st in
    let: (cm, z, (w, s)) := it in
    let cm_minus_s := cm - s *: g1 in
    let z_mul_w := z *: w in
    (e_1 + r i *: (cm_minus_s + z_mul_w), e_2 + r i *: w, i.+1) in
  let: (e_1, e_2, _) := foldl step (0, 0, 0%N) items in
  Ret (@pairing F E e_1 (srs_g2 S) == @pairing F E e_2 (srs_g2s S)).

(* scheme.rs:251-254 *)
Definition com_add (a b : G1 E) : G1 E := a + b.
(* scheme.rs:286-289 *)
Definition com_neg (a : G1 E) : G1 E := - a.
(* scheme.rs:260-262 *)
Definition com_sub (a b : G1 E) : G1 E := com_add a (com_neg b).
(* scheme.rs:268-271, 277-280 *)
Definition com_mul (a : G1 E) (k : F) : G1 E := k *: a.

(* opening.rs:38-44 *)
Definition opening_add (a b : kzg_opening) : kzg_opening := (a.1 + a.1, a.2 + b.2).

End Kzg.
