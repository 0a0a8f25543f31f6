(* Concrete cases meeting the hypotheses of the KZG theorems: the field with 17
   elements, all three groups its additive group, the pairing multiplication. *)
Set Warnings "-notation-overridden,-ambiguous-paths".
From mathcomp Require Import all_ssreflect all_algebra.
From mathcomp Require Import zify ring.
From Verif Require Import Base BaseLemmas ArkPoly ArkPolyLemmas KzgModel KzgSpec KzgLemmas KzgProps.

Set Implicit Arguments.
Unset Strict Implicit.
Unset Printing Implicit Defensive.

Import GRing.Theory.
Local Open Scope ring_scope.

Definition K17 := [fieldType of 'F_17].
Definition R17 := [lmodType K17 of K17^o].

Definition E17 : pairing_group K17 :=
  @PairingGroup K17 R17 R17 R17 (1 : K17^o) (3%:R : K17^o) (fun a b : K17^o => (a : K17) * b).

Example E17_ok : pairing_ok E17.
Proof.
split=> /= [a b c|k a c|a b c|k a c|a|].
- exact: mulrDl.
- by rewrite /GRing.scale /= mulrA.
- exact: mulrDr.
- by rewrite /GRing.scale /= mulrCA.
- by move/eqP; rewrite mulf_eq0 => /orP[/eqP ->|].
- by [].
Qed.

Definition S17 := srs_new_from_secret E17 5%:R 2.
Definition f17 : seq K17 := [:: 1; 2%:R; 3%:R; 4%:R].

(* C18: five points 1, 5, 25, 125, 625 mod 17 *)
Example srs17 : [seq (x : K17) | x <- srs_g1_points S17] = [:: 1; 5%:R; 8%:R; 6%:R; 13%:R].
Proof. by apply/eqP; vm_compute. Qed.

(* C19-C25: a cubic is committed (to f(5)), opened at 7 (and at the secret 5);
   the opening verifies, the value is not zero, another value is rejected. *)
Definition run17 (z : K17) : bool :=
  if kzg_commit S17 f17 is Ret C then
    if kzg_open S17 f17 z is Ret (W, y) then
      [&& (C : K17) == peval f17 5%:R, y == peval f17 z, y != 0,
          kzg_verify S17 C (W, y) z & ~~ kzg_verify S17 C (W, y + 1) z]
    else false
  else false.

Example open17 : run17 7%:R && run17 5%:R.
Proof. by vm_compute. Qed.

(* C19, C22: the boundary: five coefficients fit, six do not; the zero vector
   opens to a panic *)
Example boundary17 :
  [/\ is_ret (kzg_commit S17 [:: 1; 1; 1; 1; 1 : K17]),
      kzg_commit S17 [:: 1; 1; 1; 1; 1; 1 : K17] = Panic,
      kzg_commit S17 [:: 1; 0 : K17] = Panic,
      kzg_open_vector S17 [:: 0; 0 : K17] 3%:R = Panic
    & is_ret (kzg_open_vector S17 [:: 0; 4%:R; 0 : K17] 3%:R)].
Proof. by []. Qed.

(* C24: two accepted values for one commitment exist (the witnesses are made
   with the knowledge of the secret) *)
Example equivocate17 :
  kzg_verify S17 (6%:R : K17^o) ((2%:R : K17^o), 10%:R) 7%:R &&
  kzg_verify S17 (6%:R : K17^o) ((4%:R : K17^o), 14%:R) 7%:R.
Proof. by vm_compute. Qed.

(* C26: a batch with a bad item is accepted for one coefficient and rejected
   for another *)
Definition batch17 (r1 : K17) : outcome bool :=
  batch_verify S17 [:: 6%:R : K17^o; 6%:R : K17^o] [:: 7%:R; 7%:R]
    [:: ((2%:R : K17^o), 10%:R); ((2%:R : K17^o), 11%:R)]
    (fun i => if i is 1%N then r1 else 4%:R).
Example batch17_cases : batch17 0 = Ret true /\ batch17 1 = Ret false.
Proof. by []. Qed.

(* C27: two valid openings with different witnesses: the sum is rejected *)
Example sum17 :
  let o1 := ((2%:R : K17^o), 10%:R : K17) in
  let o2 := ((4%:R : K17^o), 14%:R : K17) in
  [&& kzg_verify S17 (6%:R : K17^o) o1 7%:R, kzg_verify S17 (6%:R : K17^o) o2 7%:R
    & ~~ kzg_verify S17 (@com_add _ E17 (6%:R : K17^o) (6%:R : K17^o))
         (@opening_add _ E17 o1 o2) 7%:R].
Proof. by vm_compute. Qed.
