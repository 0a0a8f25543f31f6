(* Concrete cases meeting the hypotheses of the PLONK theorems: scalars in the
   field with 97 elements (two-adicity 5), toy groups and digest, the circuits
   of the repository's tests. *)
From Coq Require Import String Ascii NArith.
Set Warnings "-notation-overridden,-ambiguous-paths".
From mathcomp Require Import all_ssreflect all_algebra.
From mathcomp Require Import zify ring.
From Verif Require Import Base BaseLemmas ArkPoly ArkPolyLemmas ArkDomain ArkPolyFft KzgModel KzgSpec
  ArkDomainLemmas PlonkModel PlonkSpec PlonkLemmas PlonkProps PlonkChallengeProps.

Set Implicit Arguments.
Unset Strict Implicit.
Unset Printing Implicit Defensive.

Import GRing.Theory.
Local Open Scope ring_scope.

(* compile, prove with secret s and blinders b, verify *)
Section Run.
Variables (F : fieldType) (E : pairing_group F) (X : plonk_env E) (b : nat -> F) (s : F).
Definition run_all (calls : seq (gate_call F)) : outcome (proof E * outcome unit * bool) :=
  cc <- compile (pk_fft X) (build calls);;
  let S := srs_new_from_secret E s (cc_size cc) in
  pf <- generate_proof X (pk_sha256 X) b cc S;;
  Ret (pf, verify X (pk_sha256 X) cc S pf, ch_zeta X (pk_sha256 X) pf == 1).

Lemma run_accepted calls :
  (if run_all calls is Ret (_, Ret tt, false) then true else false) = true ->
  exists cc pf,
  [/\ compile (pk_fft X) (build calls) = Ret cc,
      generate_proof X (pk_sha256 X) b cc (srs_new_from_secret E s (cc_size cc)) = Ret pf &
      verify X (pk_sha256 X) cc (srs_new_from_secret E s (cc_size cc)) pf = Ret tt].
Proof.
rewrite /run_all; case Ec: (compile _ (build calls)) => [cc|m|] //; rewrite bindRet.
set S := srs_new_from_secret _ _ _.
case Eg: (generate_proof _ _ _ _ _) => [pf|m|] //; rewrite bindRet.
case Ev: (verify _ _ _ _ _) => [[]|m|] // _.
by exists cc, pf; split.
Qed.
End Run.

Definition K97 := [fieldType of 'F_97].
Definition R97 := [lmodType K97 of K97^o].
Definition E97 : pairing_group K97 :=
  @PairingGroup K97 R97 R97 R97 (1 : K97^o) (3%:R : K97^o) (fun a b : K97^o => (a : K97) * b).

Definition mix97 (b : bytes) : nat :=
  foldl (fun acc c => (acc * 31 + nat_of_ascii c + 7) %% 251)%N 1%N b.
Definition P97 : fft_field K97 := FftField 5 (28%:R : K97).
Definition X97 : plonk_env E97 :=
  @PlonkEnv K97 E97 P97
    (fun b => le_bytes 8 (mix97 b))
    (fun x : 'F_97 => [:: ascii_of_nat (x : nat)])
    (fun seed k => (N.to_nat seed + 3 * k + 1)%:R).

Lemma okE97 : pairing_ok E97.
Proof.
split=> /=.
- by move=> a b c; rewrite mulrDl.
- by move=> k a c; rewrite [RHS]mulrA.
- by move=> a b c; rewrite mulrDr.
- by move=> k a c; rewrite [RHS]mulrCA.
- by move=> a /eqP; rewrite mulf_eq0 => /orP[/eqP //|].
- by [].
Qed.

Lemma ok97 : fft_ok P97.
Proof.
split=> //; apply: (@prim_root_pow2 _ _ 4).
- by apply/eqP; vm_compute.
- by vm_compute.
Qed.

Lemma long97 : digest_long (pk_sha256 X97).
Proof. by move=> b; rewrite -[pk_sha256 X97 b]/(le_bytes 8 (mix97 b)) size_le_bytes. Qed.

Definition w97 (l i v : nat) : nat * nat * K97 := (l, i, v%:R).
(* x^2 + y^2 = z^2, verifier.rs:232-258; `last` is the value given to the last
   wire (z^2 = 25 in the test) *)
Definition calls97 (last : nat) : seq (gate_call K97) :=
  [:: GateCall Multiplication (w97 1 0 3) (w97 0 0 3) (w97 0 3 9) 0;
      GateCall Multiplication (w97 1 1 4) (w97 0 1 4) (w97 1 3 16) 0;
      GateCall Multiplication (w97 1 2 5) (w97 0 2 5) (w97 2 3 25) 0;
      GateCall Addition (w97 2 0 9) (w97 2 1 16) (w97 2 2 last) 0].
Definition b97 (i : nat) : K97 := (7 * i + 2)%:R.
Definition s97 : K97 := 5%:R.

Local Notation run97 := (run_all X97 b97 s97).

(* the honest circuit compiles, its proof is generated and accepted *)
Example accepted97 :
  (if run97 (calls97 25) is Ret (_, Ret tt, false) then true else false) = true.
Proof. by vm_compute. Qed.
(* a wrong last wire: the prover panics *)
Example refused97 : (if run97 (calls97 20) is Panic then true else false) = true.
Proof. by vm_compute. Qed.

(* hypotheses of C51: all relations hold, positions permute, values agree *)
Example satisfied97 : [&& all (@call_holds K97) (calls97 25), positions_permute (calls97 25) 4,
   copies_hold (calls97 25) 4 & positions_ok (calls97 25) 4].
Proof. by vm_compute. Qed.
(* hypotheses of C50_copy_soundness *)
Example copies_fail97 : ~~ copies_hold (calls97 20) 4.
Proof. by vm_compute. Qed.
Example cosets97 : [&& (2%:R : K97) ^+ 4 != 1, (3%:R : K97) ^+ 4 != 1, (2%:R : K97) ^+ 4 != 3%:R ^+ 4
  & (3%:R : K97) != 0].
Proof. by vm_compute. Qed.

(* C51's hypotheses, including the exceptional set, hold for this run *)
Example no_accident97 :
  exists2 cc, compile P97 (build (calls97 25)) = Ret cc &
  no_accident X97 cc b97 s97 /\ (4 * cc_size cc + 6 <= 2 ^ two_adicity P97)%N.
Proof.
have [cc [pf [Ec Eg _]]] := (@run_accepted K97 E97 X97 b97 s97 (calls97 25) accepted97); exists cc; first exact: Ec.
split; last first.
  suff -> : cc_size cc = 4%N by [].
  by have [-> _ _ _] := compile_inv Ec.
by case: (generate_inv (ok97 : fft_ok (pk_fft X97)) long97 Ec (leqnn _) Eg).
Qed.

(* a generator history meeting the hypotheses of C54 *)
Definition ops97 : seq (cg_op E97) :=
  [:: CFeed (g1_gen E97); CDraw E97 2; CFeed (2%:R *: g1_gen E97); CDraw E97 1].
Example history97 : ~ draws_hungry ops97.
Proof.
move/(C54_panics_iff X97 _ long97).
set r := cg_run _ _ _ _.
suff : (if r is Panic then false else true) = true by case: r.
by vm_compute.
Qed.
