(* Concrete cases for C71 and C72: scalars in the field with 193 elements
   (two-adicity 6), toy groups and digest. *)
From Coq Require Import String Ascii NArith.
Set Warnings "-notation-overridden,-ambiguous-paths".
From mathcomp Require Import all_ssreflect all_algebra.
From mathcomp Require Import zify ring.
From Verif Require Import Base BaseLemmas ArkPoly ArkPolyLemmas ArkDomain ArkPolyFft KzgModel KzgSpec
  ArkDomainLemmas PlonkModel PlonkSpec PlonkLemmas PlonkProps PlonkExamples StatementSpec ProgramModel
  ProgramProps.

Set Implicit Arguments.
Unset Strict Implicit.
Unset Printing Implicit Defensive.

Import GRing.Theory.
Local Open Scope ring_scope.

(* prove one circuit, verify against another *)
Section Foreign.
Variables (F : fieldType) (E : pairing_group F) (X : plonk_env E) (b : nat -> F) (s : F).
Definition run_foreign (calls calls' : seq (gate_call F)) : outcome unit :=
  cc <- compile (pk_fft X) (build calls);;
  cc' <- compile (pk_fft X) (build calls');;
  let S := srs_new_from_secret E s (cc_size cc) in
  pf <- generate_proof X (pk_sha256 X) b cc' S;;
  verify X (pk_sha256 X) cc S pf.
Definition foreign_ok (calls calls' : seq (gate_call F)) : bool :=
  if run_foreign calls calls' is Ret _ then true else false.

Lemma foreign_no_accident calls calls' : fft_ok (pk_fft X) -> digest_long (pk_sha256 X) ->
  size calls = size calls' -> foreign_ok calls calls' ->
  exists2 cc, compile (pk_fft X) (build calls') = Ret cc & no_accident X cc b s.
Proof.
move=> ok long sz; rewrite /foreign_ok /run_foreign.
case Ec: (compile _ (build calls)) => [cc| |] //.
rewrite bindRet; case Ec': (compile _ (build calls')) => [cc'| |] //.
rewrite bindRet; set S := srs_new_from_secret _ _ _.
case Eg: (generate_proof _ _ _ _ _) => [pf| |] // _; exists cc' => //.
have le : (cc_size cc' <= cc_size cc)%N.
  have [-> _ _ _] := compile_inv Ec; have [-> _ _ _] := compile_inv Ec'.
  by rewrite /PlonkCompile.compiled_of /= /PlonkCompile.csize sz.
by case: (generate_inv ok long Ec' le Eg).
Qed.
End Foreign.

Definition K193 := [fieldType of 'F_193].
Definition R193 := [lmodType K193 of K193^o].
Definition E193 : pairing_group K193 :=
  @PairingGroup K193 R193 R193 R193 (1 : K193^o) (1 : K193^o) (fun a b : K193^o => (a : K193) * b).
Definition P193 : fft_field K193 := FftField 6 (125%:R : K193).
Definition X193 : plonk_env E193 :=
  @PlonkEnv K193 E193 P193
    (fun b => le_bytes 8 (mix97 b))
    (fun x : 'F_193 => [:: ascii_of_nat (x : nat)])
    (fun seed k => (N.to_nat seed + 3 * k + 1)%:R).

Lemma okE193 : pairing_ok E193.
Proof.
split=> /=.
- by move=> a b c; rewrite mulrDl.
- by move=> k a c; rewrite [RHS]mulrA.
- by move=> a b c; rewrite mulrDr.
- by move=> k a c; rewrite [RHS]mulrCA.
- by move=> a; rewrite mulr1.
- by apply/eqP; vm_compute.
Qed.

Lemma ok193 : fft_ok P193.
Proof.
split=> //; apply: (@prim_root_pow2 _ _ 5).
- by apply/eqP; vm_compute.
- by vm_compute.
Qed.

Lemma long193 : digest_long (pk_sha256 X193).
Proof. by move=> b; rewrite -[pk_sha256 X193 b]/(le_bytes 8 (mix97 b)) size_le_bytes. Qed.

Definition b193 (i : nat) : K193 := (7 * i + 2)%:R.
Definition s193 : K193 := 5%:R.

(* the example program succeeds here *)
Example plonk_example193 :
  (if plonk_example X193 b193 s193 is Ret tt then true else false) = true.
Proof. by vm_compute. Qed.

(* a proof for x = y = z = 1 and factor 3 (value 5 instead of 11), and one for
   x = 2, y = z = 1 and factor 4, accepted by the example's circuit *)
Example foreign193_5 : foreign_ok X193 b193 s193 (plonk_example_calls K193)
  (example_values (1%:R : K193) 1%:R 1%:R 3%:R).
Proof. by vm_compute. Qed.
Example foreign193_other : foreign_ok X193 b193 s193 (plonk_example_calls K193)
  (example_values (2%:R : K193) 1%:R 1%:R 4%:R).
Proof. by vm_compute. Qed.

(* the hypothesis no_accident of C72 holds in these runs *)
Lemma ok193' : fft_ok (pk_fft X193).
Proof. exact ok193. Qed.
Example no_accident193 :
  exists2 cc, compile (pk_fft X193) (build (example_values (1%:R : K193) 1%:R 1%:R 3%:R)) = Ret cc &
  no_accident X193 cc b193 s193.
Proof.
refine (@foreign_no_accident K193 E193 X193 b193 s193 (plonk_example_calls K193)
  (example_values (1%:R : K193) 1%:R 1%:R 3%:R) ok193' long193 _ foreign193_5).
reflexivity.
Qed.
