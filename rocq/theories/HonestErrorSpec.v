(* Vocabulary for C85: how often an honest prover fails when the generator behind
   the challenges is a random table. *)
From Coq Require Import String Ascii NArith.
Set Warnings "-notation-overridden,-ambiguous-paths".
From mathcomp Require Import all_ssreflect all_algebra.
From Verif Require Import Base ArkPoly ArkDomain KzgModel KzgSpec PlonkModel PlonkSpec PlonkFsSpec
  FriModel FriSpec.

Set Implicit Arguments.
Unset Strict Implicit.
Unset Printing Implicit Defensive.

Import GRing.Theory.
Local Open Scope ring_scope.

(* PLONK.  Blinders b 1 .. b 9 are drawn in this order by `Prover::generate_proof`. *)
Definition good_blinders (F : fieldType) (b : nat -> F) : bool :=
  [&& b 1%N != 0, b 3%N != 0, b 5%N != 0, b 7%N != 0 & b 1%N + b 3%N != b 5%N].

Section Plonk.
Variables (F : fieldType) (E : pairing_group F) (X : plonk_env E).

(* the seed the code derives after feeding the commitments cs *)
Definition seed_after (H : bytes -> bytes) (cs : seq (G1 E)) : N := le_decode (take 8 (fs_chain X H cs)).

(* the honest run draws beta and gamma, alpha, and zeta from three different seeds *)
Definition run_seeds_differ (cc : compiled_circuit F) (b : nat -> F) (s : F) : bool :=
  let seed := seed_after (pk_sha256 X) in
  [&& seed (hr_fed1 E cc b s) != seed (hr_fed2 X cc b s),
      seed (hr_fed1 E cc b s) != seed (hr_fed3 X cc b s)
    & seed (hr_fed2 X cc b s) != seed (hr_fed3 X cc b s)].

(* the prover returns a proof and the verifier accepts it *)
Definition proved_and_accepted (T : bytes -> bytes) (cc : compiled_circuit F) (b : nat -> F) (s : F)
    (m : nat) : Prop :=
  let srs := srs_new_from_secret E s m in
  exists2 pf, generate_proof X T b cc srs = Ret pf & verify X (pk_sha256 X) cc srs pf = Ret tt.

End Plonk.

(* FRI.  The first value drawn after each seed is that of a table of K entries (the
   code has K = 2^64); later values are those of the given generator. *)
Definition fri_with_table (F : finFieldType) (K : nat) (K0 : (0 < K)%N) (X : fri_env F)
    (t : {ffun 'I_K -> F}) : fri_env F :=
  FriEnv (sha256 X) (to_string X) (from_le_bytes X) (low_limb X)
    (fun s k => if k is 0%N then t (entry K0 s) else rng_stream X s k)
    (generator X) (fft X).

Section Fri.
Variables (F : fieldType) (X : fri_env F) (H : bytes -> bytes).

(* the folding challenges of a run with these roots come from different seeds *)
Definition fold_seeds_differ (roots : seq F) : bool :=
  uniq [seq le_decode (take 8 (chain X H (0 :: take j.+1 roots))) | j <- iota 0 (size roots)].

End Fri.
