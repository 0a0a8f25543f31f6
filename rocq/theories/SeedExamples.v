(* Concrete cases meeting the hypotheses of C80. *)
From Coq Require Import String Ascii NArith.
Set Warnings "-notation-overridden,-ambiguous-paths".
From mathcomp Require Import all_ssreflect all_algebra.
From Verif Require Import Base KzgModel KzgSpec PlonkModel PlonkSpec PlonkExamples SeedProps.
From Verif Require FriModel FriSpec FriExamples NovaModel NovaSpec NovaExamples.

Set Implicit Arguments.
Unset Strict Implicit.
Unset Printing Implicit Defensive.

(* an accepted proof: the circuit of PlonkExamples *)
Example accepted_final_challenge : exists cc srs (pf : proof E97),
  verify X97 (pk_sha256 X97) cc srs pf = Ret tt.
Proof.
have [cc [pf [_ _ Ev]]] := @run_accepted K97 E97 X97 b97 s97 (calls97 25) accepted97.
by eexists; eexists; eexists; exact: Ev.
Qed.

(* a history with draws of two and of one challenge *)
Example drawing_history : is_ret (cg_run X97 (pk_sha256 X97) cg_default ops97) &&
  (size ops97 == 4)%N.
Proof. by vm_compute. Qed.

(* growing transcripts: 1, 2, 3, ... generators *)
Example growing_transcripts : exists i j, [/\ (i < j)%N, (j <= 2 ^ 64)%N &
  forall k, fs_challenge X97 (pk_sha256 X97) (nseq i.+1 (g1_gen E97)) k =
            fs_challenge X97 (pk_sha256 X97) (nseq j.+1 (g1_gen E97)) k].
Proof. exact: (@C80_plonk_collision K97 E97 X97 (pk_sha256 X97) (fun i => nseq i.+1 (g1_gen E97)) long97). Qed.

(* FRI: a folding challenge and three query positions *)
Example fri_history : is_ret (FriSpec.tr_run FriExamples.X17 FriExamples.toy_digest
    (FriModel.tr_new FriExamples.X17 FriExamples.toy_digest 0%R)
    [:: FriSpec.OpDigest (1%R : FriExamples.F17); FriSpec.OpChallenge;
        FriSpec.OpDigest (1%R : FriExamples.F17); FriSpec.OpChallengesUsize 3]).
Proof. by vm_compute. Qed.

(* Nova: an accepted folding (NovaExamples.fold17) and a history *)
Example nova_history : NovaExamples.nifs17 (NovaExamples.pair17 3) (NovaExamples.pair17 4) true &&
  is_ret (NovaSpec.nt_run NovaExamples.X17 NovaModel.nt_default
    [:: NovaSpec.NFeedScalar 1%R; NovaSpec.NChallenges 2]).
Proof. by vm_compute. Qed.
