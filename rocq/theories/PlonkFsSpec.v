(* Specification vocabulary for C78: forging a non-interactive PLONK proof when the
   generator behind the challenges is a random table. *)
From Coq Require Import String Ascii NArith.
Set Warnings "-notation-overridden,-ambiguous-paths".
From mathcomp Require Import all_ssreflect all_algebra.
From Verif Require Import Base ArkPoly ArkDomain KzgModel KzgSpec PlonkModel PlonkSpec PlonkSoundSpec
  OracleProver.

Set Implicit Arguments.
Unset Strict Implicit.
Unset Printing Implicit Defensive.

Import GRing.Theory.
Local Open Scope ring_scope.

(* The generator as a table: what it yields for each of K seeds, as the first and
   the second field element drawn (the code never draws a third).  The code has
   K = 2^64. *)
Definition rand_table (F : finFieldType) (K : nat) : Type := {ffun 'I_K -> F * F}.
Definition entry (K : nat) (K0 : (0 < K)%N) (seed : N) : 'I_K := Ordinal (ltn_pmod (N.to_nat seed) K0).
Definition with_table (F : finFieldType) (E : pairing_group F) (K : nat) (K0 : (0 < K)%N)
  (X : plonk_env E) (t : rand_table F K) : plonk_env E :=
  @PlonkEnv F E (pk_fft X) (pk_sha256 X) (pk_ser_g1 X)
    (fun seed i => nth 0 [:: (t (entry K0 seed)).1; (t (entry K0 seed)).2] i).

Section Fs.
Variables (F : fieldType) (E : pairing_group F) (X : plonk_env E) (T : bytes -> bytes) (s : F).

(* A transcript is the list of what has been fed, each group element given by a
   polynomial it is the commitment of.  Its seed, as the code computes it. *)
Definition transcript_seed (q : seq {poly F}) : N :=
  le_decode (take 8 (fs_chain X T [seq commitment_of E s f | f <- q])).

(* everything a proof feeds *)
Definition full_transcript (M : messages F) (pf : proof E) : seq {poly F} :=
  [:: ms_A M; ms_B M; ms_C M; ms_Z M; ms_Tlo M; ms_Tmid M; ms_Thi M;
      (bar_a pf)%:P; (bar_b pf)%:P; (bar_c pf)%:P; (bar_s_sigma_1 pf)%:P; (bar_s_sigma_2 pf)%:P;
      (bar_z_w pf)%:P; ms_W M; ms_Ww M].

(* the parts of a transcript from which the verifier draws its challenges *)
Definition challenge_points : seq nat := [:: 3; 4; 7; 13; 15]%N.
Definition prefixes (q : seq {poly F}) : seq (seq {poly F}) := [seq take k q | k <- challenge_points].

(* no two different transcripts, among those of the list and their prefixes, share
   a seed *)
Definition seeds_distinct (qs : seq (seq {poly F})) : Prop :=
  let all_qs := qs ++ flatten [seq prefixes q | q <- qs] in
  forall q q', q \in all_qs -> q' \in all_qs -> transcript_seed q = transcript_seed q' -> q = q'.

(* the prover exhibits a non-zero polynomial with the secret of the reference
   string as a root *)
Definition secret_found (cc : compiled_circuit F) (M : messages F) (pf : proof E) : Prop :=
  bad_trapdoor (cc_size cc) (omega_of (pk_fft X) cc) cc M (ch_beta X T pf) (ch_gamma X T pf)
    (ch_alpha X T pf) (ch_zeta X T pf) (bar_a pf) (bar_b pf) (bar_c pf) (bar_s_sigma_1 pf)
    (bar_s_sigma_2 pf) (bar_z_w pf) (pf_degree pf).+1 (ch_v X T pf) (ch_u X T pf) s.

End Fs.

(* A prover that asks for the challenges of transcripts of its choice and outputs a
   proof with the polynomials behind its commitments. *)
Definition fs_prover (F : finFieldType) (E : pairing_group F) : Type :=
  oracle_prover (seq {poly F}) (F * F) (messages F * proof E).

Section Forgery.
Variables (F : finFieldType) (E : pairing_group F) (K : nat) (K0 : (0 < K)%N).
Variables (X : plonk_env E) (T : bytes -> bytes) (s : F).
Definition seed_entry (q : seq {poly F}) : 'I_K := entry K0 (transcript_seed X T s q).

(* The prover p forges with table t: it outputs a proof that the code's verifier
   accepts, although the wire values it committed to do not satisfy the circuit, and
   neither has it found the secret nor two transcripts with one seed. *)
Definition forges (calls : seq (gate_call F)) (cc : compiled_circuit F) (m N D : nat)
  (p : fs_prover E) (t : rand_table F K) : Prop :=
  let: (M, pf) := output seed_entry p t in
  let Xt := with_table K0 X t in
  [/\ explains s N M pf /\ (pf_degree pf < D)%N,
      verify Xt T cc (srs_new_from_secret E s m) pf = Ret tt,
      ~ satisfies calls (cc_size cc) (values_of (omega_of (pk_fft X) cc) (ms_A M) (ms_B M) (ms_C M)),
      ~ secret_found Xt T s cc M pf
    & seeds_distinct X T s (rcons (asked seed_entry p t) (full_transcript M pf))].

End Forgery.

(* the number of unlucky values of one challenge, for the worst of the challenges *)
Definition unlucky_values (n N D : nat) : nat :=
  ((3 * n) ^ 2 + 3 * n + 2 + D * maxn (4 * N) (n + N + 2 * D) + 5 * D)%N.
