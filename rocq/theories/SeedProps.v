(* C80: all challenges come from 64-bit seeds. *)
From Coq Require Import String Ascii NArith.
Set Warnings "-notation-overridden,-ambiguous-paths".
From mathcomp Require Import all_ssreflect all_algebra.
From mathcomp Require Import zify.
From Verif Require Import Base BaseLemmas KzgModel KzgSpec.
From Verif Require FriModel FriSpec PlonkModel PlonkSpec NovaModel NovaSpec.
From Verif Require PlonkFsProps.

Set Implicit Arguments.
Unset Strict Implicit.
Unset Printing Implicit Defensive.

(* ------------------------------------------------------------------ *)
(* what a generator gives for the seeds below m *)
Definition seeded (V : Type) (f : N -> V) (m : nat) : seq V := [seq f (N.of_nat i) | i <- iota 0 m].

Lemma size_seeded V (f : N -> V) m : size (seeded f m) = m.
Proof. by rewrite /seeded size_map size_iota. Qed.

Lemma mem_seeded (V : eqType) (f : N -> V) m (s : N) : (N.to_nat s < m)%N -> f s \in seeded f m.
Proof.
move=> lt; apply/mapP; exists (N.to_nat s); first by rewrite mem_iota add0n.
by rewrite Nnat.N2Nat.id.
Qed.

Lemma pow_bytes k l : (8 * k = l)%N -> ((2 ^ 8) ^ k = 2 ^ l)%N.
Proof. by move=> <-; rewrite -expnM. Qed.

Lemma decode_lt (d : bytes) k l : size d = k -> (8 * k = l)%N -> (N.to_nat (le_decode d) < 2 ^ l)%N.
Proof.
move=> sz kl; rewrite -(pow_bytes kl).
have -> : (2 ^ 8 = 256)%N by [].
by rewrite -sz; apply: PlonkFsProps.le_decode_lt.
Qed.

Lemma seed_lt (d : bytes) k l : ~~ (size d < k)%N -> (8 * k = l)%N ->
  (N.to_nat (le_decode (take k d)) < 2 ^ l)%N.
Proof.
by rewrite -leqNgt => le kl; apply: (@decode_lt (take k d) k l) => //; rewrite size_take_min (minn_idPl le).
Qed.

Lemma mem_seed_of (V : eqType) (f : N -> V) (d : bytes) : ~~ (size d < 8)%N ->
  f (le_decode (take 8 d)) \in seeded f (2 ^ 64).
Proof. move=> ns; exact: (mem_seeded f (@seed_lt d 8 64 ns erefl)). Qed.

Lemma size_seeded64 V (f : N -> V) : (size (seeded f (2 ^ 64)) <= 2 ^ 64)%N.
Proof. rewrite size_seeded; exact: leqnn. Qed.

(* more values than seeds: two are the same *)
Lemma pigeon (V : eqType) (vs : seq V) (m : nat) (g : nat -> V) :
  (size vs <= m)%N -> (forall i, (i <= m)%N -> g i \in vs) ->
  exists i j, [/\ (i < j)%N, (j <= m)%N & g i = g j].
Proof.
move=> sz H.
have [u|/(uniqPn (g 0))[i [j [ij jm]]]] := boolP (uniq [seq g i | i <- iota 0 m.+1]).
  have := uniq_leq_size u (s2 := vs); rewrite size_map size_iota => le.
  have : (m < size vs)%N by apply: le => x /mapP[i]; rewrite mem_iota add0n ltnS => /= /H hi ->.
  by rewrite ltnNge sz.
move: jm; rewrite size_map size_iota => jm.
have im : (i < m.+1)%N by apply: ltn_trans ij jm.
rewrite !(nth_map 0%N) ?size_iota // !nth_iota // !add0n => e.
by exists i, j.
Qed.

(* ------------------------------------------------------------------ *)
(* PLONK *)
Section Plonk.
Import PlonkModel PlonkSpec.
Variables (F : fieldType) (E : pairing_group F) (rand : N -> nat -> F).
Local Notation values n := (seeded (fun s => mkseq (rand s) n) (2 ^ 64)).

Lemma plonk_draw (X : plonk_env E) t n out t' : pk_rand X =2 rand ->
  cg_challenges X t n = Ret (out, t') -> out \in values n.
Proof.
move=> er; rewrite /cg_challenges /cg_seed; case: (cg_generated t) => //.
case: (cg_data t) => // d; have [//|ns] := ifP => -[<- _].
rewrite (eq_map (er _)); exact: (mem_seed_of (fun s => mkseq (rand s) n) (negbT ns)).
Qed.

Theorem C80_plonk_history : exists2 vals : nat -> seq (seq F),
  (forall n, size (vals n) <= 2 ^ 64)%N &
  forall (X : plonk_env E) (H : bytes -> bytes) ops outs t, pk_rand X =2 rand ->
    cg_run X H cg_default ops = Ret (outs, t) ->
    forall k n, nth (CDraw E 0) ops k = CDraw E n -> (k < size ops)%N -> nth [::] outs k \in vals n.
Proof.
exists (fun n => values n) => [n|X H ops outs t er]; first exact: size_seeded64.
elim: ops {1}cg_default outs t => [|o ops IH] t0 outs t //=.
case: o => [c|m].
  case Er: (cg_run _ _ _ ops) => [[outs1 t1]| |] //= -[<- _] [|k] n //= ek lk.
  exact: (IH _ _ _ Er).
case Ec: cg_challenges => [[out t1]| |] //=.
case Er: (cg_run _ _ _ ops) => [[outs1 t2]| |] //= -[<- _] [|k] n //= ek lk.
  case: ek => <-; exact: (plonk_draw er Ec).
exact: (IH _ _ _ Er).
Qed.

Lemma plonk_draw1 (X : plonk_env E) t x t' : pk_rand X =2 rand ->
  cg_challenge1 X t = Ret (x, t') -> x \in seeded (fun s => rand s 0) (2 ^ 64).
Proof.
move=> er; rewrite /cg_challenge1 /cg_challenges /cg_seed; case: (cg_generated t) => //.
case: (cg_data t) => // d; have [//|ns] := ifP => -[<- _].
rewrite er; exact: (mem_seed_of (fun s => rand s 0) (negbT ns)).
Qed.

(* the final challenge inside every accepted proof, whatever the circuit, the
   digest, the serialisation and the reference string *)
Theorem C80_plonk_proofs : exists2 vals : seq F, (size vals <= 2 ^ 64)%N &
  forall (X : plonk_env E) (T : bytes -> bytes) cc srs (pf : proof E), pk_rand X =2 rand ->
    verify X T cc srs pf = Ret tt -> pf_u pf \in vals.
Proof.
exists (seeded (fun s => rand s 0) (2 ^ 64)) => [|X T cc srs pf er]; first exact: size_seeded64.
rewrite /verify; case: get_circuit_commitment => //= cs.
rewrite /verify_challenges.
case: cg_challenge2 => // -[[be ga] t1] /=.
case: cg_challenge1 => // -[al t2] /=.
case: cg_challenge1 => // -[ec t3] /=.
do 6 (case: kzg_commit_para => // ? /=).
case: cg_challenge1 => // -[v t4] /=.
case Eu: cg_challenge1 => [[u t5]| |] //=.
case: eqP => //= <- _; exact: (plonk_draw1 er Eu).
Qed.

(* among more than 2^64 transcripts two give the same challenges, however many
   are drawn *)
Theorem C80_plonk_collision (X : plonk_env E) (H : bytes -> bytes) (cs : nat -> seq (G1 E)) :
  digest_long H -> (forall i, cs i <> [::]) ->
  exists i j, [/\ (i < j)%N, (j <= 2 ^ 64)%N &
    forall k, fs_challenge X H (cs i) k = fs_challenge X H (cs j) k].
Proof.
move=> long ne.
have big i : ~~ (size (fs_chain X H (cs i)) < 8)%N.
  rewrite -leqNgt; case/lastP: (cs i) (ne i) => [|c x] // _.
  by rewrite /fs_chain foldl_rcons; apply: long.
have [i _|i [j [ij jm e]]] := @pigeon _ (seeded id (2 ^ 64)) (2 ^ 64)
    (fun i => le_decode (take 8 (fs_chain X H (cs i)))) (size_seeded64 _).
  exact: (mem_seed_of id (big i)).
by exists i, j; split=> // k; rewrite /fs_challenge e.
Qed.

End Plonk.

(* ------------------------------------------------------------------ *)
(* Nova *)
Section Nova.
Import NovaModel NovaSpec.
Variables (F B : fieldType) (E : pairing_group F) (rand : N -> nat -> F).
Local Notation values n := (seeded (fun s => mkseq (rand s) n) (2 ^ 64)).

Lemma nova_draw (X : nova_env B E) t n out t' : rand_fr X =2 rand ->
  nt_challenges X t n = Ret (out, t') -> out \in values n.
Proof.
move=> er; rewrite /nt_challenges /nt_seed; case: (nt_generated t) => //.
case: (nt_data t) => [d|] //=; have [//|ns] := ifP => -[<- _].
rewrite (eq_mkseq (er _)); exact: (mem_seed_of (fun s => mkseq (rand s) n) (negbT ns)).
Qed.

Lemma nova_draw1 (X : nova_env B E) t x t' : rand_fr X =2 rand ->
  nt_challenge X t = Ret (x, t') -> x \in seeded (fun s => rand s 0) (2 ^ 64).
Proof.
move=> er; rewrite /nt_challenge /nt_seed; case: (nt_generated t) => //.
case: (nt_data t) => [d|] //=; have [//|ns] := ifP => -[<- _].
rewrite er; exact: (mem_seed_of (fun s => rand s 0) (negbT ns)).
Qed.

Theorem C80_nova_history : exists2 vals : nat -> seq (seq F),
  (forall n, size (vals n) <= 2 ^ 64)%N &
  forall (X : nova_env B E) ops outs t, rand_fr X =2 rand ->
    nt_run X nt_default ops = Ret (outs, t) ->
    forall k n, nth (NChallenges 0) ops k = NChallenges n -> (k < size ops)%N ->
      nth [::] outs k \in vals n.
Proof.
exists (fun n => values n) => [n|X ops outs t er]; first exact: size_seeded64.
elim: ops {1}nt_default outs t => [|o ops IH] t0 outs t //=.
case Es: nt_step => [[out t1]| |] //=.
case Er: (nt_run _ _ ops) => [[outs1 t2]| |] //= -[<- _] [|k] n //= ek lk.
  by move: Es; rewrite ek /=; exact: (nova_draw er).
exact: (IH _ _ _ Er).
Qed.

(* the two challenges inside every accepted proof of a folding *)
Theorem C80_nova_proofs : exists2 vals : seq F, (size vals <= 2 ^ 64)%N &
  forall (X : nova_env B E) (pf : nifs_proof E) fi1 fi2 fi3 com_t srs t t', rand_fr X =2 rand ->
    nifs_verify X pf fi1 fi2 fi3 com_t srs t = Ret t' ->
    np_r pf \in vals /\ np_opening_point pf \in vals.
Proof.
exists (seeded (fun s => rand s 0) (2 ^ 64)) => [|X pf fi1 fi2 fi3 com_t srs t t' er].
  exact: size_seeded64.
rewrite /nifs_verify /verify_challenge.
case Er: nt_challenge => [[r t1]| |] //=; case: eqP => //= <-.
rewrite /verify_opening.
case Ez: nt_challenge => [[z t2]| |] //=; case: eqP => //= <- _.
by split; [exact: (nova_draw1 er Er)|exact: (nova_draw1 er Ez)].
Qed.

End Nova.

(* ------------------------------------------------------------------ *)
(* FRI *)
Section Fri.
Import FriModel FriSpec.
Variables (F : fieldType) (rand : N -> nat -> F) (low : F -> nat).
Local Notation values n := (seeded (fun s => mkseq (rand s) n) (2 ^ 64)).
Local Notation positions n :=
  (seeded (fun s => map low (mkseq (rand s) n)) (2 ^ 64)).

Lemma fri_draw (X : fri_env F) t n out t' : rng_stream X =2 rand ->
  tr_challenges X t n = Ret (out, t') -> out \in values n.
Proof.
move=> er; rewrite /tr_challenges /tr_seed; case: (tr_generated t) => //.
case: (tr_data t) => [d|] //=; have [//|ns] := ifP => -[<- _].
rewrite (eq_mkseq (er _)); exact: (mem_seed_of (fun s => mkseq (rand s) n) (negbT ns)).
Qed.

Lemma fri_draw_usize (X : fri_env F) t n out t' : rng_stream X =2 rand -> low_limb X =1 low ->
  tr_challenges_usize X t n = Ret (out, t') -> out \in positions n.
Proof.
move=> er el; rewrite /tr_challenges_usize /tr_challenges /tr_seed; case: (tr_generated t) => //.
case: (tr_data t) => [d|] //=; have [//|ns] := ifP => -[<- _].
rewrite (eq_map el) (eq_mkseq (er _)); exact: (mem_seed_of (fun s => map low (mkseq (rand s) n)) (negbT ns)).
Qed.

(* folding challenges and lists of query positions, whatever the digest *)
Theorem C80_fri_history : exists (vals : nat -> seq (seq F)) (pos : nat -> seq (seq nat)),
  [/\ forall n, (size (vals n) <= 2 ^ 64)%N, forall n, (size (pos n) <= 2 ^ 64)%N &
  forall (X : fri_env F) (H : bytes -> bytes) t0 ops outs t,
    rng_stream X =2 rand -> low_limb X =1 low -> tr_run X H t0 ops = Ret (outs, t) ->
    forall k n, (k < size ops)%N ->
    [/\ nth OpChallenge ops k = OpChallenge ->
           exists2 x, nth OutUnit outs k = OutChallenge x & [:: x] \in vals 1,
        nth OpChallenge ops k = OpChallenges n ->
           exists2 xs, nth OutUnit outs k = OutChallenges xs & xs \in vals n
      & nth OpChallenge ops k = OpChallengesUsize n ->
           exists2 qs, nth OutUnit outs k = OutUsize qs & qs \in pos n]].
Proof.
exists (fun n => values n), (fun n => positions n).
split=> [n|n|X H t0 ops outs t er el]; try exact: size_seeded64.
elim: ops t0 outs t => [|o ops IH] t0 outs t //=.
case Es: tr_step => [[out t1]| |] //=.
case Er: (tr_run _ _ _ ops) => [[outs1 t2]| |] //= -[<- _] [|k] n //= lk; last exact: (IH _ _ _ Er).
split=> eo; move: Es; rewrite eo /=.
- rewrite /tr_challenge /tr_seed; case: (tr_generated t0) => //.
  case: (tr_data t0) => [d|] //=; have [//|ns] := ifP => -[<- _].
  eexists; first by [].
  rewrite er; exact: (mem_seed_of (fun s => mkseq (rand s) 1) (negbT ns)).
- by case Ec: tr_challenges => [[c t']| |] //= -[<- _]; eexists; [|exact: (fri_draw er Ec)].
by case Ec: tr_challenges_usize => [[c t']| |] //= -[<- _]; eexists; [|exact: (fri_draw_usize er el Ec)].
Qed.

End Fri.
