(* Lemmas about the nova transcript. *)
From Coq Require Import String Ascii NArith.
Set Warnings "-notation-overridden,-ambiguous-paths".
From mathcomp Require Import all_ssreflect all_algebra.
From mathcomp Require Import zify ring.
From Verif Require Import Base BaseLemmas KzgModel NovaModel NovaSpec.

Set Implicit Arguments.
Unset Strict Implicit.
Unset Printing Implicit Defensive.

Section NovaTranscript.
Variables (F B : fieldType) (E : pairing_group F) (X : nova_env B E).
Implicit Types (t : ntranscript) (ops : seq (nt_op E)) (ms : seq bytes).
Local Notation H := (digest X).

Definition nova_digest_long := forall b, 8 <= size (H b).

(* data of a transcript *)
Definition ntd t : bytes := odflt [::] (nt_data t).

Lemma hash_chain_rcons ms m : hash_chain X (rcons ms m) = H (hash_chain X ms ++ m).
Proof. by rewrite /hash_chain foldl_rcons. Qed.

Lemma hash_chain_long ms : nova_digest_long -> ms != [::] -> 8 <= size (hash_chain X ms).
Proof. by move=> Hl; case/lastP: ms => // ms m _; rewrite hash_chain_rcons. Qed.

(* invariant: the data is the chain of what was fed *)
Definition tracks t ms : Prop :=
  ntd t = hash_chain X ms /\ (nt_data t = None <-> ms = [::]).

Lemma tracks_default : tracks nt_default [::].
Proof. by []. Qed.

Lemma tracks_absorb t ms m : tracks t ms -> tracks (nt_absorb X t m) (rcons ms m).
Proof.
case=> d _; split; first by rewrite hash_chain_rcons -d.
by split=> //; case: ms {d}.
Qed.

Lemma nt_seedE t : nova_digest_long ->
  nt_generated t = false -> (exists m t0, nt_data t = nt_data (nt_absorb X t0 m)) ->
  nt_seed t = Ret (le_decode (take 8 (ntd t)), NTranscript (nt_data t) true).
Proof.
by move=> Hl g [m [t0 d]]; rewrite /nt_seed g /ntd d /= ltnNge Hl.
Qed.

Lemma challenge_absorb t m : nova_digest_long ->
  nt_challenge X (nt_absorb X t m) =
  Ret (rand_fr X (le_decode (take 8 (H (ntd t ++ m)))) 0, NTranscript (Some (H (ntd t ++ m))) true).
Proof. by move=> Hl; rewrite /nt_challenge /nt_seed /= ltnNge Hl. Qed.

Lemma challenge_ret t r t' : nt_challenge X t = Ret (r, t') ->
  nt_generated t = false /\ t' = NTranscript (nt_data t) true.
Proof.
rewrite /nt_challenge /nt_seed; case: (nt_generated t) => //.
by case: ifP => // _ /= [_ <-].
Qed.

Lemma challenge_cases t : is_ret (nt_challenge X t) \/ nt_challenge X t = Panic.
Proof.
rewrite /nt_challenge /nt_seed; case: (nt_generated t); first by right.
by case: ifP => _; [right|left].
Qed.

(* histories *)
Lemma nt_run_cat t ops1 ops2 :
  nt_run X t (ops1 ++ ops2) =
  (r1 <- nt_run X t ops1;;
   r2 <- nt_run X r1.2 ops2;;
   Ret (r1.1 ++ r2.1, r2.2)).
Proof.
elim: ops1 t => [|o ops1 IH] t /=.
  by case: (nt_run _ _ _) => [[outs t2]||].
case: (nt_step X t o) => [[out t1]||] //=; rewrite IH.
case: (nt_run X t1 ops1) => [[outs1 t2]||] //=.
by case: (nt_run X t2 ops2) => [[outs2 t3]||].
Qed.

Lemma fed_cat ops1 ops2 : fed X (ops1 ++ ops2) = fed X ops1 ++ fed X ops2.
Proof. by elim: ops1 => //= -[c|x|n] ops1 -> //. Qed.

(* state after a successful history *)
Lemma nt_run_state t ms ops outs t' :
  tracks t ms -> nt_run X t ops = Ret (outs, t') ->
  [/\ tracks t' (ms ++ fed X ops), size outs = size ops
    & nt_generated t' = if ops is o :: _ then ~~ is_feed (last o ops) else nt_generated t].
Proof.
elim: ops t ms outs t' => [|o ops IH] t ms outs t' tr.
  by case=> <- <-; rewrite cats0.
rewrite /=; case Es: (nt_step X t o) => [[out t1]||] //=.
case Er: (nt_run X t1 ops) => [[outs1 t2]||] //= [<- <-].
have [tr1 g1] : tracks t1 (ms ++ fed X [:: o]) /\ nt_generated t1 = ~~ is_feed o.
  case: o Es => [c|x|n] /=.
  - by case=> _ <-; split=> //; rewrite cats1; exact: tracks_absorb.
  - by case=> _ <-; split=> //; rewrite cats1; exact: tracks_absorb.
  - rewrite /nt_challenges /nt_seed; case: (nt_generated t) => //; case: ifP => // _ /= [_ <-].
    by rewrite cats0.
have [tr2 s2 g2] := IH _ _ _ _ tr1 Er; split; last 1 first.
- by rewrite g2; case: ops {IH Er tr2 s2 g2}.
- by move: tr2; rewrite -catA -fed_cat.
- by rewrite /= s2.
Qed.

(* a challenge succeeds exactly after a feed *)
Lemma nt_step_panic t ms n : nova_digest_long -> tracks t ms ->
  nt_challenges X t n =
  if nt_generated t || (ms == [::]) then Panic
  else Ret (mkseq (fs_challenge X ms) n, NTranscript (nt_data t) true).
Proof.
move=> Hl [d nd]; rewrite /nt_challenges /nt_seed; case: (nt_generated t) => //=.
rewrite -/(ntd t) d; case: eqP => [->|/eqP ne] //=.
by rewrite ltnNge hash_chain_long.
Qed.

End NovaTranscript.
