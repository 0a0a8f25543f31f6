(* Vocabulary for C84: the generator's answer at one seed replaced by given draws,
   and query positions at which committed layers are not folds of each other. *)
From Coq Require Import String Ascii NArith.
Set Warnings "-notation-overridden,-ambiguous-paths".
From mathcomp Require Import all_ssreflect all_algebra.
From Verif Require Import Base ArkDomain FriModel FriSpec FriAuthSpec.

Set Implicit Arguments.
Unset Strict Implicit.
Unset Printing Implicit Defensive.

Import GRing.Theory.
Local Open Scope ring_scope.

Section FriQuery.
Variables (F : fieldType) (X : fri_env F) (H : bytes -> bytes).

(* the low limb of the canonical representative, as `into_bigint().as_ref()[0]`, in
   a field with p elements *)
Definition low_limb_of (p : nat) : Prop := forall m, (m < p)%N -> low_limb X m%:R = (m %% 2 ^ 64)%N.

(* the seed from which values are drawn after the messages ms *)
Definition fri_seed (ms : seq F) : N := le_decode (take 8 (chain X H ms)).

(* the seed of the query positions differs from the seeds of the folding challenges *)
Definition query_seed_fresh (roots : seq F) (const : F) : Prop :=
  forall j, (j < size roots)%N ->
    fri_seed (0 :: take j.+1 roots) <> fri_seed (0 :: rcons roots const).

(* the environment in which the generator seeded with s draws the values of ch *)
Definition with_draws (s : N) (ch : seq F) : fri_env F :=
  FriEnv (sha256 X) (to_string X) (from_le_bytes X) (low_limb X)
    (fun s' k => if (s' =? s)%num then nth 0 ch k else rng_stream X s' k)
    (generator X) (fft X).

(* some step from a layer to the next fails at query position q *)
Definition spoiled_at (n : nat) (roots : seq F) (layer : nat -> seq F) (c v : F) (q : nat) : Prop :=
  exists2 j, (j < n)%N & ~ fold_consistent X H n roots layer c v q j.

(* a list of nq complete decommitments that end in the roots, and collide with no
   opening of the layers *)
Definition honest_openings (n nq : nat) (roots : seq F) (layer : nat -> seq F)
    (ds : seq (decommitment F)) : Prop :=
  (nq <= size ds)%N /\
  forall k, (k < nq)%N ->
    authenticated n roots (nth (deco0 F) ds k) /\
    ~ collides_with_layers X n layer (nth (deco0 F) ds k).

End FriQuery.
