(* Specification vocabulary for C92: what is hashed when a Merkle tree is built. *)
From Coq Require Import String Ascii NArith.
Set Warnings "-notation-overridden,-ambiguous-paths".
From mathcomp Require Import all_ssreflect all_algebra.
From Verif Require Import Base ArkDomain FriModel.

Set Implicit Arguments.
Unset Strict Implicit.
Unset Printing Implicit Defensive.

(* consecutive pairs; an odd last element stays alone *)
Fixpoint in_pairs (T : Type) (s : seq T) : seq (seq T) :=
  if s is a :: (b :: s') as t then [:: a; b] :: in_pairs s' else if s is a :: _ then [:: [:: a]] else [::].

Section Inputs.
Variables (F : fieldType) (X : fri_env F).
(* the lists hashed in d levels above l *)
Fixpoint node_lists (d : nat) (l : seq F) : seq (seq F) :=
  if d is d'.+1 then in_pairs l ++ node_lists d' (map (hash_slice X) (in_pairs l)) else [::].
(* all lists hashed for the tree over l: each leaf alone, then the levels *)
Definition tree_lists (l : seq F) : seq (seq F) :=
  [seq [:: x] | x <- l] ++ node_lists (up_log 2 (size l)) [seq hash_slice X [:: x] | x <- l].
(* the lists hashed while an opening is checked *)
Fixpoint path_lists (i : nat) (h : F) (path : seq F) : seq (seq F) :=
  if path is nb :: path' then
    let c := if odd i then [:: nb; h] else [:: h; nb] in c :: path_lists i./2 (hash_slice X c) path'
  else [::].
Definition proof_lists (p : merkle_proof F) : seq (seq F) :=
  [:: mp_leaf_val p] :: path_lists (mp_index p) (hash_slice X [:: mp_leaf_val p]) (mp_hash_proof p).

(* two different lists with the same hash, one from each of two sets *)
Definition collide (A B : seq (seq F)) : Prop :=
  exists a b, [/\ a \in A, b \in B, a <> b & hash_slice X a = hash_slice X b].
End Inputs.
