(* Concrete cases for C92 over the field with 17 elements. *)
From Coq Require Import String Ascii NArith.
Set Warnings "-notation-overridden,-ambiguous-paths".
From mathcomp Require Import all_ssreflect all_algebra.
From Verif Require Import Base ArkDomain FriModel FriSpec FriExamples MerkleSpec MerkleProps.

Set Implicit Arguments.
Unset Strict Implicit.
Unset Printing Implicit Defensive.

Import GRing.Theory.
Local Open Scope ring_scope.

Definition root17 (l : seq F17) : option F17 := if mt_root (mt_new X17 l) is Ret r then Some r else None.
Definition vectors : seq (seq F17) :=
  [seq [:: (a %/ 16)%:R; ((a %/ 4) %% 4)%:R; (a %% 4)%:R] | a <- iota 0 64]%N.
Definition l1 : seq F17 := [:: 1; 2%:R; 3%:R].
Definition twin : seq F17 := nth [::] [seq l <- vectors | (root17 l == root17 l1) && (l != l1)] 0.

(* hypotheses of the first theorem: two different vectors with three entries, same root *)
Example twins : [&& size twin == 3%N, twin != l1, isSome (root17 l1) & root17 twin == root17 l1].
Proof. by vm_compute. Qed.
(* the collision in their trees *)
Example twins_collide : has (fun a => has (fun b => (a != b) && (hash_slice X17 a == hash_slice X17 b))
  (tree_lists X17 twin)) (tree_lists X17 l1).
Proof. by vm_compute. Qed.
(* what is hashed for a tree with three leaves *)
Example lists3 : size (tree_lists X17 l1) = 6%N.
Proof. by vm_compute. Qed.

(* hypotheses of the second theorem: an honest opening of the third of four leaves *)
Definition l4 : seq F17 := [:: 1; 2%:R; 3%:R; 4%:R].
Example opening4 : (if mt_generate_proof (mt_new X17 l4) 2 is Ret p then
    [&& verify_merkle_proof X17 p, size (mp_hash_proof p) == 2%N, mp_index p == 2%N & root17 l4 == Some (mp_root p)]
  else false) = true.
Proof. by vm_compute. Qed.
