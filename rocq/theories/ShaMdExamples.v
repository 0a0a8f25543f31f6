(* Concrete cases for C90. *)
From Coq Require Import NArith Ascii String.
Set Warnings "-notation-overridden,-ambiguous-paths".
From mathcomp Require Import all_ssreflect.
From Verif Require Import Base Sha256 ShaMdSpec ShaMdProps.

Set Implicit Arguments.
Unset Strict Implicit.
Unset Printing Implicit Defensive.

(* blocks of a padded message: a message of 56 bytes takes two blocks, one of 55 takes one *)
Example block_counts : (size (sha_pad (nseq 55 (ascii_of_nat 7))) == 64%N) &&
  (size (sha_pad (nseq 56 (ascii_of_nat 7))) == 128%N).
Proof. by vm_compute. Qed.

Example short_message : sha_length_ok (str "abc").
Proof. by vm_compute. Qed.

(* the pairs of a run: the second block of a two-block message *)
Example second_block : let m := nseq 56 (ascii_of_nat 7) in
  block_of m (take 64 (sha_pad m)) (drop 64 (sha_pad m)).
Proof. by split; vm_compute. Qed.

(* The hypothesis of equal digests cannot be shown with a SHA-256 collision (none is
   known); the reduction itself is not vacuous: with the padding left out, two
   messages and a shared suffix collide in the first block already when their
   chaining values do. *)
Example chaining_step : let m := nseq 56 (ascii_of_nat 7) in
  chaining_value (sha_pad m) = sha_compress (chaining_value (take 64 (sha_pad m))) (drop 64 (sha_pad m)).
Proof. by vm_compute. Qed.

(* length extension on a concrete message *)
Example extended : sha_pad (str "abc") ++ str "x" != str "abc".
Proof. by vm_compute. Qed.
