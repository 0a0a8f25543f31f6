(* Specification vocabulary for C90: the chaining values of a SHA-256 run and
   collisions of its compression function. *)
From Coq Require Import NArith Ascii.
Set Warnings "-notation-overridden,-ambiguous-paths".
From mathcomp Require Import all_ssreflect.
From Verif Require Import Base Sha256.

Set Implicit Arguments.
Unset Strict Implicit.
Unset Printing Implicit Defensive.

(* the chaining value after some whole blocks *)
Definition chaining_value (p : bytes) : sha_state := sha_blocks (size p) sha_init p.

(* shorter than 2^64 bits *)
Definition sha_length_ok (m : bytes) : Prop := (8 * N.of_nat (size m) < 2 ^ 64)%num.

(* q ++ b is a beginning of the padded message, q whole blocks and b the next one *)
Definition block_of (m q b : bytes) : Prop :=
  [/\ prefix (q ++ b) (sha_pad m), (64 %| size q)%N & size b = 64%N].

(* Two different (chaining value, block) pairs, met when hashing m and m', that the
   compression function sends to the same value. *)
Definition compression_collision (m m' : bytes) : Prop := exists q b q' b',
  [/\ block_of m q b, block_of m' q' b',
      (chaining_value q, b) <> (chaining_value q', b')
    & sha_compress (chaining_value q) b = sha_compress (chaining_value q') b'].

(* a digest read as one big-endian number, as the standard prints them *)
Fixpoint digest_number (b : bytes) (acc : N) : N :=
  if b is c :: b' then digest_number b' (acc * 256 + N_of_ascii c)%num else acc.
