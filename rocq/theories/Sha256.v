(* SHA-256 (FIPS 180-4), the function behind `sha2::Sha256`, which the crates use
   as digest and hasher (fri/src/hasher.rs:2, plonk/src/prover.rs, nova tests and
   examples).  The crate's source is not in /repo: this is the standard's
   definition, on binary numbers, so that the theorems that assume something of
   the digest can be instantiated with the real one.  Definitions only. *)
From Coq Require Import String Ascii NArith.
Set Warnings "-notation-overridden,-ambiguous-paths".
From mathcomp Require Import all_ssreflect all_algebra.
From Verif Require Import Base.

Set Implicit Arguments.
Unset Strict Implicit.
Unset Printing Implicit Defensive.

Local Open Scope num.

(* 32-bit words *)
Definition w32 (x : N) : N := N.land x 4294967295.
Definition add32 (x y : N) : N := w32 (x + y).
Definition rotr (k x : N) : N := N.lor (N.shiftr x k) (w32 (N.shiftl x (32 - k))).
Definition not32 (x : N) : N := N.lxor x 4294967295.

(* FIPS 180-4, section 4.1.2 *)
Definition Ch (x y z : N) : N := N.lxor (N.land x y) (N.land (not32 x) z).
Definition Maj (x y z : N) : N := N.lxor (N.lxor (N.land x y) (N.land x z)) (N.land y z).
Definition Sigma0 (x : N) : N := N.lxor (N.lxor (rotr 2 x) (rotr 13 x)) (rotr 22 x).
Definition Sigma1 (x : N) : N := N.lxor (N.lxor (rotr 6 x) (rotr 11 x)) (rotr 25 x).
Definition sigma0 (x : N) : N := N.lxor (N.lxor (rotr 7 x) (rotr 18 x)) (N.shiftr x 3).
Definition sigma1 (x : N) : N := N.lxor (N.lxor (rotr 17 x) (rotr 19 x)) (N.shiftr x 10).

(* section 4.2.2 *)
Definition round_constants : seq N := [::
  0x428a2f98; 0x71374491; 0xb5c0fbcf; 0xe9b5dba5; 0x3956c25b; 0x59f111f1; 0x923f82a4; 0xab1c5ed5;
  0xd807aa98; 0x12835b01; 0x243185be; 0x550c7dc3; 0x72be5d74; 0x80deb1fe; 0x9bdc06a7; 0xc19bf174;
  0xe49b69c1; 0xefbe4786; 0x0fc19dc6; 0x240ca1cc; 0x2de92c6f; 0x4a7484aa; 0x5cb0a9dc; 0x76f988da;
  0x983e5152; 0xa831c66d; 0xb00327c8; 0xbf597fc7; 0xc6e00bf3; 0xd5a79147; 0x06ca6351; 0x14292967;
  0x27b70a85; 0x2e1b2138; 0x4d2c6dfc; 0x53380d13; 0x650a7354; 0x766a0abb; 0x81c2c92e; 0x92722c85;
  0xa2bfe8a1; 0xa81a664b; 0xc24b8b70; 0xc76c51a3; 0xd192e819; 0xd6990624; 0xf40e3585; 0x106aa070;
  0x19a4c116; 0x1e376c08; 0x2748774c; 0x34b0bcb5; 0x391c0cb3; 0x4ed8aa4a; 0x5b9cca4f; 0x682e6ff3;
  0x748f82ee; 0x78a5636f; 0x84c87814; 0x8cc70208; 0x90befffa; 0xa4506ceb; 0xbef9a3f7; 0xc67178f2].

(* section 5.3.3 *)
Record sha_state := ShaState {
  sa : N; sb : N; sc : N; sd : N; se : N; sf : N; sg : N; sh : N }.
Definition sha_init : sha_state := ShaState
  0x6a09e667 0xbb67ae85 0x3c6ef372 0xa54ff53a 0x510e527f 0x9b05688c 0x1f83d9ab 0x5be0cd19.

(* section 5.1.1: a one bit, zeros, and the length in bits on 64 bits *)
Fixpoint be_bytes (k : nat) (n : N) (acc : bytes) : bytes :=
  if k is k'.+1 then be_bytes k' (N.shiftr n 8) (ascii_of_N (N.land n 255) :: acc) else acc.
Definition zeros_needed (len : nat) : nat := (119 - len %% 64) %% 64.
Definition sha_pad (m : bytes) : bytes :=
  m ++ ascii_of_N 128 :: nseq (zeros_needed (size m)) (ascii_of_N 0)
    ++ be_bytes 8 (8 * N.of_nat (size m)) [::].

(* big-endian words of a block *)
Fixpoint words (b : bytes) : seq N :=
  match b with
  | b0 :: b1 :: b2 :: b3 :: b' =>
      (((N_of_ascii b0 * 256 + N_of_ascii b1) * 256 + N_of_ascii b2) * 256 + N_of_ascii b3)
      :: words b'
  | _ => [::]
  end.

(* section 6.2.2: the window holds the last 16 words of the message schedule *)
Definition next_word (win : seq N) : N :=
  let at_ i := nth 0 win i in
  w32 (sigma1 (at_ 14%nat) + at_ 9%nat + sigma0 (at_ 1%nat) + at_ 0%nat).
Definition sha_round (st : sha_state) (k w : N) : sha_state :=
  let t1 := w32 (sh st + Sigma1 (se st) + Ch (se st) (sf st) (sg st) + k + w) in
  let t2 := w32 (Sigma0 (sa st) + Maj (sa st) (sb st) (sc st)) in
  ShaState (add32 t1 t2) (sa st) (sb st) (sc st) (add32 (sd st) t1) (se st) (sf st) (sg st).
Fixpoint sha_rounds (ks : seq N) (win : seq N) (st : sha_state) : sha_state :=
  if ks is k :: ks' then
    sha_rounds ks' (rcons (behead win) (next_word win)) (sha_round st k (head 0 win))
  else st.
Definition sha_compress (st : sha_state) (block : bytes) : sha_state :=
  let r := sha_rounds round_constants (words block) st in
  ShaState (add32 (sa st) (sa r)) (add32 (sb st) (sb r)) (add32 (sc st) (sc r))
           (add32 (sd st) (sd r)) (add32 (se st) (se r)) (add32 (sf st) (sf r))
           (add32 (sg st) (sg r)) (add32 (sh st) (sh r)).

(* fold over the 64-byte blocks *)
Fixpoint sha_blocks (fuel : nat) (st : sha_state) (m : bytes) : sha_state :=
  if fuel is f.+1 then
    if m is [::] then st else sha_blocks f (sha_compress st (take 64 m)) (drop 64 m)
  else st.

Definition sha_output (st : sha_state) : bytes :=
  be_bytes 4 (sa st) (be_bytes 4 (sb st) (be_bytes 4 (sc st) (be_bytes 4 (sd st)
  (be_bytes 4 (se st) (be_bytes 4 (sf st) (be_bytes 4 (sg st) (be_bytes 4 (sh st) [::]))))))).

Definition sha256_standard (m : bytes) : bytes :=
  let p := sha_pad m in sha_output (sha_blocks (size p) sha_init p).
