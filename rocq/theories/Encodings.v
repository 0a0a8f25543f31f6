(* The byte encodings the transcripts and `hash_io` use, as ark-ff 0.4 and
   ark-bls12-381 0.4 write them (`serialize_uncompressed`).  Dependencies of the
   repository, written down so that the theorems that assume injective encodings of
   fixed length can be applied. *)
From Coq Require Import String Ascii NArith.
Set Warnings "-notation-overridden,-ambiguous-paths".
From mathcomp Require Import all_ssreflect all_algebra.
From Verif Require Import Base Concrete BasePrime.

Set Implicit Arguments.
Unset Strict Implicit.
Unset Printing Implicit Defensive.

Import GRing.Theory.
Local Open Scope ring_scope.

(* `PrimeField::into_bigint`: the representative below the modulus p *)
Definition bigint_of (F : fieldType) (p : N) (rep : F -> N) : Prop :=
  forall x, (rep x < p)%num /\ inR F (rep x) = x.

(* `Fp::serialize_uncompressed`: the representative, little-endian, in as many bytes
   as hold the modulus: 32 for Fr (nova/src/transcript.rs:84, circuit.rs:159,163) and
   48 for Fq (circuit.rs:154-156) *)
Definition field_bytes (F : fieldType) (k : nat) (rep : F -> N) (x : F) : bytes :=
  le_bytes k (N.to_nat (rep x)).

(* `G1Affine` *)
Inductive affine (B : Type) := Infinity | Affine of B & B.
Arguments Infinity {B}.

(* `G1Affine::serialize_uncompressed` of ark-bls12-381 (nova/src/transcript.rs:74,
   circuit.rs:158,160, plonk/src/challenge.rs:54): x and y big-endian in 48 bytes
   each; the point at infinity as zeros with bit 6 of the first byte set.  The flags
   for compressed points are not set. *)
Definition point_bytes (B : fieldType) (rep : B -> N) (P : affine B) : bytes :=
  if P is Affine x y then rev (field_bytes 48 rep x) ++ rev (field_bytes 48 rep y)
  else ascii_of_nat 64 :: nseq 95 zero.

(* `from_le_bytes_mod_order` (circuit.rs:166, ivc_verifier.rs) *)
Definition field_of_bytes (F : fieldType) (b : bytes) : F := inR F (le_decode b).

(* `ScalarField::from_le_bytes_mod_order(&h.into_bigint().to_bytes_le())`
   (circuit.rs:85): the representative of a base field element, modulo r *)
Definition scalar_of_base (F B : fieldType) (rep : B -> N) (h : B) : F := inR F (rep h).
