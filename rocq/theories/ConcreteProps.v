(* C63: the two concrete fields of the repository meet the assumptions of the
   FRI and PLONK theorems. *)
From Coq Require Import NArith.
Set Warnings "-notation-overridden,-ambiguous-paths".
From mathcomp Require Import all_ssreflect all_algebra.
From mathcomp Require Import zify ring.
From Verif Require Import Base ArkDomain ArkDomainLemmas FriModel FriSpec FriProps.
From Verif Require Import KzgModel PlonkModel PlonkSpec PlonkCompile PlonkProps Concrete Pocklington.

Set Implicit Arguments.
Unset Strict Implicit.
Unset Printing Implicit Defensive.

Import GRing.Theory.
Local Open Scope ring_scope.

(* The numbers themselves: fri/src/fields/goldilocks.rs:5-6 and the scalar field
   of BLS12-381 (written out in Concrete.v). *)
Theorem C63_goldilocks_prime :
  goldilocks_p = (2 ^ 64 - 2 ^ 32 + 1)%num /\ prime (N.to_nat goldilocks_p).
Proof. by split; [|exact: goldilocks_prime]. Qed.

(* In every field of that characteristic the declared generator 7 has order
   p - 1, and the constants ark-ff derives from it (TWO_ADICITY = 32 and
   7^((p-1)/2^32)) are a 2^32-th primitive root. *)
Theorem C63_goldilocks (F : fieldType) : N.to_nat goldilocks_p \in [char F] ->
  [/\ (N.to_nat goldilocks_p).-1.-primitive_root (7%:R : F),
       two_adic_root (goldilocks_fft F) = (7%:R : F) ^+ N.to_nat ((goldilocks_p - 1) / 2 ^ 32)
     & fft_ok (goldilocks_fft F)].
Proof.
move=> char; split; last exact: (fft_check_ok gold_fft_check char).
  exact: (lucas_order gold_check char (dvdnn _)).
exact: (powmod_check gold_root_check char).
Qed.

(* In every field of the order's characteristic the constants of ark_bls12_381's
   Fr are a 2^32-th primitive root. *)
Theorem C63_bls (F : fieldType) : N.to_nat bls_r \in [char F] -> fft_ok (bls_fft F).
Proof. by move=> char; exact: (fft_check_ok bls_fft_check char). Qed.

(* FRI over Goldilocks: every proof the prover returns is accepted. *)
Theorem C63_fri_completeness (F : fieldType) (X : fri_env F) (H : bytes -> bytes)
  (p : seq F) (blowup nq : nat) (pf : fri_proof F) :
  N.to_nat goldilocks_p \in [char F] -> fft X = goldilocks_fft F -> generator X = 7%:R ->
  fri_generate_proof X H p blowup nq = Ret pf -> fri_verify X H pf = Ret tt.
Proof.
move=> char Ef Eg; have [pr _ ok] := C63_goldilocks char.
apply: C07_fri_completeness; first by rewrite /fft_consts_ok Ef.
rewrite Eg; apply/eqP => E0; move/eqP: (prim_expr_order pr); rewrite E0 expr0n.
have [_ gp] := C63_goldilocks_prime; have := prime_gt1 gp; set n := N.to_nat _ => n1.
have -> : (n.-1 == 0)%N = false by apply/eqP; clear -n1; lia.
by rewrite eq_sym oner_eq0.
Qed.

(* PLONK over the BLS12-381 scalar field: the cosets 1, 2 and 3 give the 3n wire
   positions of a circuit different codes, for every size a domain can have. *)
Theorem C63_wire_codes_distinct (F : fieldType) k : N.to_nat bls_r \in [char F] -> (k <= 32)%N ->
  forall x y, x \in slots (2 ^ k) -> y \in slots (2 ^ k) ->
  let w := root_of_unity (bls_fft F) k in
  slot_code w x = slot_code w y -> x = y.
Proof.
move=> char k32 x y xs ys w.
have ok := C63_bls char.
have [n21 n31 n23] := cosets_check_ok (p := bls_r) erefl bls_cosets_check char k32.
have nz2 : 2%:R != 0 :> F.
  by apply/eqP => e; have := @inR_inj F bls_r char 2%num 0%num erefl erefl e.
have nz3 : 3%:R != 0 :> F.
  by apply/eqP => e; have := @inR_inj F bls_r char 3%num 0%num erefl erefl e.
have prim := root_of_unity_prim ok k32.
exact: (C47_code_injective prim nz2 nz3 n21 n31 n23 xs ys).
Qed.

(* hence the copy-soundness statement of C50 applies to compiled circuits there *)
Theorem C63_copy_soundness (F : fieldType) (E : pairing_group F) (X : plonk_env E)
  (calls : seq (gate_call F)) cc :
  N.to_nat bls_r \in [char F] -> pk_fft X = bls_fft F ->
  compile (pk_fft X) (build calls) = Ret cc ->
  ~~ copies_hold calls (cc_size cc) ->
  let w := omega_of (pk_fft X) cc in
  exists2 bad_beta : seq F, (size bad_beta <= (3 * cc_size cc) ^ 2)%N &
  forall beta, beta \notin bad_beta ->
  forall gammas, uniq gammas ->
  (forall gamma, gamma \in gammas ->
   \prod_(x <- slots (cc_size cc)) (slot_value calls x + beta * slot_code w x + gamma) =
   \prod_(x <- slots (cc_size cc)) (slot_value calls x + beta * slot_code w (slot_pos calls x) + gamma)) ->
  (size gammas <= 3 * cc_size cc)%N.
Proof.
move=> char Ef comp bad w.
have ok := C63_bls char; rewrite -Ef in ok.
have [Ecc _ dle _] := compile_inv comp.
have Ek : exists2 k, (k <= 32)%N & cc_size cc = (2 ^ k)%N.
  by exists (up_log 2 (size calls)); [move: dle; rewrite Ef|rewrite Ecc].
case: Ek => k k32 En.
have := cosets_check_ok (p := bls_r) erefl bls_cosets_check char k32.
rewrite -En => -[n21 n31 n23].
have nz3 : 3%:R != 0 :> F.
  by apply/eqP => e; have := @inR_inj F bls_r char 3%num 0%num erefl erefl e.
exact: (C50_copy_soundness ok comp n21 n31 n23 nz3 bad).
Qed.

Lemma prime_field_exists p : prime p -> exists F : fieldType, p \in [char F].
Proof. by move=> pp; exists [fieldType of 'F_p]; apply: char_Fp. Qed.

(* fields of Goldilocks characteristic exist: the integers modulo that prime *)
Theorem C63_goldilocks_field_exists : exists F : fieldType, N.to_nat goldilocks_p \in [char F].
Proof. exact: prime_field_exists goldilocks_prime. Qed.

(* the BLS12-381 scalar modulus is prime, so fields of that characteristic exist *)
Theorem C63_bls_prime : prime (N.to_nat bls_r).
Proof. exact: bls_prime. Qed.

Theorem C63_bls_field_exists : exists F : fieldType, N.to_nat bls_r \in [char F].
Proof. exact: prime_field_exists bls_prime. Qed.
