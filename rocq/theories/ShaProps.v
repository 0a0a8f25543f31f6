(* C75: the real SHA-256 and the concrete fields meet the hypotheses. *)
From Coq Require Import String Ascii NArith.
Set Warnings "-notation-overridden,-ambiguous-paths".
From mathcomp Require Import all_ssreflect all_algebra.
From mathcomp Require Import zify ring.
From Verif Require Import Base BaseLemmas ArkPoly ArkDomain ArkDomainLemmas Concrete FriModel FriSpec FriProps
  KzgModel KzgSpec PlonkModel PlonkSpec PlonkCompile PlonkProps ConcreteProps Sha256.

Set Implicit Arguments.
Unset Strict Implicit.
Unset Printing Implicit Defensive.

Import GRing.Theory.
Local Open Scope ring_scope.

Lemma size_be_bytes k n acc : size (be_bytes k n acc) = (k + size acc)%N.
Proof. by elim: k n acc => [|k IH] n acc //=; rewrite IH addSnnS. Qed.

Lemma size_sha_output st : size (sha_output st) = 32%N.
Proof. by rewrite /sha_output; do 8!rewrite size_be_bytes. Qed.

(* Every SHA-256 digest has 32 bytes. *)
Theorem C75_digest_length m : size (sha256_standard m) = 32%N.
Proof. exact: size_sha_output. Qed.

Lemma size_padded (m : bytes) a c z n :
  size (m ++ a :: nseq z c ++ be_bytes 8 n [::]) = (size m + z + 9)%N.
Proof.
have := size_be_bytes 8 n [::]; move: (be_bytes 8 n [::]) => t; rewrite addn0 => e.
rewrite size_cat -[size (a :: _)]/(size (nseq z c ++ t)).+1 size_cat size_nseq e.
by move: (size m); clear; lia.
Qed.

(* The padded message is a whole number of blocks. *)
Theorem C75_padding_blocks m : (64 %| size (sha_pad m))%N.
Proof.
rewrite /sha_pad size_padded /zeros_needed; move: (size m) => k; clear m.
have lt : (k %% 64 < 64)%N by rewrite ltn_mod.
have e := divn_eq k 64; move: (k %/ 64)%N (k %% 64)%N e lt => q r -> lt.
have [le|gt] := leqP r 55.
  have -> : ((119 - r) %% 64 = 55 - r)%N.
    have -> : (119 - r = 64 + (55 - r))%N by move: le; clear; lia.
    by rewrite modnDl modn_small // ltnS (leq_trans (leq_subr _ _)).
  have -> : (q * 64 + r + (55 - r) + 9 = (q + 1) * 64)%N by move: le; clear; lia.
  exact: dvdn_mull.
rewrite modn_small; last by move: gt; clear; lia.
have -> : (q * 64 + r + (119 - r) + 9 = (q + 2) * 64)%N by move: lt; clear; lia.
exact: dvdn_mull.
Qed.

Lemma fri_gold (F : fieldType) (X : fri_env F) (H : bytes -> bytes) (p : seq F) (blowup nq : nat) :
  N.to_nat goldilocks_p \in [char F] -> fft X = goldilocks_fft F -> generator X = 7%:R ->
  digest_8_bytes H ->
  let n := up_log 2 (size p * blowup)%N in
  (fri_generate_proof X H p blowup nq = Panic /\
   [\/ n = 0%N, (32 < n)%N
     | exists2 roots, honest_root_list X H (Poly p) (generator X) n roots
         & folded X H (Poly p) roots n = 0]) \/
  ((0 < n <= 32)%N /\
   exists2 pf, fri_generate_proof X H p blowup nq = Ret pf & fri_verify X H pf = Ret tt).
Proof.
move=> char Ef Eg long n; have [_ _ ok0] := C63_goldilocks char.
have ok : fft_consts_ok X by rewrite /fft_consts_ok Ef.
have S32 : two_adicity (fft X) = 32%N by rewrite Ef.
have := C08_generate_panics_iff p blowup nq ok long; rewrite -/n S32 => -[iff tot].
move: iff tot (fun pf => C09_proof_shape (pf := pf) ok long (p := p) (blowup := blowup) (nq := nq))
  (fun pf => C63_fri_completeness (pf := pf) (H := H) (p := p) (blowup := blowup) (nq := nq) char Ef Eg).
rewrite -/n S32; case: (fri_generate_proof X H p blowup nq) => [pf|msg|] iff tot shape compl.
- right; split; last by exists pf; last exact: compl.
  by have [] := shape pf erefl.
- by have [] := tot _.
by left; split; last exact/iff.
Qed.

Lemma long_gen (H : bytes -> bytes) : (forall m, size (H m) = 32%N) -> digest_8_bytes H.
Proof. by move=> e b; rewrite e. Qed.
Lemma sha_8 : digest_8_bytes sha256_standard.
Proof. exact: long_gen C75_digest_length. Qed.

(* FRI over the Goldilocks field with SHA-256 as transcript digest: nothing is
   left to assume.  The prover panics exactly for an empty or one-element domain,
   a domain above 2^32, or a polynomial that folds to zero under the challenges
   drawn; otherwise it returns a proof, and the verifier accepts it. *)
Theorem C75_fri_goldilocks (F : fieldType) (X : fri_env F) (p : seq F) (blowup nq : nat) :
  N.to_nat goldilocks_p \in [char F] -> fft X = goldilocks_fft F -> generator X = 7%:R ->
  let n := up_log 2 (size p * blowup)%N in
  let H := sha256_standard in
  (fri_generate_proof X H p blowup nq = Panic /\
   [\/ n = 0%N, (32 < n)%N
     | exists2 roots, honest_root_list X H (Poly p) (generator X) n roots
         & folded X H (Poly p) roots n = 0]) \/
  ((0 < n <= 32)%N /\
   exists2 pf, fri_generate_proof X H p blowup nq = Ret pf & fri_verify X H pf = Ret tt).
Proof.
move=> char Ef Eg; exact: (fri_gold p blowup nq char Ef Eg sha_8).
Qed.
Lemma plonk_bls (F : fieldType) (E : pairing_group F) (X : plonk_env E)
  (calls : seq (gate_call F)) (cc : compiled_circuit F) (s : F) (m : nat) (b : nat -> F) T (H : bytes -> bytes) :
  (forall m, size (H m) = 32%N) ->
  N.to_nat bls_r \in [char F] -> pk_fft X = bls_fft F -> pk_sha256 X = H ->
  pairing_ok E -> compile (pk_fft X) (build calls) = Ret cc -> (cc_size cc <= 2 ^ 29)%N ->
  (cc_size cc <= m)%N -> all (@call_holds F) calls ->
  positions_permute calls (cc_size cc) -> copies_hold calls (cc_size cc) ->
  no_accident X cc b s ->
  let S := srs_new_from_secret E s m in
  exists2 pf, generate_proof X T b cc S = Ret pf &
    verify X H cc S pf = if ch_zeta X H pf == 1 then Panic else Ret tt.
Proof.
move=> len char Ef Es okE comp sz nm hold perm copies na S.
have ok : fft_ok (pk_fft X) by rewrite Ef; exact: (C63_bls char).
have long : digest_long (pk_sha256 X) by rewrite Es; exact: long_gen len.
have bd : (4 * cc_size cc + 6 <= 2 ^ two_adicity (pk_fft X))%N.
  have -> : two_adicity (pk_fft X) = (29 + 3)%N by rewrite Ef.
  rewrite expnD; move: sz; have := ltn_expl 29 (isT : (1 < 2)%N).
  have -> : (2 ^ 3 = 8)%N by [].
  by move: (2 ^ 29)%N (cc_size cc); clear; lia.
by have := C51_satisfied_circuits okE ok long comp nm T bd hold perm copies na; rewrite Es.
Qed.

(* PLONK over the BLS12-381 scalar field with SHA-256: a satisfied circuit of up to
   2^29 rows is proved and the proof accepted, but for the listed accidents. *)
Theorem C75_plonk_bls (F : fieldType) (E : pairing_group F) (X : plonk_env E)
  (calls : seq (gate_call F)) (cc : compiled_circuit F) (s : F) (m : nat) (b : nat -> F) T :
  N.to_nat bls_r \in [char F] -> pk_fft X = bls_fft F -> pk_sha256 X = sha256_standard ->
  pairing_ok E -> compile (pk_fft X) (build calls) = Ret cc -> (cc_size cc <= 2 ^ 29)%N ->
  (cc_size cc <= m)%N -> all (@call_holds F) calls ->
  positions_permute calls (cc_size cc) -> copies_hold calls (cc_size cc) ->
  no_accident X cc b s ->
  let S := srs_new_from_secret E s m in
  exists2 pf, generate_proof X T b cc S = Ret pf &
    verify X sha256_standard cc S pf = if ch_zeta X sha256_standard pf == 1 then Panic else Ret tt.
Proof. exact: plonk_bls C75_digest_length. Qed.
