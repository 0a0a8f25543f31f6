(* C86: the real encodings are injective and of fixed length, and what follows for
   the transcripts. *)
From Coq Require Import String Ascii NArith.
Set Warnings "-notation-overridden,-ambiguous-paths".
From mathcomp Require Import all_ssreflect all_algebra.
From mathcomp Require Import zify ring.
From Verif Require Import Base BaseLemmas ArkPoly ArkDomain KzgModel KzgSpec PlonkModel PlonkSpec
  PlonkChallengeProps Concrete ConcreteProps BasePrime Sha256 ShaProps PlonkErrorProps PlonkFsProps Encodings.
From Verif Require Import NovaModel NovaSpec NovaProps NovaIvcProps.

Set Implicit Arguments.
Unset Strict Implicit.
Unset Printing Implicit Defensive.

Import GRing.Theory.
Local Open Scope ring_scope.

(* The base modulus is prime: fields of that characteristic exist. *)
Theorem C86_base_modulus_prime : prime (N.to_nat bls_q).
Proof. exact: bls_q_prime. Qed.

Lemma pow_to_nat (e p : N) : (p <= 2 ^ e)%num -> (N.to_nat p <= 2 ^ N.to_nat e)%N.
Proof.
move=> le; have -> : (2 ^ N.to_nat e = N.to_nat (2 ^ e))%N by rewrite N2Nat.inj_pow nat_pow2.
by apply/leP; lia.
Qed.

Lemma rep_lt (F : fieldType) (p e : N) (k : nat) (rep : F -> N) : bigint_of p rep ->
  (p <= 2 ^ e)%num -> (N.to_nat e <= 8 * k)%N -> forall x, (N.to_nat (rep x) < 256 ^ k)%N.
Proof.
move=> H le ek x; have [lt _] := H x.
have e1 := pow_to_nat le.
apply: leq_trans (_ : 2 ^ N.to_nat e <= _)%N.
  by apply: leq_trans e1; move: lt; clear; lia.
by rewrite (_ : 256 = 2 ^ 8)%N // -expnM leq_exp2l.
Qed.

Lemma field_bytes_inj (F : fieldType) (p e : N) (k : nat) (rep : F -> N) : bigint_of p rep ->
  (p <= 2 ^ e)%num -> (N.to_nat e <= 8 * k)%N -> injective (field_bytes k rep).
Proof.
move=> H le ek x y /le_bytes_inj E.
have := E (rep_lt H le ek x) (rep_lt H le ek y) => /N2Nat.inj er.
by have [_ <-] := H x; have [_ <-] := H y; rewrite er.
Qed.

Lemma r_bits : (bls_r <= 2 ^ 255)%num. Proof. by vm_compute. Qed.
Lemma q_bits : (bls_q <= 2 ^ 381)%num. Proof. by vm_compute. Qed.
Lemma q_large : (2 ^ 256 <= bls_q)%num. Proof. by vm_compute. Qed.
Lemma r_large : (2 ^ 256 <= 3 * bls_r)%num. Proof. by vm_compute. Qed.

(* Scalars: 32 bytes, different for different scalars. *)
Theorem C86_scalar_bytes (F : fieldType) (rep : F -> N) : bigint_of bls_r rep ->
  injective (field_bytes 32 rep) /\ forall x, size (field_bytes 32 rep x) = 32%N.
Proof.
move=> H; split=> [|x]; last exact: size_le_bytes.
exact: (field_bytes_inj H r_bits).
Qed.

(* Base field elements: 48 bytes. *)
Theorem C86_base_bytes (B : fieldType) (rep : B -> N) : bigint_of bls_q rep ->
  injective (field_bytes 48 rep) /\ forall x, size (field_bytes 48 rep x) = 48%N.
Proof.
move=> H; split=> [|x]; last exact: size_le_bytes.
exact: (field_bytes_inj H q_bits).
Qed.

Lemma last_byte k n c : last c (le_bytes k.+1 n) = ascii_of_nat ((n %/ 256 ^ k) %% 256).
Proof.
elim: k n c => [|k IH] n c; first by rewrite /= divn1.
by rewrite -[LHS]/(last (ascii_of_nat (n %% 256)) (le_bytes k.+1 (n %/ 256))) IH -divnMA -expnS.
Qed.

Lemma top_lt n k a : (n < 2 ^ a)%N -> (a <= 8 * k + 6)%N -> (n %/ 256 ^ k < 64)%N.
Proof.
move=> l1 l2; have p0 : (0 < 256 ^ k)%N by rewrite expn_gt0.
rewrite ltn_divLR //; apply: leq_trans l1 _.
have -> : (64 * 256 ^ k = 2 ^ (8 * k + 6))%N.
  by rewrite expnD expnM mulnC.
by rewrite leq_exp2l.
Qed.

Lemma no_flag (B : fieldType) (rep : B -> N) x : bigint_of bls_q rep ->
  head zero (rev (field_bytes 48 rep x)) <> ascii_of_nat 64.
Proof.
move=> H; have := rep_lt H q_bits (isT : N.to_nat 381 <= 8 * 48)%N x.
have [lt _] := H x; have lt2 : (N.to_nat (rep x) < 2 ^ 381)%N.
  by apply: leq_trans (pow_to_nat q_bits); move: lt; clear; lia.
move: lt2; rewrite /field_bytes; move: (N.to_nat (rep x)) => n l1 l2.
have -> : head zero (rev (le_bytes 48 n)) = last zero (le_bytes 48 n).
  by move: (le_bytes 48 n) => l; case/lastP: l => // l a; rewrite rev_rcons last_rcons.
rewrite last_byte => /ascii_of_nat_inj e.
have {e} e := e (ltn_mod _ _ : n %/ 256 ^ 47 %% 256 < 256)%N isT.
have lq := @top_lt n 47 381 l1 isT.
by move: lq; rewrite -[X in (_ < X)%N]e ltnNge leq_mod.
Qed.

(* Points: 96 bytes, different for different points. *)
Theorem C86_point_bytes (B : fieldType) (rep : B -> N) : bigint_of bls_q rep ->
  injective (point_bytes rep) /\ forall P, size (point_bytes rep P) = 96%N.
Proof.
move=> H; have [inj sz] := C86_base_bytes H; split; last first.
  case=> [|x y]; first by []. 
  by rewrite size_cat !size_rev !sz.
have nf x y : rev (field_bytes 48 rep x) ++ rev (field_bytes 48 rep y) <> ascii_of_nat 64 :: nseq 95 zero.
  move=> e; apply: (no_flag (x := x) H); move: e; have := size_rev (field_bytes 48 rep x); rewrite sz.
  by case: (rev _) => [|a l] // _ [].
case=> [|x y] [|x' y']; [by []|by move=> /esym/nf| |].
  by move=> /nf.
case/cat_inj_size; first by rewrite !size_rev !sz.
by move=> /(can_inj revK)/inj -> /(can_inj revK)/inj ->.
Qed.

(* PLONK transcripts: with points written as above and SHA-256, two lists of
   commitments with the same digest are equal, or two of the hashed strings collide. *)
Theorem C86_plonk_binding (F B : fieldType) (E : pairing_group F) (X : plonk_env E)
  (rep : B -> N) (coords : G1 E -> affine B) (cs cs' : seq (G1 E)) :
  bigint_of bls_q rep -> injective coords -> (forall c, pk_ser_g1 X c = point_bytes rep (coords c)) ->
  PlonkSpec.fs_chain X sha256_standard cs = PlonkSpec.fs_chain X sha256_standard cs' ->
  cs = cs' \/
  exists x y, [/\ x \in fs_inputs X sha256_standard [::] cs, y \in fs_inputs X sha256_standard [::] cs',
                  x <> y & sha256_standard x = sha256_standard y].
Proof.
move=> H ci ser; have [inj sz] := C86_point_bytes H.
apply: (@C54_binding _ _ X sha256_standard cs cs' 32 96) => //.
- by move=> c; rewrite ser sz.
- by move=> c c'; rewrite !ser => /inj/ci.
Qed.

Lemma decode_bits (b : bytes) (e : N) : (8 * size b)%N = N.to_nat e -> (le_decode b < 2 ^ e)%num.
Proof.
move=> sb; have := le_decode_lt b; have -> : (256 ^ size b = 2 ^ (8 * size b))%N by rewrite expnM.
rewrite sb => lt.
apply/N.nle_gt => /to_nat_pow le.
by have := leq_ltn_trans le lt; rewrite ltnn.
Qed.
Lemma decode_lt (b : bytes) : size b = 32%N -> (le_decode b < 2 ^ 256)%num.
Proof. move=> sb; apply: decode_bits; rewrite sb; reflexivity. Qed.

Lemma le_decode_inj (b b' : bytes) : size b = size b' -> le_decode b = le_decode b' -> b = b'.
Proof.
elim: b b' => [|c b IH] [|c' b'] // [es].
rewrite -[le_decode (c :: b)]/(N_of_ascii c + 256 * le_decode b)%num -[le_decode (c' :: b')]/(N_of_ascii c' + 256 * le_decode b')%num => e.
have lc : (N_of_ascii c < 256)%num by apply: N_ascii_bounded.
have lc' : (N_of_ascii c' < 256)%num by apply: N_ascii_bounded.
have [e1 e2] : N_of_ascii c = N_of_ascii c' /\ le_decode b = le_decode b'.
  by move: e lc lc'; move: (N_of_ascii c) (N_of_ascii c') (le_decode b) (le_decode b'); clear; lia.
by rewrite (IH b' es e2) -(ascii_N_embedding c) e1 ascii_N_embedding.
Qed.

Section Nova.
Variables (F B : fieldType) (E : pairing_group F) (X : nova_env B E).
Variables (repF : F -> N) (repB : B -> N) (coords : G1 E -> affine B).
Hypotheses (HF : bigint_of bls_r repF) (HB : bigint_of bls_q repB) (ci : injective coords).
Hypotheses (charB : N.to_nat bls_q \in [char B]) (charF : N.to_nat bls_r \in [char F]).
Hypotheses (Eg : forall c, ser_g1 X c = point_bytes repB (coords c))
  (Efr : forall x, ser_fr X x = field_bytes 32 repF x) (Efq : forall x, ser_fq X x = field_bytes 48 repB x)
  (Ed : forall b, digest X b = sha256_standard b)
  (Eb : forall b, fq_of_bytes X b = field_of_bytes B b) (Es : forall h, fr_of_fq X h = scalar_of_base F repB h).

(* Nova transcripts *)
Theorem C86_nova_binding ops ops' outs outs' t t' :
  nt_run X nt_default ops = Ret (outs, t) -> nt_run X nt_default ops' = Ret (outs', t') ->
  nt_data t = nt_data t' ->
  [seq o <- ops | is_feed o] = [seq o <- ops' | is_feed o] \/
  exists x y, [/\ x \in hash_chain_inputs X [::] (fed X ops),
                  y \in hash_chain_inputs X [::] (fed X ops'), x <> y & sha256_standard x = sha256_standard y].
Proof.
move=> R1 R2 ed; have [ig sg] := C86_point_bytes HB; have [jf sf] := C86_scalar_bytes HF.
have hd b : size (digest X b) = 32%N by rewrite Ed C75_digest_length.
have hg c : size (ser_g1 X c) = 96%N by rewrite Eg sg.
have hf x : size (ser_fr X x) = 32%N by rewrite Efr sf.
have jg' : injective (ser_g1 X) by move=> c c'; rewrite !Eg => /ig/ci.
have jf' : injective (ser_fr X) by move=> x x'; rewrite !Efr => /jf.
have n1 : (96 <> 32)%N by []. have n2 : (96 <> 32 + 32)%N by []. have n3 : (32 <> 32 + 96)%N by [].
have [e|] := C37_binding hd hg hf isT n1 n2 n3 jg' jf' R1 R2 ed; first by left.
by move=> [x [y [hx hy ne e]]]; right; exists x, y; split; [exact: hx|exact: hy|exact: ne|rewrite -!Ed; exact: e].
Qed.

(* 32-byte digests are different base field elements *)
Lemma digest_field_inj (b b' : bytes) : size b = 32%N -> size b' = 32%N ->
  fq_of_bytes X b = fq_of_bytes X b' -> b = b'.
Proof.
move=> sb sb'; rewrite !Eb /field_of_bytes => e; apply: le_decode_inj; first by rewrite sb.
apply: (inR_inj charB) e; apply: N.lt_le_trans q_large; exact: decode_lt.
Qed.

(* hash_io *)
Theorem C86_hash_io_binding (i i' z0 z0' z z' : B) (U U' : finstance E) :
  hash_io X i z0 z U = hash_io X i' z0' z' U' ->
  [/\ i = i', z0 = z0', z = z' & U = U'] \/
  exists x y, x <> y /\ sha256_standard x = sha256_standard y.
Proof.
move=> eh; have [ig sg] := C86_point_bytes HB; have [jf sf] := C86_scalar_bytes HF.
have [jq sq] := C86_base_bytes HB.
have hd b : size (digest X b) = 32%N by rewrite Ed C75_digest_length.
have hg c : size (ser_g1 X c) = 96%N by rewrite Eg sg.
have hf x : size (ser_fr X x) = 32%N by rewrite Efr sf.
have hq x : size (ser_fq X x) = 48%N by rewrite Efq sq.
have jg' : injective (ser_g1 X) by move=> c c'; rewrite !Eg => /ig/ci.
have jf' : injective (ser_fr X) by move=> x x'; rewrite !Efr => /jf.
have jq' : injective (ser_fq X) by move=> x x'; rewrite !Efq => /jq.
have [e|] := C43_hash_io_binding hd digest_field_inj hq jq' hg jg' hf isT jf' eh; first by left.
by move=> [x [y [ne e]]]; right; exists x, y; split; [exact: ne|rewrite -!Ed; exact: e].
Qed.

(* The check of the public input compares digests modulo r only ... *)
Theorem C86_public_io_modulo_r (b b' : bytes) : size b = 32%N -> size b' = 32%N ->
  fr_of_fq X (fq_of_bytes X b) = fr_of_fq X (fq_of_bytes X b') <->
  N.modulo (le_decode b) bls_r = N.modulo (le_decode b') bls_r.
Proof.
have rep32 c : size c = 32%N -> repB (fq_of_bytes X c) = le_decode c.
  move=> sc; have [lt e] := HB (fq_of_bytes X c).
  apply: (inR_inj charB lt); first by apply: N.lt_le_trans q_large; apply: decode_lt.
  by rewrite e Eb.
move=> sb sb'; rewrite !Es /scalar_of_base (rep32 b sb) (rep32 b' sb').
have r0 := char_neq0 charF; have rR := char_R charF.
split=> e.
  apply: (inR_inj charF); [exact: N.mod_lt|exact: N.mod_lt|].
  by rewrite !(inR_mod r0 rR).
by rewrite -(inR_mod r0 rR (le_decode b)) e (inR_mod r0 rR).
Qed.

(* ... so that at most three digests have the same public input. *)
Theorem C86_public_io_three (bs : seq bytes) (x : F) : uniq bs ->
  (forall b, b \in bs -> size b = 32%N /\ fr_of_fq X (fq_of_bytes X b) = x) -> (size bs <= 3)%N.
Proof.
move=> ub Hb; have r0 := char_neq0 charF.
have ui : uniq [seq N.to_nat (N.div (le_decode b) bls_r) | b <- bs].
  rewrite map_inj_in_uniq; first exact: ub.
  move=> b b' bi bi' /N2Nat.inj e.
  have [sb eb] := Hb b bi; have [sb' eb'] := Hb b' bi'.
  have em : N.modulo (le_decode b) bls_r = N.modulo (le_decode b') bls_r.
    by apply/(C86_public_io_modulo_r sb sb'); rewrite eb eb'.
  apply: le_decode_inj; first by rewrite sb.
  by rewrite (N.div_mod (le_decode b) _ r0) (N.div_mod (le_decode b') _ r0) e em.
rewrite -(size_map (fun b => N.to_nat (N.div (le_decode b) bls_r))) -[3%N](size_iota 0).
apply: (uniq_leq_size ui) => _ /mapP[b bi ->]; rewrite mem_iota add0n.
have [sb _] := Hb b bi; have lt := decode_lt sb.
have : (N.div (le_decode b) bls_r < 3)%num.
  apply: (N.div_lt_upper_bound _ _ _ r0); rewrite N.mul_comm; exact: N.lt_le_trans lt r_large.
by move: (N.div _ _) => d; clear; lia.
Qed.
End Nova.
