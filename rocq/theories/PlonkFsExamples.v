(* Concrete cases meeting the hypotheses of C78: a prover that does forge, for the
   table that answers zero to every question. *)
From Coq Require Import String Ascii NArith.
Set Warnings "-notation-overridden,-ambiguous-paths".
From mathcomp Require Import all_ssreflect all_algebra.
From mathcomp Require Import zify ring.
From Verif Require Import Base BaseLemmas ArkPoly ArkPolyLemmas ArkDomain ArkDomainLemmas ArkPolyFft
  KzgModel KzgSpec PlonkModel PlonkSpec PlonkLemmas PlonkCompile PlonkProps
  Concrete ConcreteProps PlonkSoundSpec PlonkSoundProps PlonkErrorProps PlonkErrorExamples
  OracleProver PlonkFsSpec PlonkFsProps.

Set Implicit Arguments.
Unset Strict Implicit.
Unset Printing Implicit Defensive.

Import GRing.Theory.
Local Open Scope ring_scope.

(* a digest that counts *)
Definition counting_digest (b : bytes) : bytes :=
  ascii_of_nat (nat_of_ascii (head zero b)).+1 :: nseq 7 zero.
Lemma counting_long : digest_long counting_digest.
Proof. by []. Qed.

Section AnyField.
Variables (F : finFieldType) (P : fft_field F).
Hypothesis ok : fft_ok P.
Local Notation E := (self_groups F).
Local Notation X := (self_env P).
Variables (calls : seq (gate_call F)) (cc : compiled_circuit F).
Hypothesis compiled : compile P (build calls) = Ret cc.
Variable s : F.
Local Notation g := (cc_gate cc).

(* the prover sends wires of value zero, takes the quotient to be a constant and
   hopes that every challenge is zero *)
Definition hoping_messages : messages F :=
  Messages 0 0 0 0 (- (Poly (q_cx g)).[0] - (Poly (pi_x g)).[0])%:P 0 0 (Poly (behead (q_cx g))) 0.
Definition hoping_proof : proof E :=
  let com (f : {poly F}) := commitment_of E s f in
  {| a_commit := com 0; b_commit := com 0; c_commit := com 0; z_commit := com 0;
     t_lo_commit := com (ms_Tlo hoping_messages); t_mid_commit := com 0; t_hi_commit := com 0;
     w_ev_x_commit := com (ms_W hoping_messages); w_ev_wx_commit := com 0;
     bar_a := 0; bar_b := 0; bar_c := 0; bar_s_sigma_1 := 0; bar_s_sigma_2 := 0; bar_z_w := 0;
     pf_u := 0; pf_degree := 0 |}.
Definition hoping_prover : fs_prover E := Answer (hoping_messages, hoping_proof).

Lemma head_behead (q : seq F) : Poly q = (Poly q).[0]%:P + 'X * Poly (behead q).
Proof.
case: q => [|c q] /=; first by rewrite horner0 mulr0 addr0.
rewrite cons_poly_def hornerMXaddC mulr0 add0r addrC [_ * 'X]mulrC //.
Qed.

Lemma hoping_explained N : (cc_size cc <= N)%N -> explains s N hoping_messages hoping_proof.
Proof.
move=> nN; split=> //=; rewrite !size_poly0 /= !andbT.
have [Ecc gt1 _ _] := compile_inv compiled.
have n0 : (0 < N)%N by apply: leq_trans nN; rewrite Ecc; apply: leq_trans (csize_ge calls); apply: ltnW.
rewrite (leq_trans (size_polyC_leq1 _) n0) /=.
have sz : (size (q_cx g) <= cc_size cc)%N.
  have /and3P[/allP H _ _] : wf_compiled P cc := @compiled_wf F E X calls cc compiled.
  have /H : q_cx g \in stored_polys cc by rewrite /stored_polys !inE eqxx !orbT.
  by move=> /andP[].
apply: leq_trans (size_Poly _) _; rewrite size_behead; apply: leq_trans nN.
exact: leq_trans (leq_pred _) sz.
Qed.


Lemma size_gt0 : (0 < cc_size cc)%N.
Proof.
have [Ecc gt1 _ _] := compile_inv compiled; rewrite Ecc.
by apply: leq_trans (csize_ge calls); apply: ltnW.
Qed.

Lemma ZH0 : (ZH F (cc_size cc)).[0] = -1.
Proof.
by rewrite /ZH -polyC1 hornerD hornerN hornerXn hornerC expr0n eqn0Ngt size_gt0 sub0r.
Qed.

Lemma hoping_gap :
  opening_gap (cc_size cc) (omega_of P cc) cc hoping_messages 0 0 0 0 0 0 0 0 0 0 1 0 = 0.
Proof.
have e := head_behead (q_cx g).
rewrite /opening_gap /lin_poly /lin_gate ZH0 /=.
rewrite !(expr0n, mul0r, mulr0, scale0r, scaler0, add0r, addr0, subr0, scaleN1r, polyCB, polyCN, polyC0) /=.
rewrite !(scale0r, addr0, opprB, opprD, opprK) {1}e; move: (_.[0]%:P) (_.[0]%:P) ('X * _) => x y z; ring.
Qed.

Lemma hoping_equation : equation_at P cc (0, 0, 0, 0, 0, 0, s) hoping_proof.
Proof.
have e := congr1 (fun f : {poly F} => f.[s]) (head_behead (q_cx g)).
rewrite hornerD hornerC hornerM hornerX in e.
have z0 : 0 ^+ cc_size cc = 0 :> F by rewrite expr0n eqn0Ngt size_gt0.
rewrite /equation_at /= /commitment_of !horner0 hornerC e z0.
rewrite !(expr0n, mul0r, mulr0, scale0r, scaler0, add0r, addr0, subr0, sub0r, scaleN1r, oppr0) /=.
apply/eqP; rewrite /GRing.scale /=.
move: (Poly (behead _)).[s] (Poly (q_cx g)).[0] (Poly (pi_x g)).[0] => x y z; ring.
Qed.

Variables (K : nat) (K0 : (0 < K)%N).
Definition zero_table : rand_table F K := [ffun _ => (0, 0)].

Lemma zero_answers seed i : pk_rand (with_table K0 X zero_table) seed i = 0.
Proof. by rewrite /= !ffunE /=; case: i => [|[|[|i]]]. Qed.

Lemma hoping_forges m N D : (cc_size cc <= m)%N -> (cc_size cc <= N)%N -> (0 < D)%N ->
  ~ satisfies calls (cc_size cc) (values_of (omega_of P cc) 0 0 0) ->
  forges K0 X counting_digest s calls cc m N D hoping_prover zero_table.
Proof.
move=> nm nN D0 unsat; have ex := hoping_explained nN.
have chs : [/\ ch_beta (with_table K0 X zero_table) counting_digest hoping_proof = 0,
    ch_gamma (with_table K0 X zero_table) counting_digest hoping_proof = 0 &
    ch_alpha (with_table K0 X zero_table) counting_digest hoping_proof = 0] by split; apply: zero_answers.
have chs' : [/\ ch_zeta (with_table K0 X zero_table) counting_digest hoping_proof = 0,
    ch_v (with_table K0 X zero_table) counting_digest hoping_proof = 0 &
    ch_u (with_table K0 X zero_table) counting_digest hoping_proof = 0] by split; apply: zero_answers.
case: chs chs' => e1 e2 e3 [e4 e5 e6]; split.
- by split.
- apply/(C76_code_is_interactive (X := with_table K0 X zero_table) s hoping_proof
    (@self_ok F) ok compiled nm counting_long).
  rewrite e1 e2 e3 e4 e5 e6; apply/and3P; split=> //.
    by rewrite eq_sym oner_eq0.
  exact: hoping_equation.
- exact: unsat.
- rewrite /secret_found e1 e2 e3 e4 e5 e6 /bad_trapdoor hoping_gap scale0r addr0 => -[]; exact.
- rewrite /seeds_distinct; set L := full_transcript hoping_messages hoping_proof.
  move=> q q' qi qi' e.
  have H q0 : q0 \in L :: prefixes L ->
      q0 = take (N.to_nat (transcript_seed X counting_digest s q0)) L.
    by rewrite /prefixes /= !inE => /or4P[/eqP->|/eqP->|/eqP->|/or3P[/eqP->|/eqP->|/eqP->]].
  by rewrite (H q qi) (H q' qi') e.
Qed.

End AnyField.

(* C78 for the scalar field of BLS12-381: an unsatisfiable circuit, and a prover that
   forges for one table at least *)
Lemma fiat_shamir_at (K N D : nat) (K0 : (0 < K)%N) : (0 < D)%N -> (2 <= N)%N ->
  exists (F : finFieldType) (E : pairing_group F) (X : plonk_env E)
  (calls : seq (gate_call F)) (cc : compiled_circuit F) (T : bytes -> bytes)
  (p : fs_prover E) (t : rand_table F K),
  [/\ #|F| = N.to_nat bls_r, pk_fft X = bls_fft F, pairing_ok E &
      [/\ digest_long T, compile (pk_fft X) (build calls) = Ret cc, cc_size cc = 2%N,
          (forall t, size (asked (seed_entry K0 X T 0) p t) <= 0)%N &
          forges K0 X T 0 calls cc (cc_size cc) N D p t]].
Proof.
move=> D0 N2.
have := @card_self _ C63_bls_prime; set F := [finFieldType of 'F_(N.to_nat bls_r)] => card.
have [cc compiled sz] := @clash_compiles F (bls_fft F) isT.
have unsat val : ~ satisfies (clash F) (cc_size cc) val.
  by apply: clash_unsat; rewrite sz.
have cN : (cc_size cc <= N)%N by rewrite sz.
have char : N.to_nat bls_r \in [char F] by exact: (char_of_card card C63_bls_prime).
have ok : fft_ok (bls_fft F) by exact: (C63_bls char).
have forged := @hoping_forges F (bls_fft F) ok (clash F) cc compiled 0 K K0 (cc_size cc) N D
  (leqnn _) cN D0 (unsat _).
exists F, (self_groups F), (self_env (bls_fft F)), (clash F), cc, counting_digest,
  (hoping_prover cc 0), (zero_table F K).
split; [exact: card|reflexivity|exact: self_ok|].
split; [exact: counting_long|exact: compiled|exact: sz|move=> t; exact: leqnn|exact: forged].
Qed.

Example fiat_shamir_bls (K : nat) (K0 : (0 < K)%N) : K = (2 ^ 64)%N ->
  exists (F : finFieldType) (E : pairing_group F) (X : plonk_env E)
  (calls : seq (gate_call F)) (cc : compiled_circuit F) (T : bytes -> bytes)
  (p : fs_prover E) (t : rand_table F K),
  forges K0 X T 0 calls cc (cc_size cc) (2 ^ 32) (2 ^ 64) p t /\
  (2 ^ 120 * size [:: t] <= (0 + 5) * #|{: rand_table F K}|)%N.
Proof.
move=> eK.
have [F [E [X [calls [cc [T [p [t [card Ef okE [long compiled sz as0 forged]]]]]]]]]] :=
  @fiat_shamir_at K (2 ^ 32)%N (2 ^ 64)%N K0 (pow2_gt0 64%N) (@pow2_ge2 32%N isT).
exists F, E, X, calls, cc, T, p, t; split; first exact: forged.
have small k : (0 < k)%N -> (cc_size cc <= 2 ^ k)%N by rewrite sz; apply: pow2_ge2.
have all_forged t' : t' \in [:: t] -> forges K0 X T 0 calls cc (cc_size cc) (2 ^ 32) (2 ^ 64) p t'.
  by rewrite inE => /eqP ->; exact: forged.
exact: (@C78_bls F E X calls cc 0 (cc_size cc) (2 ^ 32)%N K K0 T p 0 [:: t] card Ef okE eK
  long compiled (small 28%N isT) (leqnn _) (small 32%N isT) (leqnn _) as0 isT all_forged).
Qed.
