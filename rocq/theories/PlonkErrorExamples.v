(* Concrete cases meeting the hypotheses of C76. *)
From Coq Require Import String Ascii NArith.
Set Warnings "-notation-overridden,-ambiguous-paths".
From mathcomp Require Import all_ssreflect all_algebra.
From mathcomp Require Import zify ring.
From Verif Require Import Base BaseLemmas ArkPoly ArkPolyLemmas ArkDomain ArkDomainLemmas ArkPolyFft
  KzgModel KzgSpec PlonkModel PlonkSpec PlonkLemmas PlonkCompile PlonkProps
  Concrete ConcreteProps PlonkSoundSpec PlonkSoundProps PlonkErrorProps.

Set Implicit Arguments.
Unset Strict Implicit.
Unset Printing Implicit Defensive.

Import GRing.Theory.
Local Open Scope ring_scope.

Section AnyField.
Variable F : fieldType.

(* the field itself as the three groups *)
Definition self_groups : pairing_group F :=
  @PairingGroup F [lmodType F of F^o] [lmodType F of F^o] [lmodType F of F^o] (1 : F^o) (1 : F^o)
    (fun a b : F^o => (a : F) * b).
Lemma self_ok : pairing_ok self_groups.
Proof.
split=> /=.
- by move=> a b c; rewrite mulrDl.
- by move=> k a c; rewrite [RHS]mulrA.
- by move=> a b c; rewrite mulrDr.
- by move=> k a c; rewrite [RHS]mulrCA.
- by move=> a /eqP; rewrite mulr1 => /eqP.
- exact: oner_neq0.
Qed.

Definition self_env (P : fft_field F) : plonk_env self_groups :=
  @PlonkEnv F self_groups P (fun b => nseq 8 zero) (fun x => [::]) (fun seed k => 0).

(* two constant gates, for 0 and 1, on linked wires *)
Definition clash : seq (gate_call F) :=
  [:: GateCall Constant (0%N, 1%N, 0) (1%N, 0%N, 0) (2%N, 0%N, 0) 0;
      GateCall Constant (0%N, 0%N, 1) (1%N, 1%N, 0) (2%N, 1%N, 0) 0].

Lemma clash_unsat n val : (2 <= n)%N -> ~ satisfies clash n val.
Proof.
move=> n2 [rel cop].
have r0 := rel (GateCall Constant (0%N, 1%N, 0) (1%N, 0%N, 0) (2%N, 0%N, 0) 0) 0%N isT.
have r1 := rel (GateCall Constant (0%N, 1%N, 0) (1%N, 0%N, 0) (2%N, 0%N, 0) 0) 1%N isT.
have := cop (0%N, 0%N); rewrite /slot_pos /= => /(_ _) cc.
move: r0 r1 cc; rewrite /relation_holds /= => -> -> cc.
have /cc : (0%N, 0%N) \in slots n.
  by case: n n2 {cop cc} => // k _; rewrite /slots allpairs_consl mem_cat map_f // mem_iota.
by rewrite !addr0 => /eqP; rewrite oner_eq0.
Qed.

Lemma clash_compiles (P : fft_field F) : (1 <= two_adicity P)%N ->
  exists2 cc, compile P (build clash) = Ret cc & cc_size cc = 2%N.
Proof. by move=> h; rewrite compileE /= h /=; eexists. Qed.

(* a prover that always sends zero *)
Definition zero_strategy : strategy F :=
  @Strategy F 0 0 0 (fun _ _ => 0) (fun _ _ _ => 0) (fun _ _ _ => 0) (fun _ _ _ => 0)
    (fun _ _ _ _ => 0) (fun _ _ _ _ => 0) (fun _ _ _ _ => 0)
    (fun _ _ _ _ => 0) (fun _ _ _ _ => 0) (fun _ _ _ _ => 0)
    (fun _ _ _ _ _ => 0) (fun _ _ _ _ _ => 0) (fun _ _ _ _ _ _ => 0%N).
Lemma zero_bounded N D : (0 < D)%N -> strategy_bounded N D zero_strategy.
Proof. by move=> D0 beta gamma alpha zeta v u; split=> //=; rewrite size_poly0. Qed.

End AnyField.

(* C76 for the scalar field of BLS12-381 *)
Lemma pow2_gt0 k : (0 < 2 ^ k)%N.
Proof. by rewrite expn_gt0. Qed.
Lemma pow2_ge2 k : (0 < k)%N -> (2 <= 2 ^ k)%N.
Proof. by case: k => // k _; rewrite expnS; have := pow2_gt0 k; lia. Qed.

Section Bls.
Variable p : nat.
Hypothesis p_prime : prime p.
Lemma card_self : #|[finFieldType of 'F_p]| = p.
Proof. exact: card_Fp. Qed.
End Bls.

Example negligible_bls : exists (F : finFieldType) (E : pairing_group F) (X : plonk_env E)
  (calls : seq (gate_call F)) (cc : compiled_circuit F) (S : strategy F),
  [/\ #|F| = N.to_nat bls_r, pk_fft X = bls_fft F, pairing_ok E,
      compile (pk_fft X) (build calls) = Ret cc &
      [/\ (cc_size cc <= 2 ^ 28)%N, (cc_size cc <= 2 ^ 32)%N, strategy_bounded (2 ^ 32) (2 ^ 64) S,
          (forall val, ~ satisfies calls (cc_size cc) val) &
          (2 ^ 120 * #|[set r : coins F | accepts_at (pk_fft X) cc r (run_proof E S r)]| <= #|F| ^ 7)%N]].
Proof.
have := @card_self _ C63_bls_prime; set F := [finFieldType of 'F_(N.to_nat bls_r)] => card.
have [cc compiled sz] := @clash_compiles F (bls_fft F) isT.
have small k : (0 < k)%N -> (cc_size cc <= 2 ^ k)%N by rewrite sz; apply: pow2_ge2.
have unsat val : ~ satisfies (clash F) (cc_size cc) val.
  by apply: clash_unsat; rewrite sz.
have bd := @zero_bounded F (2 ^ 32)%N (2 ^ 64)%N (pow2_gt0 64%N).
exists F, (self_groups F), (self_env (bls_fft F)), (clash F), cc, (zero_strategy F).
split; [exact: card|reflexivity|exact: self_ok|exact: compiled|].
split; [exact: (small 28%N isT)|exact: (small 32%N isT)|exact: bd|exact: unsat|].
exact: (@C76_bls_negligible F (self_groups F) (self_env (bls_fft F)) (clash F) cc (2 ^ 32)%N (zero_strategy F)
  card erefl (@self_ok F) compiled (small 28%N isT) (small 32%N isT) (leqnn _) bd (unsat _)).
Qed.
