(* Concrete cases meeting the hypotheses of C64-C68. *)
From Coq Require Import String Ascii NArith.
Set Warnings "-notation-overridden,-ambiguous-paths".
From mathcomp Require Import all_ssreflect all_algebra.
From mathcomp Require Import zify ring.
From Verif Require Import Base BaseLemmas ArkPoly ArkPolyLemmas ArkDomain ArkPolyFft KzgModel KzgSpec
  ArkDomainLemmas PlonkModel PlonkSpec PlonkLemmas PlonkCompile PlonkProps PlonkChallengeProps PlonkExamples
  PlonkSoundSpec PlonkSoundProps PlonkForgeProps.

Set Implicit Arguments.
Unset Strict Implicit.
Unset Printing Implicit Defensive.

Import GRing.Theory.
Local Open Scope ring_scope.

(* An honest accepted run of the repository's test circuit. *)
Example accepted_run97 : exists cc pf,
  [/\ compile P97 (build (calls97 25)) = Ret cc,
      generate_proof X97 (pk_sha256 X97) b97 cc (srs_new_from_secret E97 s97 (cc_size cc)) = Ret pf &
      verify X97 (pk_sha256 X97) cc (srs_new_from_secret E97 s97 (cc_size cc)) pf = Ret tt].
Proof.
exact: (@run_accepted K97 E97 X97 b97 s97 (calls97 25) accepted97).
Qed.

(* C67: the honest proof is accepted, has explaining polynomials, and C67's
   conclusion is the first alternative for it. *)
Example sound97 : exists cc pf M,
  [/\ compile P97 (build (calls97 25)) = Ret cc,
      explains s97 (cc_size cc + 3) M pf &
      verify X97 (pk_sha256 X97) cc (srs_new_from_secret E97 s97 (cc_size cc)) pf = Ret tt].
Proof.
have [cc [pf [Ec Eg Ev]]] := accepted_run97.
have [M ex] := C67_honest_explained (ok97 : fft_ok (pk_fft X97)) long97 Ec (leqnn _) Eg.
by exists cc, pf, M; split.
Qed.

(* C64: the same proof is accepted for other public inputs. *)
Example other_publics97 : exists pf ps cc',
  [/\ ps <> publics (calls97 25), compile P97 (build (with_publics (calls97 25) ps)) = Ret cc' &
      exists S, verify X97 (pk_sha256 X97) cc' S pf = Ret tt].
Proof.
have [cc [pf [Ec _ Ev]]] := accepted_run97.
have [ps [cc' [_ ne Ec' Ev']]] :=
  C64_accepted_for_others okE97 (ok97 : fft_ok (pk_fft X97)) Ec (leqnn _) long97 Ev.
by exists pf, ps, cc'; split=> //; eexists; exact: Ev'.
Qed.

(* C65: two constant gates with different constants on linked wires; no public
   input of the third gate makes it satisfiable, but for one of them a proof is
   accepted. *)
Definition broken97 : seq (gate_call K97) :=
  [:: GateCall Constant (w97 0 1 3) (w97 1 0 0) (w97 2 0 0) 0;
      GateCall Constant (w97 0 0 4) (w97 1 1 0) (w97 2 1 0) 0;
      GateCall Addition (w97 0 2 0) (w97 1 2 0) (w97 2 2 0) 0].

Lemma broken_unsat97 p n val : (2 <= n)%N ->
  ~ satisfies (with_publics broken97 (set_nth 0 (publics broken97) 2 p)) n val.
Proof.
move=> n2 [rel cop].
have r0 := rel (GateCall Constant (w97 0 0 0) (w97 0 0 0) (w97 0 0 0) 0) 0%N isT.
have r1 := rel (GateCall Constant (w97 0 0 0) (w97 0 0 0) (w97 0 0 0) 0) 1%N isT.
have := cop (0%N, 0%N); rewrite /slot_pos /= => /(_ _) cc.
move: r0 r1 cc; rewrite /relation_holds /= => -> -> cc.
have /cc : (0%N, 0%N) \in slots n.
  by case: n n2 {cop cc} => // k _; rewrite /slots allpairs_consl mem_cat map_f // mem_iota.
by move/eqP; vm_compute.
Qed.

Definition zeta97 : K97 := fs_challenge X97 (pk_sha256 X97) (nseq 7 (0 : G1 E97)) 0.
Example zeta_outside97 : zeta97 ^+ 4 != 1.
Proof. by vm_compute. Qed.

Example forged97 : exists p cc' pf,
  [/\ compile P97 (build (with_publics broken97 (set_nth 0 (publics broken97) 2 p))) = Ret cc',
      (forall n val, (2 <= n)%N ->
         ~ satisfies (with_publics broken97 (set_nth 0 (publics broken97) 2 p)) n val) &
      verify X97 (pk_sha256 X97) cc' (srs_new_from_secret E97 s97 4) pf = Ret tt].
Proof.
have : (if compile P97 (build broken97) is Ret _ then true else false) = true by vm_compute.
case Ec: (compile P97 (build broken97)) => [cc|m|] // _.
have sz : cc_size cc = 4%N by have [-> _ _ _] := compile_inv Ec.
have := C65_forgery_outside_domain okE97 (ok97 : fft_ok (pk_fft X97)) Ec long97 (isT : (2 < size broken97)%N).
rewrite -/zeta97 /= => C65.
have [|p [W [cc' [Ec' H]]]] := C65; first by rewrite sz; apply/eqP; exact: zeta_outside97.
have [|cW [u [_ Hv]]] := H s97 4%N; first by rewrite sz.
by exists p, cc'; eexists; split; [exact: Ec'|move=> n val; exact: broken_unsat97|exact: Hv].
Qed.

(* C66: a prefix (zero commitments, wrong values) meeting the hypotheses. *)
Definition prefix97 : proof E97 := {|
  a_commit := 0; b_commit := 0; c_commit := 0; z_commit := 0;
  t_lo_commit := 0; t_mid_commit := 0; t_hi_commit := 0; w_ev_x_commit := 0; w_ev_wx_commit := 0;
  bar_a := 1; bar_b := 2%:R; bar_c := 3%:R; bar_s_sigma_1 := 4%:R; bar_s_sigma_2 := 5%:R; bar_z_w := 6%:R;
  pf_u := 0; pf_degree := 5 |}.
Lemma prefix_zeta97 : ch_zeta X97 (pk_sha256 X97) prefix97 = zeta97.
Proof. by rewrite /ch_zeta /zeta97; congr fs_challenge. Qed.
Example trapdoor97 : exists cc pf, compile P97 (build broken97) = Ret cc /\
  bar_a pf = 1 /\ verify X97 (pk_sha256 X97) cc (srs_new_from_secret E97 s97 4) pf = Ret tt.
Proof.
have : (if compile P97 (build broken97) is Ret cc
        then [&& zeta97 != 1, s97 != zeta97 & s97 != zeta97 * omega_of P97 cc] else false) = true.
  by vm_compute.
have [z Ez] : {z | zeta97 = z} by exists zeta97.
rewrite Ez.
case Ec: (compile P97 (build broken97)) => [cc|m|]; [|by []|by []].
case/and3P => /eqP z1 /eqP z2 /eqP z3.
have sz : (cc_size cc <= 4)%N by have [-> _ _ _] := compile_inv Ec.
have := @C66_trapdoor_forgery _ _ _ okE97 (ok97 : fft_ok (pk_fft X97)) _ _ Ec s97 _ sz _ prefix97 long97.
rewrite prefix_zeta97 Ez => /(_ z1 z2 z3)[W [Ww [u Hv]]].
by exists cc; eexists; split; first by []; split; last exact: Hv.
Qed.
