(* C74: the proof's degree field and machine integers. *)
From Coq Require Import String Ascii NArith.
Set Warnings "-notation-overridden,-ambiguous-paths".
From mathcomp Require Import all_ssreflect all_algebra.
From mathcomp Require Import zify ring.
From Verif Require Import Base BaseLemmas ArkPoly ArkPolyLemmas ArkDomain ArkDomainLemmas
  ArkPolyFft ArkPolyFftLemmas KzgModel KzgSpec KzgLemmas KzgProps PlonkModel PlonkSpec PlonkLemmas PlonkRefine PlonkProve PlonkVerify
  PlonkCompile PlonkProps PlonkForgeProps PlonkMachine.

Set Implicit Arguments.
Unset Strict Implicit.
Unset Printing Implicit Defensive.

Import GRing.Theory.
Local Open Scope ring_scope.


(* The equation checked when the exponents of the two upper quotient parts are
   e_mid and e_hi instead of d and 2 d (d one more than the degree field). *)
Definition equation_with (F : fieldType) (E : pairing_group F) (X : plonk_env E) (cc : compiled_circuit F)
  (s : F) (T : bytes -> bytes) (pf : proof E) (e_mid e_hi : nat) : bool :=
  let zeta := ch_zeta X T pf in let u := ch_u X T pf in let d := (pf_degree pf).+1 in
  (s - zeta) *: w_ev_x_commit pf + (u * (s - zeta * omega_of (pk_fft X) cc)) *: w_ev_wx_commit pf
  == vs_F X cc s T pf - vs_e X cc T pf *: g1_gen E
     + (zeta ^+ cc_size cc - 1) *: ((zeta ^+ d - zeta ^+ e_mid) *: t_mid_commit pf
                                    + (zeta ^+ (2 * d) - zeta ^+ e_hi) *: t_hi_commit pf).

Section C74.
Variables (F : fieldType) (E : pairing_group F) (X : plonk_env E).
Hypotheses (okE : pairing_ok E) (ok : fft_ok (pk_fft X)).
Variables (calls : seq (gate_call F)) (cc : compiled_circuit F).
Hypothesis compiled : compile (pk_fft X) (build calls) = Ret cc.
Variables (s : F) (m : nat).
Hypothesis nm : (cc_size cc <= m)%N.
Local Notation srs := (srs_new_from_secret E s m).

(* For degree fields below half the word range (minus one) machine arithmetic is
   exact, in both build profiles. *)
Theorem C74_small_degrees checked bits T S (pf : proof E) :
  (2 * (pf_degree pf).+1 < 2 ^ bits)%N ->
  verify_machine X checked bits T cc S pf = verify X T cc S pf.
Proof.
move=> lt; rewrite /verify_machine /verify.
have l1 : (pf_degree pf + 1 < 2 ^ bits)%N by apply: leq_ltn_trans lt; clear; lia.
have l2 : (pf_degree pf * 2 < 2 ^ bits)%N by apply: leq_ltn_trans lt; clear; lia.
have l3 : (pf_degree pf * 2 + 2 < 2 ^ bits)%N by apply: leq_ltn_trans lt; clear; lia.
case: (get_circuit_commitment _ _) => [cs| |] //=.
case: (verify_challenges _ _ _ _) => [[[[[[al be] ga] ec] v] u]| |] //=.
case: ifP => // _; case: (unwrap _) => [dom| |] //=; case: (fdiv _ _) => [l| |] //=.
by do 3!rewrite word_small // bindRet.
Qed.

Lemma ver_d_expE cs (pf : proof E) alpha beta gamma ec u z_h_e l_1_e e_mid e_hi :
  ver_d_exp cc cs pf alpha beta gamma ec u z_h_e l_1_e e_mid e_hi =
  ver_d cc cs pf alpha beta gamma ec u z_h_e l_1_e +
  z_h_e *: ((ec ^+ (pf_degree pf + 1) - ec ^+ e_mid) *: t_mid_commit pf
            + (ec ^+ (pf_degree pf * 2 + 2) - ec ^+ e_hi) *: t_hi_commit pf).
Proof.
rewrite /ver_d_exp /ver_d /com_sub /com_add /com_mul /com_neg -[in RHS]addrA; congr (_ + _).
rewrite -!scalerN -scalerDr; congr (_ *: _); rewrite !scalerBl.
move: (t_lo_commit pf) (_ *: _) (_ *: _) (_ *: _) (_ *: _) => lo x1 y1 x2 y2.
rewrite addrACA -[lo + y1 + x1]addrA; move: (y1 + x1) => a.
by rewrite !opprD -!addrA addKr.
Qed.

(* The exact verdict of the machine verifier: with overflow checks it panics on
   every proof that passes the challenge check and whose degree field is at least
   half the word range (minus one); without them the exponents wrap around. *)
Theorem C74_machine_verdict checked bits T (pf : proof E) : digest_long T ->
  let d := (pf_degree pf).+1 in
  verify_machine X checked bits T cc srs pf =
  if pf_u pf != ch_u X T pf then Err "Verify: Challenge verification failed."
  else if ch_zeta X T pf == 1 then Panic
  else if checked && (2 ^ bits <= 2 * d)%N then Panic
  else if equation_with X cc s T pf (d %% 2 ^ bits) ((2 * d) %% 2 ^ bits) then Ret tt
  else Err "Verify: Pairing failed, rejected".
Proof.
move=> long d; have wf := compiled_wf compiled.
rewrite /verify_machine (circuit_commitmentE s wf nm) bindRet (verify_challengesE X s m long) bindRet.
lazy beta iota zeta; rewrite eq_sym; case: eqP => //= _.
rewrite (wf_domain wf) /= /fdiv mulf_eq0 (negbTE (wf_nz ok wf)) /= subr_eq0.
case: eqP => //= _.
have Ed1 : (pf_degree pf + 1)%N = d by rewrite addn1.
have Ed2 : (pf_degree pf * 2 + 2)%N = (2 * d)%N by rewrite /d; clear; lia.
have [/andP[-> big]|small] := boolP (checked && _).
  rewrite Ed1 /word; case: ifP => //= _; case: ifP => //= _.
  by rewrite Ed2 ltnNge big.
have W3 (A : Type) (kk : nat -> nat -> outcome A) :
   (e_mid <- word checked bits (pf_degree pf + 1);; twice <- word checked bits (pf_degree pf * 2);;
    e_hi <- word checked bits (twice + 2);; kk e_mid e_hi) = kk (d %% 2 ^ bits)%N ((2 * d) %% 2 ^ bits)%N.
  rewrite Ed1; case: checked small => [/= | _].
    rewrite -ltnNge => lt; have lt1 : (d < 2 ^ bits)%N by apply: leq_ltn_trans lt; clear; lia.
    have lt2 : (pf_degree pf * 2 < 2 ^ bits)%N by apply: leq_ltn_trans lt; rewrite /d; clear; lia.
    rewrite word_small // bindRet word_small // bindRet word_small ?Ed2 // bindRet.
    by rewrite !modn_small.
  by rewrite !word_wraps !bindRet word_wraps bindRet modnDml Ed2.
rewrite W3 commit_paraE bindRet ver_d_expE Ed1 Ed2.
set zeta := ch_zeta X T pf; set corr := (_ *: (_ *: t_mid_commit pf + _)).
set lhs := com_add _ _; set rhs := com_sub _ _.
rewrite (pairing_scaler okE) -(pairing_scalel okE) (pair_inj okE).
set e1 := (d %% _)%N; set e2 := ((2 * d) %% _)%N.
have -> : (s *: lhs == rhs) = equation_with X cc s T pf e1 e2; last by case: equation_with.
rewrite /equation_with -/zeta.
set u := ch_u X T pf in lhs rhs *.
set W := w_ev_x_commit pf in lhs rhs *; set W' := w_ev_wx_commit pf in lhs rhs *.
pose q : G1 E := zeta *: W + (u * zeta * omega_of (pk_fft X) cc) *: W'.
rewrite -(inj_eq (addrI (- q))); congr (_ == _).
  rewrite /lhs /com_add /com_mul /q scalerDr !scalerA opprD addrACA -!scaleNr -!scalerDl.
  by congr (_ *: _ + _ *: _); ring.
rewrite /rhs /com_sub /com_neg /com_add /com_mul /dom_element /= expr1 -/q -addrA addKr.
rewrite -/d -/corr addrAC; congr (_ - _ *: _).
  rewrite /vs_F /ver_f /com_add /com_mul /=.
  have last7 (D c x1 x2 x3 x4 x5 : G1 E) :
    D + c + x1 + x2 + x3 + x4 + x5 = D + x1 + x2 + x3 + x4 + x5 + c.
    by rewrite -[D + c + _]addrAC -[_ + c + x2]addrAC -[_ + c + x3]addrAC
               -[_ + c + x4]addrAC -[_ + c + x5]addrAC.
  rewrite last7; congr (_ + _).
  congr (_ + _ + _ *: _ + _ *: _ + _ *: _ + _ *: _); try by rewrite -?expr2 -?exprSr.
  rewrite /vs_D /ver_d /com_sub /com_add /com_mul /com_neg /vs_lagrange /=.
  rewrite -/zeta -/u Ed1 Ed2.
  congr (_ + _ *: _ - _ *: _ - _ *: (_ + _)).
  - by move: (_ / _) => L; ring.
  - by ring.
rewrite /ver_e /vs_e /ver_r0 /vs_r0 pevalE /vs_lagrange -/zeta -/u.
by move: (_ / _) (Poly _).[_] => L p; ring.
Qed.

(* Every accepted proof turns into one on which the checked build panics, by
   raising its degree field and changing nothing else. *)
Theorem C74_raised_degree_panics bits T (pf : proof E) (D : nat) : digest_long T ->
  verify_machine X true bits T cc srs pf = Ret tt -> (2 ^ bits <= 2 * D.+1)%N ->
  verify_machine X true bits T cc srs (with_degree pf D) = Panic.
Proof.
move=> long; rewrite !(C74_machine_verdict _ _ _ long).
rewrite -[ch_zeta X T (with_degree _ _)]/(ch_zeta X T pf).
rewrite -[ch_u X T (with_degree _ _)]/(ch_u X T pf).
rewrite -[pf_u (with_degree _ _)]/(pf_u pf) -[pf_degree (with_degree _ _)]/D => acc big.
by move: acc; case: ifP => // _; case: ifP => // _ _; rewrite big.
Qed.

(* No accepted proof is needed: whatever the other fields are, giving the field u
   the value of the final challenge and the degree field a large value makes the
   checked build panic. *)
Theorem C74_anyone_can_panic bits T (pf : proof E) (D : nat) : digest_long T ->
  (2 ^ bits <= 2 * D.+1)%N ->
  exists u, verify_machine X true bits T cc srs
    (with_degree (with_openings pf (w_ev_x_commit pf) (w_ev_wx_commit pf) u) D) = Panic.
Proof.
move=> long big; exists (ch_u X T pf); rewrite (C74_machine_verdict _ _ _ long).
set pf' := with_degree _ _.
rewrite -[ch_zeta X T pf']/(ch_zeta X T pf) -[ch_u X T pf']/(ch_u X T pf).
by rewrite -[pf_u pf']/(ch_u X T pf) -[pf_degree pf']/D eqxx big; case: ifP.
Qed.

(* Without overflow checks the only panic is the one at zeta = 1. *)
Theorem C74_unchecked_total bits T (pf : proof E) : digest_long T ->
  verify_machine X false bits T cc srs pf = Panic <->
  pf_u pf = ch_u X T pf /\ ch_zeta X T pf = 1.
Proof.
move=> long; rewrite (C74_machine_verdict _ _ _ long) andFb.
case: eqP => [e|ne]; first case: eqP => [z|nz]; last by split=> // -[].
  by split.
by case: ifP => _; split=> // -[].
Qed.

(* The prover's own proofs are unaffected, in both builds, as long as twice the
   padded circuit size plus four fits the word. *)
Theorem C74_honest_proofs checked bits T b (pf : proof E) : digest_long (pk_sha256 X) ->
  (2 * cc_size cc + 4 < 2 ^ bits)%N -> generate_proof X T b cc srs = Ret pf ->
  verify_machine X checked bits (pk_sha256 X) cc srs pf =
  if ch_zeta X (pk_sha256 X) pf == 1 then Panic else Ret tt.
Proof.
move=> long fits gen.
rewrite C74_small_degrees; first exact: (C49_completeness okE ok long compiled nm gen).
have [-> _ _ _] := generate_inv ok long compiled nm gen.
apply: leq_ltn_trans fits; rewrite -[pf_degree _]/(slice_len (hr_t X cc b s) - 1)%N.
have := slice_len_le b ok (compiled_wf compiled) (hr_beta X cc b s) (hr_gamma X cc b s) (hr_alpha X cc b s).
rewrite -/(hr_t X cc b s); move: (slice_len _) (cc_size cc); clear; lia.
Qed.
End C74.
