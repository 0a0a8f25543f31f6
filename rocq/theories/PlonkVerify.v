(* The verifier of PlonkModel.v against the equation of PlonkSpec.v, and its
   value on the honest proof. *)
From Coq Require Import String Ascii NArith.
Set Warnings "-notation-overridden,-ambiguous-paths".
From mathcomp Require Import all_ssreflect all_algebra.
From mathcomp Require Import zify ring.
From Verif Require Import Base BaseLemmas ArkPoly ArkPolyLemmas ArkDomain ArkDomainLemmas
  ArkPolyFft ArkPolyFftLemmas KzgModel KzgSpec KzgLemmas KzgProps
  PlonkModel PlonkSpec PlonkLemmas PlonkRefine PlonkProve.

Set Implicit Arguments.
Unset Strict Implicit.
Unset Printing Implicit Defensive.

Import GRing.Theory.
Local Open Scope ring_scope.

Section Lagrange0.
Variables (F : fieldType) (n : nat) (w : F).
Hypotheses (prim : n.-primitive_root w) (nz : n%:R != 0 :> F).

Lemma lagrange0_sum : lagrange n w 0 = n%:R^-1 *: \sum_(i < n) 'X^i.
Proof.
have n0 := prim_order_gt0 prim.
apply: (@poly_eq_roots F (Domain n w) prim) => /=.
- exact: size_lagrange.
- apply: size_scale_le; apply: leq_trans (size_sum _ _ _) _; apply/bigmax_leqP => i _.
  by rewrite size_polyXn.
move=> i li; rewrite (lagrangeE prim) // hornerZ horner_sum.
case: i li => [|i] li.
  under eq_bigr => j _ do rewrite expr0 hornerXn expr1n.
  by rewrite sumr_const card_ord mulVf.
under eq_bigr => j _ do rewrite hornerXn.
suff -> : \sum_(j < n) (w ^+ i.+1) ^+ j = 0 by rewrite mulr0.
have := subrX1 (w ^+ i.+1) n.
rewrite -exprM mulnC exprM (prim_expr_order prim) expr1n subrr => /esym/eqP.
rewrite mulf_eq0 => /orP[|/eqP //]; rewrite subr_eq0 -[X in _ == X](expr0 w).
by rewrite (root_inj prim).
Qed.

Lemma lagrange0E zeta : zeta != 1 -> (lagrange n w 0).[zeta] = (zeta ^+ n - 1) / (n%:R * (zeta - 1)).
Proof.
move=> z1; rewrite lagrange0_sum hornerZ horner_sum.
under eq_bigr => j _ do rewrite hornerXn.
rewrite subrX1; have z0 : zeta - 1 != 0 by rewrite subr_eq0.
by move: (\sum_(_ < _) _) => q; field; rewrite nz z0.
Qed.

End Lagrange0.

Lemma divp_at (F : fieldType) (f : {poly F}) (z x : F) : f.[z] = 0 ->
  (x - z) * (f %/ ('X - z%:P)).[x] = f.[x].
Proof.
move=> fz; have dv : 'X - z%:P %| f by rewrite dvdp_XsubCl; apply/rootP.
by rewrite -[in RHS](divpK dv) hornerM !hornerE mulrC.
Qed.

Section Verify.
Variables (F : fieldType) (E : pairing_group F) (X : plonk_env E).
Variables (cc : compiled_circuit F) (s : F) (m : nat) (T : bytes -> bytes).
Local Notation P := (pk_fft X).
Hypotheses (okE : pairing_ok E) (ok : fft_ok P) (wf : wf_compiled P cc).
Hypotheses (nm : (cc_size cc <= m)%N) (long : digest_long T).
Local Notation n := (cc_size cc).
Local Notation w := (omega_of P cc).
Local Notation g := (cc_gate cc).
Local Notation k := (cc_copy cc).
Local Notation S := (srs_new_from_secret E s m).
Local Notation com p := (commitment_of E s (Poly p)).

Lemma commit_stored p : trimmed p /\ (size (Poly p) <= n)%N -> kzg_commit S p = Ret (com p).
Proof.
case=> tp sz; rewrite commit_normal ?trimmed_normal // ifT //.
by apply: leq_trans sz (leq_trans nm _); apply: leq_addr.
Qed.

Lemma circuit_commitmentE : get_circuit_commitment cc S = Ret
  [:: com (q_mx g); com (q_lx g); com (q_rx g); com (q_ox g); com (q_cx g);
      com (s_sigma_1 k); com (s_sigma_2 k); com (s_sigma_3 k)].
Proof.
rewrite /get_circuit_commitment /omapM.
rewrite (commit_stored (wf_qm wf)) bindRet (commit_stored (wf_ql wf)) bindRet.
rewrite (commit_stored (wf_qr wf)) bindRet (commit_stored (wf_qo wf)) bindRet.
rewrite (commit_stored (wf_qc wf)) bindRet (commit_stored (wf_s1 wf)) bindRet.
by rewrite (commit_stored (wf_s2 wf)) bindRet (commit_stored (wf_s3 wf)) bindRet !bindRet.
Qed.

Lemma verify_challengesE pf : verify_challenges X T S pf =
  Ret (ch_alpha X T pf, ch_beta X T pf, ch_gamma X T pf, ch_zeta X T pf, ch_v X T pf, ch_u X T pf).
Proof.
rewrite /verify_challenges -/(fed1 pf) from_commitments_chain challenge2_chain // bindRet.
lazy beta iota zeta; rewrite feed_chain -cats1 -/(fed1 pf) -/(fed2 pf) challenge1_chain // bindRet.
lazy beta iota zeta.
have feed3 x y z c d : cg_feed X T (cg_feed X T
    (cg_feed X T (ChallengeGen (Some (fs_chain X T c)) d) x) y) z =
    ChallengeGen (Some (fs_chain X T (c ++ [:: x; y; z]))) false.
  exact: (feeds_chain X T c d x [:: y; z]).
rewrite feed3 -/(fed3 pf) challenge1_chain // bindRet; lazy beta iota zeta.
rewrite !commit_paraE !bindRet.
rewrite -[foldl _ _ _]/(foldl (cg_feed X T) (ChallengeGen (Some (fs_chain X T (fed3 pf))) true)
  [seq y *: g1_gen E | y <- [:: bar_a pf; bar_b pf; bar_c pf; bar_s_sigma_1 pf;
                                bar_s_sigma_2 pf; bar_z_w pf]]).
rewrite feeds_chain -/(fed4 pf) challenge1_chain // bindRet; lazy beta iota zeta.
have feed2 x y c d : cg_feed X T
    (cg_feed X T (ChallengeGen (Some (fs_chain X T c)) d) x) y =
    ChallengeGen (Some (fs_chain X T (c ++ [:: x; y]))) false.
  exact: (feeds_chain X T c d x [:: y]).
by rewrite feed2 -/(fed5 pf) challenge1_chain // bindRet.
Qed.

Theorem verifyE pf : verify X T cc S pf =
  if pf_u pf != ch_u X T pf then Err "Verify: Challenge verification failed."
  else if ch_zeta X T pf == 1 then Panic
  else if verifier_equation X cc s T pf then Ret tt
  else Err "Verify: Pairing failed, rejected".
Proof.
rewrite /verify circuit_commitmentE bindRet verify_challengesE bindRet.
lazy beta iota zeta; rewrite eq_sym; case: eqP => //= _.
rewrite (wf_domain wf) /= /fdiv mulf_eq0 (negbTE (wf_nz ok wf)) /= subr_eq0.
case: eqP => //= _.
rewrite commit_paraE bindRet.
set zeta := ch_zeta X T pf.
set lhs := com_add _ _; set rhs := com_sub _ _.
rewrite (pairing_scaler okE) -(pairing_scalel okE) (pair_inj okE).
have -> : (s *: lhs == rhs) = verifier_equation X cc s T pf; last by case: verifier_equation.
rewrite /verifier_equation -/zeta.
set u := ch_u X T pf in lhs rhs *.
set W := w_ev_x_commit pf in lhs rhs *; set W' := w_ev_wx_commit pf in lhs rhs *.
pose q : G1 E := zeta *: W + (u * zeta * w) *: W'.
rewrite -(inj_eq (addrI (- q))); congr (_ == _).
  rewrite /lhs /com_add /com_mul /q scalerDr !scalerA opprD addrACA -!scaleNr -!scalerDl.
  by congr (_ *: _ + _ *: _); ring.
rewrite /rhs /com_sub /com_neg /com_add /com_mul /dom_element /= expr1 -/q -addrA addKr.
congr (_ - _ *: _).
  rewrite /vs_F /ver_f /com_add /com_mul /=.
  congr (_ + _ + _ *: _ + _ *: _ + _ *: _ + _ *: _); try by rewrite -?expr2 -?exprSr.
  rewrite /vs_D /ver_d /com_sub /com_add /com_mul /com_neg /vs_lagrange /=.
  rewrite -/zeta -/u addn1 [(2 * _)%N]mulnC mulSn addn2 muln2 -mul2n.
  rewrite [(2 * _)%N]mulnC.
  congr (_ + _ *: _ - _ *: _ - _ *: (_ + _)).
  - by move: (_ / _) => L; ring.
  - by ring.
rewrite /ver_e /vs_e /ver_r0 /vs_r0 pevalE /vs_lagrange -/zeta -/u.
by move: (_ / _) (Poly _).[_] => L p; ring.
Qed.

End Verify.

Section Honest.
Variables (F : fieldType) (E : pairing_group F) (X : plonk_env E).
Variables (cc : compiled_circuit F) (b : nat -> F) (s : F).
Local Notation P := (pk_fft X).
Hypotheses (ok : fft_ok P) (wf : wf_compiled P cc).
Local Notation n := (cc_size cc).
Local Notation w := (omega_of P cc).
Local Notation g := (cc_gate cc).
Local Notation k := (cc_copy cc).
Local Notation pf := (honest_proof X cc b s).
Local Notation beta := (hr_beta X cc b s).
Local Notation gamma := (hr_gamma X cc b s).
Local Notation alpha := (hr_alpha X cc b s).
Local Notation zeta := (hr_zeta X cc b s).
Local Notation v := (hr_v X cc b s).
Local Notation u := (hr_u X cc b s).
Local Notation t := (hr_t X cc b s).
Local Notation A := (hr_A cc b).
Local Notation B := (hr_B cc b).
Local Notation C := (hr_C cc b).
Local Notation z := (hr_z X cc b s).
Local Notation r := (hr_r X cc b s).
Hypotheses (dv : ZH F n %| constraint_poly n w cc b beta gamma alpha) (t0 : t != 0).

Lemma slices_at x : (slice_of t 0 + (x ^+ slice_len t) *: slice_of t 1 +
  (x ^+ (2 * slice_len t)) *: slice_of t 2).[x] = t.[x].
Proof. by rewrite [in RHS](slices_sum t) !(hornerD, hornerM, hornerZ, hornerXn). Qed.

Lemma r_zeta : r.[zeta] = 0.
Proof.
have := divpK dv; rewrite -[_ %/ _]/(t) => /(congr1 (fun f => f.[zeta])).
rewrite hornerM /constraint_poly /gate_poly /perm_poly.
rewrite /hr_r /linearisation -/t -/z -[wireA _ _ _]/A -[wireB _ _ _]/B -[wireC _ _ _]/C.
have := slices_at zeta; set sl := slice_of t 0 + _ + _ => Esl.
rewrite /lin_gate; move: A B C z sl (ZH F n) Esl => A' B' C' z' sl Z Esl.
rewrite !(hornerD, hornerM, hornerZ, hornerN, hornerC, hornerX, horner_comp).
rewrite Esl [w * zeta]mulrC.
move: A'.[_] B'.[_] C'.[_] z'.[zeta] z'.[zeta * w] (Z.[_]) t.[_] (Poly (q_mx g)).[_] (Poly (q_lx g)).[_]
  (Poly (q_rx g)).[_] (Poly (q_ox g)).[_] (Poly (q_cx g)).[_] (Poly (pi_x g)).[_]
  (Poly (s_sigma_1 k)).[_] (Poly (s_sigma_2 k)).[_] (Poly (s_sigma_3 k)).[_] (lagrange n w 0).[_].
move=> a0 b0 c0 z0 zw0 Z0 t1 qm ql qr qo qc p s1 s2 s3 L Et.
apply: (@eq_trans _ _ (t1 * Z0 - t1 * Z0)); last by rewrite subrr.
by rewrite {1}Et; ring.
Qed.


Lemma honest_equation : zeta != 1 -> verifier_equation X cc s (pk_sha256 X) pf.
Proof.
move=> z1.
have L1 := lagrange0E (wf_prim ok wf) (wf_nz ok wf) z1.
have dE : (pf_degree pf).+1 = slice_len t by rewrite /= subn1 prednK // slice_len_gt0.
rewrite /verifier_equation /vs_F /vs_D /vs_e /vs_r0 /vs_lagrange dE.
rewrite -[ch_zeta _ _ pf]/zeta -[ch_u _ _ pf]/u -[ch_v _ _ pf]/v -[ch_alpha _ _ pf]/alpha
  -[ch_beta _ _ pf]/beta -[ch_gamma _ _ pf]/gamma -L1.
rewrite [w_ev_x_commit _]/= [w_ev_wx_commit _]/= [z_commit _]/= [t_lo_commit _]/= [t_mid_commit _]/=
  [t_hi_commit _]/= [a_commit _]/= [b_commit _]/= [c_commit _]/= [bar_a _]/= [bar_b _]/= [bar_c _]/=
  [bar_s_sigma_1 _]/= [bar_s_sigma_2 _]/= [bar_z_w _]/=.
rewrite /commitment_of !scalerA -!(scalerDl, scalerBl) !scalerA -!(scalerDl, scalerBl).
apply/eqP; congr (_ *: _).
have Wz : (r - (r.[zeta])%:P + v *: (A - (A.[zeta])%:P) + (v ^+ 2) *: (B - (B.[zeta])%:P) +
   (v ^+ 3) *: (C - (C.[zeta])%:P) + (v ^+ 4) *: (Poly (s_sigma_1 k) - ((Poly (s_sigma_1 k)).[zeta])%:P) +
   (v ^+ 5) *: (Poly (s_sigma_2 k) - ((Poly (s_sigma_2 k)).[zeta])%:P)).[zeta] = 0.
  by rewrite !(hornerD, hornerZ, hornerN, hornerC) !subrr !mulr0 !addr0.
rewrite (divp_at s Wz) -mulrA /hr_Ww /openWw divp_at; last first.
  by rewrite hornerD hornerN hornerC subrr.
rewrite r_zeta polyC0 subr0 -/z /hr_r /linearisation -/t -/z.
rewrite -[wireA _ _ _]/A -[wireB _ _ _]/B -[wireC _ _ _]/C.
have -> : zeta ^+ n - 1 = (ZH F n).[zeta].
  by rewrite /ZH -polyC1 hornerD hornerN hornerXn hornerC.
rewrite /lin_gate; move: A B C z (lagrange n w 0) => A' B' C' z' L {Wz L1}.
rewrite !(hornerD, hornerM, hornerZ, hornerN, hornerC, hornerX).
move: A'.[zeta] A'.[s] B'.[zeta] B'.[s] C'.[zeta] C'.[s] z'.[s] z'.[zeta * w] => a a1 b0 b1 c c1 z1' zw.
move: (ZH F n).[zeta] L.[zeta] (zeta ^+ slice_len t) (zeta ^+ (2 * slice_len t)) => Zz Lz e1 e2.
move: (slice_of t 0).[s] (slice_of t 1).[s] (slice_of t 2).[s] => t1 t2 t3.
move: (Poly (q_mx g)).[_] (Poly (q_lx g)).[_] (Poly (q_rx g)).[_] (Poly (q_ox g)).[_] (Poly (q_cx g)).[_] => qm ql qr qo qc.
move: (Poly (pi_x g)).[_] (Poly (s_sigma_1 k)).[zeta] (Poly (s_sigma_1 k)).[s]
 (Poly (s_sigma_2 k)).[zeta] (Poly (s_sigma_2 k)).[s] (Poly (s_sigma_3 k)).[s] => p s1 s1s s2 s2s s3.
ring.
Qed.

End Honest.
