(* C64-C66, C68: what the PLONK transcript does not bind, and forgeries. *)
From Coq Require Import String Ascii NArith.
Set Warnings "-notation-overridden,-ambiguous-paths".
From mathcomp Require Import all_ssreflect all_algebra.
From mathcomp Require Import zify ring.
From Verif Require Import Base BaseLemmas ArkPoly ArkPolyLemmas ArkDomain ArkDomainLemmas
  ArkPolyFft ArkPolyFftLemmas KzgModel KzgSpec KzgLemmas PlonkModel PlonkSpec PlonkLemmas PlonkRefine
  PlonkProve PlonkVerify PlonkCompile PlonkProps PlonkSoundSpec.

Set Implicit Arguments.
Unset Strict Implicit.
Unset Printing Implicit Defensive.

Import GRing.Theory.
Local Open Scope ring_scope.

Section Publics.
Variables (F : fieldType) (P : fft_field F).
Hypothesis ok : fft_ok P.
Implicit Types (calls : seq (gate_call F)) (ps : seq F).

Lemma size_with_publics calls ps : size ps = size calls -> size (with_publics calls ps) = size calls.
Proof. by move=> sz; rewrite size_map size_zip sz minnn. Qed.

Lemma map_with_publics (A : Type) (f : gate_call F -> A) calls ps : size ps = size calls ->
  (forall g p, f (GateCall (call_type g) (call_a g) (call_b g) (call_c g) p) = f g) ->
  map f (with_publics calls ps) = map f calls.
Proof.
move=> sz H; rewrite -map_comp.
have -> : map f calls = map (f \o fst) (zip calls ps).
  by rewrite map_comp -/(unzip1 _) unzip1_zip // sz.
by apply: eq_map => gp /=; rewrite H.
Qed.

Lemma publics_with calls ps : size ps = size calls -> publics (with_publics calls ps) = ps.
Proof.
move=> sz; rewrite /publics /with_publics -map_comp.
by rewrite -[RHS](@unzip2_zip _ _ calls ps) ?sz.
Qed.

Lemma with_publics_id calls : with_publics calls (publics calls) = calls.
Proof. by rewrite /with_publics /publics; elim: calls => //= -[? ? ? ? ?] s ->. Qed.

Lemma slot_pos_with calls ps x : size ps = size calls ->
  slot_pos (with_publics calls ps) x = slot_pos calls x.
Proof.
rewrite /slot_pos /with_publics; case: x => l i /=; move: (l, i) => dflt.
by elim: calls ps i => [|g s IH] [|p ps] [|i] //= [sz]; rewrite IH.
Qed.

(* the compiled circuit with other public inputs: only the polynomial of the
   public inputs changes *)
Definition republished (cc : compiled_circuit F) (pi : seq F) : compiled_circuit F :=
  let g := cc_gate cc in
  CompiledCircuit (cc_size cc) (GateConstraints (f_ax g) (f_bx g) (f_cx g) (q_lx g) (q_rx g) (q_ox g)
    (q_mx g) (q_cx g) pi) (cc_copy cc).

Lemma compile_with calls ps cc : size ps = size calls -> compile P (build calls) = Ret cc ->
  compile P (build (with_publics calls ps)) =
    Ret (republished cc (interpolate (cdom P calls) [seq - p | p <- ps])).
Proof.
move=> sz; rewrite !compileE size_with_publics // {1 2}/csize size_with_publics //.
have -> : positions_ok (with_publics calls ps) (next_power_of_two (size calls)) =
          positions_ok calls (csize calls).
  by apply: eq_all => x; rewrite slot_pos_with.
case: ifP => // _ [<-]; congr Ret.
rewrite /compiled_of /republished /cdom /cgen /csize size_with_publics //=.
have -> : [seq g_pi (gate_of g) | g <- with_publics calls ps] = [seq - p | p <- ps].
  rewrite -[ps in RHS](publics_with sz) /publics; move: (with_publics _ _) => gs; rewrite -map_comp.
  by apply: eq_map => g; rewrite /gate_of /=; case: (call_type g).
rewrite !map_with_publics //; try by move=> g p; rewrite /gate_of /=; case: (call_type g).
congr CompiledCircuit.
by congr CopyConstraints; congr interpolate; apply: eq_map => i; rewrite slot_pos_with.
Qed.

Lemma public_valueE calls ps zeta : (up_log 2 (size calls) <= two_adicity P)%N -> size ps = size calls ->
  (Poly (interpolate (cdom P calls) [seq - p | p <- ps])).[zeta] =
  - public_value (csize calls) (cgen P calls) ps zeta.
Proof.
move=> dle sz; have pr := cprim ok dle; have nz := cnz ok calls.
set n := csize calls in pr nz *; set w := cgen P calls in pr nz *.
have -> : Poly (interpolate (cdom P calls) [seq - p | p <- ps]) = interp n w (fun i => - nth 0 ps i).
  apply: interp_uniq => //; first exact: size_interpolate.
  move=> i li; rewrite (@interpolateE _ (cdom P calls) pr nz _ _ li).
  case: (ltnP i (size ps)) => h; first by rewrite (nth_map 0).
  by rewrite !nth_default ?size_map // oppr0.
rewrite /interp horner_sum /public_value -sumrN.
have le : (size ps <= n)%N by rewrite sz; exact: csize_ge.
rewrite (big_ord_widen n (fun i => - (nth 0 ps i * (lagrange n w i).[zeta])) le) [RHS]big_mkcond /=.
apply: eq_bigr => i _; rewrite hornerZ; case: ltnP => h; first by rewrite mulNr.
by rewrite nth_default // oppr0 mul0r.
Qed.

End Publics.

(* the verifier's equation with the part multiplied by u set apart *)
Section Core.
Variables (F : fieldType) (E : pairing_group F) (X : plonk_env E).
Variables (cc : compiled_circuit F) (s : F) (T : bytes -> bytes).
Local Notation com p := (commitment_of E s (Poly p)).
Local Notation g := (cc_gate cc).
Local Notation k := (cc_copy cc).

Definition vs_core (pf : proof E) : G1 E :=
  let a := bar_a pf in let b := bar_b pf in let c := bar_c pf in
  let s1 := bar_s_sigma_1 pf in let s2 := bar_s_sigma_2 pf in let zw := bar_z_w pf in
  let beta := ch_beta X T pf in let gamma := ch_gamma X T pf in let alpha := ch_alpha X T pf in
  let zeta := ch_zeta X T pf in let v := ch_v X T pf in let d := (pf_degree pf).+1 in
  let n := cc_size cc in
  ((a * b) *: com (q_mx g) + a *: com (q_lx g) + b *: com (q_rx g) + c *: com (q_ox g) + com (q_cx g)
  + (alpha * (a + beta * zeta + gamma) * (b + beta * cc_k1 k * zeta + gamma) *
       (c + beta * cc_k2 k * zeta + gamma) + alpha ^+ 2 * vs_lagrange X cc T pf) *: z_commit pf
  - (alpha * beta * (a + beta * s1 + gamma) * (b + beta * s2 + gamma) * zw) *: com (s_sigma_3 k)
  - (zeta ^+ n - 1) *: (t_lo_commit pf + zeta ^+ d *: t_mid_commit pf + zeta ^+ (2 * d) *: t_hi_commit pf))
  + v *: a_commit pf + v ^+ 2 *: b_commit pf + v ^+ 3 *: c_commit pf
  + v ^+ 4 *: com (s_sigma_1 k) + v ^+ 5 *: com (s_sigma_2 k)
  - (- vs_r0 X cc T pf + v * a + v ^+ 2 * b + v ^+ 3 * c + v ^+ 4 * s1 + v ^+ 5 * s2) *: g1_gen E.

Lemma zmod9 (V : zmodType) (x0 x1 x2 x3 x4 x5 y e f : V) :
  x0 + y + x1 + x2 + x3 + x4 + x5 + (e + f) = x0 + x1 + x2 + x3 + x4 + x5 + e + (y + f).
Proof.
rewrite -!addrA; congr (_ + _).
by do 5 (rewrite addrCA; congr (_ + _)); rewrite addrCA.
Qed.

Lemma equation_core (pf : proof E) : verifier_equation X cc s T pf =
  ((s - ch_zeta X T pf) *: w_ev_x_commit pf +
   (ch_u X T pf * (s - ch_zeta X T pf * omega_of (pk_fft X) cc)) *: w_ev_wx_commit pf ==
   vs_core pf + ch_u X T pf *: (z_commit pf - bar_z_w pf *: g1_gen E)).
Proof.
rewrite /verifier_equation; congr (_ == _).
rewrite /vs_F /vs_e [in RHS]scalerBr [in RHS]scalerA [in LHS]scalerDl opprD.
have -> : vs_D X cc s T pf = (vs_D X cc s T pf - ch_u X T pf *: z_commit pf) + ch_u X T pf *: z_commit pf.
  by rewrite subrK.
rewrite zmod9 /vs_core; congr (_ + _ + _ + _ + _ + _ - _ + _).
rewrite /vs_D; set x := _ + com (q_cx g); set y := (_ * _) *: com (s_sigma_3 k); set t := (_ - 1) *: _.
rewrite [in LHS]scalerDl; set z := (_ + _) *: z_commit pf; set uz := ch_u X T pf *: _.
by rewrite (addrA x) (addrAC (x + z) uz) (addrAC _ uz (- t)) addrK.
Qed.

End Core.

Section Unbound.
Variables (F : fieldType) (E : pairing_group F) (X : plonk_env E).
Hypotheses (okE : pairing_ok E) (ok : fft_ok (pk_fft X)).
Variables (calls : seq (gate_call F)) (cc : compiled_circuit F).
Hypothesis compiled : compile (pk_fft X) (build calls) = Ret cc.
Variables (s : F) (m : nat).
Hypothesis nm : (cc_size cc <= m)%N.
Local Notation srs := (srs_new_from_secret E s m).
Local Notation n := (cc_size cc).
Local Notation w := (omega_of (pk_fft X) cc).

Lemma accept_iff T (pf : proof E) : digest_long T ->
  verify X T cc srs pf = Ret tt <->
  [/\ pf_u pf = ch_u X T pf, ch_zeta X T pf != 1 & verifier_equation X cc s T pf].
Proof.
move=> long; rewrite (C52_verify okE ok compiled s nm pf) //; split.
  by case: eqP => //= ->; case: eqP => // _; case: ifP.
by case=> -> /negbTE -> ->; rewrite eqxx.
Qed.

Lemma nE : n = csize calls. Proof. by have [-> _ _ _] := compile_inv compiled. Qed.
Lemma wE : w = cgen (pk_fft X) calls.
Proof. by have [-> _ _ _] := compile_inv compiled; rewrite omega_compiled. Qed.
Lemma dleE : (up_log 2 (size calls) <= two_adicity (pk_fft X))%N.
Proof. by have [_ _ ? _] := compile_inv compiled. Qed.

Lemma pi_value zeta : (Poly (pi_x (cc_gate cc))).[zeta] = - public_value n w (publics calls) zeta.
Proof.
rewrite nE wE -(public_valueE ok) ?dleE ?size_map //.
have := compile_with (size_map _ _ : size (publics calls) = size calls) compiled.
by rewrite with_publics_id compiled => -[{1}->].
Qed.

(* ------------------------------------------------------------------ *)
(* C64: the public inputs enter verification only through the value of their
   polynomial at zeta. *)
Theorem C64_public_inputs_unbound T (pf : proof E) (ps : seq F) : digest_long T ->
  size ps = size calls ->
  let zeta := ch_zeta X T pf in
  public_value n w ps zeta = public_value n w (publics calls) zeta ->
  exists2 cc', compile (pk_fft X) (build (with_publics calls ps)) = Ret cc' &
    verify X T cc' srs pf = verify X T cc srs pf.
Proof.
move=> long sz zeta Ev; have Ec := compile_with sz compiled; eexists; first exact: Ec.
rewrite (C52_verify okE ok Ec s nm pf) // (C52_verify okE ok compiled s nm pf) //.
rewrite /verifier_equation /vs_F /vs_D /vs_e /vs_r0 /= -/zeta pi_value.
by rewrite (public_valueE ok) ?dleE // -nE -wE Ev.
Qed.

(* Hence every accepted proof is also accepted for other public inputs. *)
Theorem C64_accepted_for_others T (pf : proof E) : digest_long T ->
  verify X T cc srs pf = Ret tt ->
  exists ps cc', [/\ size ps = size calls, ps <> publics calls,
    compile (pk_fft X) (build (with_publics calls ps)) = Ret cc' & verify X T cc' srs pf = Ret tt].
Proof.
move=> long acc; set zeta := ch_zeta X T pf.
have [_ gt1 _ _] := compile_inv compiled.
set l0 := (lagrange n w 0).[zeta]; set l1 := (lagrange n w 1).[zeta].
have [d0 [d1 [Ed nd]]] : exists d0 d1 : F, d0 * l0 + d1 * l1 = 0 /\ (d0 != 0) || (d1 != 0).
  have [z|nz] := eqVneq l0 0; first by exists 1, 0; rewrite z mulr0 mul0r addr0 oner_eq0.
  by exists l1, (- l0); rewrite mulNr mulrC subrr oppr_eq0 nz orbT.
have Esz : size (publics calls) = size calls by rewrite size_map.
case Ep: (publics calls) Esz => [|p0 [|p1 ps]] sz; rewrite -sz // in gt1.
pose ps' := [:: p0 + d0, p1 + d1 & ps].
have [cc' Ec' Ev] : exists2 cc', compile (pk_fft X) (build (with_publics calls ps')) = Ret cc' &
    verify X T cc' srs pf = verify X T cc srs pf.
  apply: C64_public_inputs_unbound => //; rewrite -/zeta Ep /public_value /= !big_ord_recl /=.
  move: (\sum_(_ < _) _) => r.
  rewrite -/l0 -/l1 !mulrDl.
  by rewrite -[RHS]addr0 -Ed; move: (p0 * l0) (d0 * l0) (p1 * l1) (d1 * l1) => x1 x2 x3 x4; ring.
exists ps', cc'; split=> //; last by rewrite Ev.
case=> /eqP; rewrite -subr_eq0 addrC addKr => /eqP e0 /eqP; rewrite -subr_eq0 addrC addKr => /eqP e1.
by move: nd; rewrite e0 e1 eqxx.
Qed.


(* ------------------------------------------------------------------ *)
(* C66: whoever knows the secret of the reference string completes any content
   of the first four rounds to an accepted proof. *)
Definition with_openings (pf : proof E) (W Ww : G1 E) (u : F) : proof E := {|
  a_commit := a_commit pf; b_commit := b_commit pf; c_commit := c_commit pf; z_commit := z_commit pf;
  t_lo_commit := t_lo_commit pf; t_mid_commit := t_mid_commit pf; t_hi_commit := t_hi_commit pf;
  w_ev_x_commit := W; w_ev_wx_commit := Ww;
  bar_a := bar_a pf; bar_b := bar_b pf; bar_c := bar_c pf;
  bar_s_sigma_1 := bar_s_sigma_1 pf; bar_s_sigma_2 := bar_s_sigma_2 pf; bar_z_w := bar_z_w pf;
  pf_u := u; pf_degree := pf_degree pf |}.

Theorem C66_trapdoor_forgery T (pf : proof E) : digest_long T ->
  let zeta := ch_zeta X T pf in
  zeta <> 1 -> s <> zeta -> s <> zeta * w ->
  exists W Ww u, verify X T cc srs (with_openings pf W Ww u) = Ret tt.
Proof.
move=> long zeta /eqP z1 /eqP sz /eqP szw.
rewrite -subr_eq0 in sz; rewrite -subr_eq0 in szw.
pose Ww : G1 E := (s - zeta * w)^-1 *: (z_commit pf - bar_z_w pf *: g1_gen E).
pose W : G1 E := (s - zeta)^-1 *: vs_core X cc s T pf.
exists W, Ww, (ch_u X T (with_openings pf W Ww 0)).
set pf' := with_openings _ _ _ _.
apply/accept_iff => //; split=> //; rewrite equation_core.
rewrite -[ch_zeta X T pf']/zeta -[vs_core X cc s T pf']/(vs_core X cc s T pf).
rewrite [w_ev_x_commit _]/= [w_ev_wx_commit _]/= [z_commit _]/= [bar_z_w _]/= /W /Ww !scalerA.
by rewrite -mulrA !mulfV // mulr1 scale1r.
Qed.

(* ------------------------------------------------------------------ *)
(* C68: the degree field of a proof is read by the verifier but enters no
   challenge: which other degrees are accepted with the same proof. *)
Definition with_degree (pf : proof E) (d : nat) : proof E := {|
  a_commit := a_commit pf; b_commit := b_commit pf; c_commit := c_commit pf; z_commit := z_commit pf;
  t_lo_commit := t_lo_commit pf; t_mid_commit := t_mid_commit pf; t_hi_commit := t_hi_commit pf;
  w_ev_x_commit := w_ev_x_commit pf; w_ev_wx_commit := w_ev_wx_commit pf;
  bar_a := bar_a pf; bar_b := bar_b pf; bar_c := bar_c pf;
  bar_s_sigma_1 := bar_s_sigma_1 pf; bar_s_sigma_2 := bar_s_sigma_2 pf; bar_z_w := bar_z_w pf;
  pf_u := pf_u pf; pf_degree := d |}.

Theorem C68_degree_unbound T (pf : proof E) (d : nat) : digest_long T ->
  let zeta := ch_zeta X T pf in
  let tail e := zeta ^+ e.+1 *: t_mid_commit pf + zeta ^+ (2 * e.+1) *: t_hi_commit pf in
  verify X T cc srs pf = Ret tt ->
  verify X T cc srs (with_degree pf d) = Ret tt <->
  zeta ^+ n = 1 \/ tail d = tail (pf_degree pf).
Proof.
move=> long zeta tail /accept_iff -/(_ long)[hu z1 eqn].
rewrite accept_iff // -[ch_zeta X T (with_degree _ _)]/zeta.
rewrite -[ch_u X T (with_degree _ _)]/(ch_u X T pf) [pf_u _]/=.
suff core : verifier_equation X cc s T (with_degree pf d) =
    (zeta ^+ n - 1 == 0) || (tail d == tail (pf_degree pf)).
  rewrite core; split.
    by case=> _ _ /orP[|/eqP ->]; [rewrite subr_eq0 => /eqP ->; left|right].
  by case=> ->; split=> //; rewrite ?subrr eqxx ?orbT.
move: eqn; rewrite !equation_core -[ch_zeta X T (with_degree _ _)]/zeta.
rewrite -[ch_u X T (with_degree _ _)]/(ch_u X T pf).
rewrite [w_ev_x_commit (with_degree _ _)]/= [w_ev_wx_commit (with_degree _ _)]/= [z_commit (with_degree _ _)]/=.
rewrite [bar_z_w (with_degree _ _)]/= => /eqP ->.
rewrite (inj_eq (addIr _)) /vs_core [tail d == _]eq_sym.
do 6 rewrite (inj_eq (addIr _)).
rewrite (inj_eq (addrI _)) eqr_opp.
rewrite -[ch_zeta X T (with_degree pf d)]/zeta -/zeta [t_lo_commit _]/= [t_mid_commit _]/= [t_hi_commit _]/=.
rewrite -!addrA -/(tail _) -subr_eq0 -scalerBr scaler_eq0; congr (_ || _).
by rewrite subr_eq0 [t_lo_commit (with_degree _ _)]/= (inj_eq (addrI _)).
Qed.

End Unbound.

(* ------------------------------------------------------------------ *)
(* C65: for every circuit and every row there is a public input of that row for
   which a proof can be computed from the reference string alone, without any
   wire values. *)
Section Forgery.
Variables (F : fieldType) (E : pairing_group F) (X : plonk_env E).
Hypotheses (okE : pairing_ok E) (ok : fft_ok (pk_fft X)).
Variables (calls : seq (gate_call F)) (cc : compiled_circuit F).
Hypothesis compiled : compile (pk_fft X) (build calls) = Ret cc.
Local Notation n := (cc_size cc).
Local Notation w := (omega_of (pk_fft X) cc).
Local Notation s1 := (Poly (s_sigma_1 (cc_copy cc))).
Local Notation s2 := (Poly (s_sigma_2 (cc_copy cc))).
Local Notation qc := (Poly (q_cx (cc_gate cc))).

Lemma public_value_set ps i p zeta : (i < size ps)%N ->
  public_value n w (set_nth 0 ps i p) zeta = public_value n w ps zeta + (p - nth 0 ps i) * (lagrange n w i).[zeta].
Proof.
move=> li; rewrite /public_value size_set_nth (maxn_idPr li).
rewrite (bigD1 (Ordinal li)) //= [in RHS](bigD1 (Ordinal li)) //= nth_set_nth /= eqxx.
rewrite [\sum_(_ < _ | _) _](eq_bigr (fun j : 'I_(size ps) => nth 0 ps j * (lagrange n w j).[zeta])).
  by move: (\sum_(_ < _ | _) _) (lagrange _ _ _).[_] => r l; ring.
by move=> j ne; rewrite nth_set_nth /= (_ : (_ == _) = false) //; apply/negbTE.
Qed.

(* the forged proof: zero commitments and values except the two values of the
   public permutation polynomials and one opening *)
Definition forged (zeta : F) (W : G1 E) (u : F) : proof E := {|
  a_commit := 0; b_commit := 0; c_commit := 0; z_commit := 0;
  t_lo_commit := 0; t_mid_commit := 0; t_hi_commit := 0;
  w_ev_x_commit := W; w_ev_wx_commit := 0;
  bar_a := 0; bar_b := 0; bar_c := 0;
  bar_s_sigma_1 := s1.[zeta]; bar_s_sigma_2 := s2.[zeta]; bar_z_w := 0;
  pf_u := u; pf_degree := 0 |}.

Theorem C65_forgery T (i : nat) : digest_long T -> (i < size calls)%N ->
  let zeta := fs_challenge X T (nseq 7 0) 0 in
  zeta <> 1 -> (lagrange n w i).[zeta] <> 0 ->
  exists (p : F) (W : seq F) (cc' : compiled_circuit F),
    compile (pk_fft X) (build (with_publics calls (set_nth 0 (publics calls) i p))) = Ret cc' /\
    forall s m, (n <= m)%N ->
    let srs := srs_new_from_secret E s m in
    exists cW u, kzg_commit srs W = Ret cW /\ verify X T cc' srs (forged zeta cW u) = Ret tt.
Proof.
move=> long li zeta /eqP z1 /eqP Li.
have wf := compiled_wf compiled.
pose pf0 := forged zeta 0 0; pose v := ch_v X T pf0; pose alpha := ch_alpha X T pf0.
pose L := (zeta ^+ n - 1) / (n%:R * (zeta - 1)).
pose target := qc.[zeta] - alpha ^+ 2 * L.
have lp : (i < size (publics calls))%N by rewrite size_map.
pose p := nth 0 (publics calls) i + (target - public_value n w (publics calls) zeta) / (lagrange n w i).[zeta].
have Ep : public_value n w (set_nth 0 (publics calls) i p) zeta = target.
  by rewrite public_value_set // /p addrAC subrr add0r mulfVK // addrCA subrr addr0.
have sz : size (set_nth 0 (publics calls) i p) = size calls.
  by rewrite size_set_nth (maxn_idPr lp) size_map.
pose N := qc + (v ^+ 4) *: s1 + (v ^+ 5) *: s2 - (qc.[zeta] + v ^+ 4 * s1.[zeta] + v ^+ 5 * s2.[zeta])%:P.
have N0 : N.[zeta] = 0 by rewrite /N hornerD hornerN hornerC !hornerD !hornerZ subrr.
have Ec := compile_with sz compiled.
exists p, (N %/ ('X - zeta%:P)), (republished cc (interpolate (cdom (pk_fft X) calls)
  [seq - p0 | p0 <- set_nth 0 (publics calls) i p])); split=> // s m nm srs.
set W := _ %/ _; set cc' := republished _ _.
have Es : kzg_commit srs W = Ret (commitment_of E s W).
  have szW : (size W <= m + 3)%N.
    apply: leq_trans (leq_divp _ _) _; apply: (@leq_trans n); last by rewrite (leq_trans nm) ?leq_addr.
    apply: size_sub_le; last by rewrite (leq_trans (size_polyC_leq1 _)) // (wf_gt0 wf).
    apply: size_add_le; last by rewrite (leq_trans (size_scale_leq _ _)) //; case: (wf_s2 wf).
    apply: size_add_le; last by rewrite (leq_trans (size_scale_leq _ _)) //; case: (wf_s1 wf).
    by case: (wf_qc wf).
  rewrite commit_normal; first by rewrite polyseqK szW.
  rewrite /normal polyseqK; case: (eqVneq W 0) => //= nz.
  by rewrite -nth_last -[_`_ _]/(lead_coef W) lead_coef_eq0.
exists (commitment_of E s W), (ch_u X T (forged zeta (commitment_of E s W) 0)); split=> //.
set pf := forged _ _ _.
have [_ acc] := @accept_iff _ _ _ okE ok _ _ Ec s m nm T pf long; apply: acc.
split=> //; rewrite equation_core /vs_core.
rewrite -[ch_zeta X T pf]/zeta -[ch_v X T pf]/v -[ch_alpha X T pf]/alpha.
rewrite [w_ev_x_commit _]/= [w_ev_wx_commit _]/= [z_commit _]/= [bar_z_w _]/= [bar_a _]/= [bar_b _]/= [bar_c _]/=
 [a_commit _]/= [b_commit _]/= [c_commit _]/= [t_lo_commit _]/= [t_mid_commit _]/= [t_hi_commit _]/=.
rewrite !(mulr0, mul0r, scale0r, oppr0, scaler0, addr0, add0r, subr0).
rewrite /vs_r0 -[ch_zeta X T pf]/zeta -[ch_alpha X T pf]/alpha /vs_lagrange -[ch_zeta X T pf]/zeta.
rewrite [bar_z_w _]/= mulr0 subr0.
have -> : (Poly (pi_x (cc_gate cc'))).[zeta] = - target.
  have dle := dleE compiled.
  by rewrite (public_valueE ok) // -(nE compiled) -(wE compiled) Ep.
rewrite -[cc_size cc']/n -/L [bar_s_sigma_1 _]/= [bar_s_sigma_2 _]/=.
rewrite /commitment_of !scalerA -!(scalerDl, scalerBl).
apply/eqP; congr (_ *: _); rewrite (divp_at s N0) /N /target.
rewrite !(hornerD, hornerN, hornerZ, hornerC).
rewrite -[Poly (q_cx (cc_gate (republished _ _)))]/qc [s_sigma_1 (cc_copy cc')]/= [s_sigma_2 (cc_copy cc')]/=.
by ring.
Qed.

(* in particular outside the domain *)
Theorem C65_forgery_outside_domain T (i : nat) : digest_long T -> (i < size calls)%N ->
  let zeta := fs_challenge X T (nseq 7 0) 0 in
  zeta ^+ n <> 1 ->
  exists (p : F) (W : seq F) (cc' : compiled_circuit F),
    compile (pk_fft X) (build (with_publics calls (set_nth 0 (publics calls) i p))) = Ret cc' /\
    forall s m, (n <= m)%N ->
    let srs := srs_new_from_secret E s m in
    exists cW u, kzg_commit srs W = Ret cW /\ verify X T cc' srs (forged zeta cW u) = Ret tt.
Proof.
move=> long li zeta zn; apply: C65_forgery => //; rewrite -/zeta.
  by move=> z1; apply: zn; rewrite z1 expr1n.
have prim := wf_prim ok (compiled_wf compiled).
have lin : (i < n)%N by rewrite (nE compiled); apply: leq_trans li (csize_ge calls).
rewrite /lagrange horner_prod; apply/eqP; apply/prodf_neq0 => j ne.
rewrite hornerZ hornerXsubC mulf_neq0 //.
  by rewrite invr_eq0 subr_eq0 (root_inj prim) // eq_sym.
rewrite subr_eq0; apply/eqP => Ez; apply: zn.
by rewrite Ez exprAC (prim_expr_order prim) expr1n.
Qed.

End Forgery.
