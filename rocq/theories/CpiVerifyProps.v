(* C89: what a verifier can do with the preprocessed input alone. *)
From Coq Require Import String Ascii NArith ZArith.
Set Warnings "-notation-overridden,-ambiguous-paths".
From mathcomp Require Import all_ssreflect all_algebra.
From mathcomp Require Import zify ring.
From Verif Require Import Base BaseLemmas ArkPoly ArkDomain ArkDomainLemmas ArkPolyFft KzgModel KzgSpec
  PlonkModel PlonkSpec PlonkLemmas PlonkCompile PlonkRefine PlonkProve PlonkVerify PlonkProps.
From Verif Require Import ParserModel ParserSpec ParserStrings ParserGates ParserParse ParserSound
  ParserAst ParserCircuit ParserProps CpiLemmas CpiProps EquationSpec EquationProps.

Set Implicit Arguments.
Unset Strict Implicit.
Unset Printing Implicit Defensive.

Import GRing.Theory.
Local Open Scope ring_scope.

Local Arguments parse_i32 : simpl never.
Local Arguments digits_val : simpl never.

Section Verdict.
Variables (F : fieldType) (E : pairing_group F) (X : plonk_env E) (T : bytes -> bytes) (S : srs E).
Implicit Types (cc : compiled_circuit F) (c : cpi E) (pf : proof E).

(* The verdict on any proof is a function of the preprocessed input: the compiled
   circuit, and with it the prover's wire values and even its selector polynomials,
   is not needed. *)
Theorem C89_verdict_from_preprocessed_input :
  exists V : cpi E -> proof E -> outcome unit,
  forall cc c pf, preprocessed S cc c -> verify X T cc S pf = V c pf.
Proof.
pose blank c : compiled_circuit F := {|
  cc_gate := GateConstraints [::] [::] [::] [::] [::] [::] [::] [::] (cpi_pi_x c);
  cc_copy := CopyConstraints [::] [::] [::] (cpi_k1 c) (cpi_k2 c); cc_size := cpi_n c |}.
exists (fun c pf =>
  chs <- verify_challenges X T S pf;;
  let: (alpha, beta, gamma, ec, v, u) := chs in
  if u != pf_u pf then Err "Verify: Challenge verification failed."
  else
    dom <- unwrap (domain_new (pk_fft X) (cpi_n c));;
    let cs := [:: com_q_mx c; com_q_lx c; com_q_rx c; com_q_ox c; com_q_cx c;
      com_s_sigma_1 c; com_s_sigma_2 c; com_s_sigma_3 c] in
    let w := dom_element dom 1 in
    let z_h_e := ec ^+ dom_size dom - 1 in
    l_1_e <- fdiv z_h_e ((cpi_n c)%:R * (ec - 1));;
    let p_i_e := peval (cpi_pi_x c) ec in
    let r_0 := ver_r0 pf alpha beta gamma l_1_e p_i_e in
    let d := ver_d (blank c) cs pf alpha beta gamma ec u z_h_e l_1_e in
    let f := ver_f cs pf d v in
    e <- kzg_commit_para S (ver_e pf r_0 v u);;
    let left := com_add (w_ev_x_commit pf) (com_mul (w_ev_wx_commit pf) u) in
    let right := com_sub (com_add (com_add (com_mul (w_ev_x_commit pf) ec)
                   (com_mul (w_ev_wx_commit pf) (u * ec * w))) f) e in
    if @pairing F E left (srs_g2s S) != @pairing F E right (srs_g2 S)
    then Err "Verify: Pairing failed, rejected"
    else Ret tt).
move=> cc c pf [[En E1 E2 Epi] [[ql qr qm qo qc] [s1 s2 s3]]].
have Ecs : get_circuit_commitment cc S = Ret [:: com_q_mx c; com_q_lx c; com_q_rx c; com_q_ox c; com_q_cx c;
      com_s_sigma_1 c; com_s_sigma_2 c; com_s_sigma_3 c].
  by rewrite /get_circuit_commitment /omapM qm bindRet ql bindRet qr bindRet qo bindRet qc bindRet
    s1 bindRet s2 bindRet s3.
rewrite /verify Ecs bindRet -En -Epi.
case: verify_challenges => // -[[[[[alpha beta] gamma] ec] v] u] /=.
by case: ifP => // _; rewrite /ver_d /= E1 E2.
Qed.

End Verdict.

(* ------------------------------------------------------------------ *)
(* from the text *)
Section Text.
Variables (F : fieldType) (E : pairing_group F) (X : plonk_env E).
Local Notation P := (pk_fft X).
Variables (e : equation) (input : bytes).
Hypotheses (ok : equation_ok e) (pre : preprocess_ok e) (written : cleaned input = equation_text e).

(* A verifier that only knows the text of the equation reaches the verdict that the
   compiled circuit of any prover (any witness values) gives. *)
Theorem C89_verdict_from_the_text (T : bytes -> bytes) (S : srs E) :
  exists V : cpi E -> proof E -> outcome unit,
  forall c W cir cc pf, compute_cpi P S input = Ret c ->
    names_only W -> defined_on W e -> parse W input = Ret cir -> compile P cir = Ret cc ->
    verify X T cc S pf = V c pf.
Proof.
have [V HV] := C89_verdict_from_preprocessed_input X T S; exists V => c W cir cc pf Ec names defd Ep Ecc.
apply: HV; have [iff _] := C60_preprocessed P S ok names defd pre written Ep.
by have [cc' ] := (iff c).1 Ec; rewrite Ecc => -[<-].
Qed.

(* A valuation of all names *)
Definition zero_values (k : bytes) : option F := if name_ok (to_lowercase k) then Some 0 else None.

Lemma zero_names : names_only zero_values.
Proof. by move=> k v; rewrite /zero_values; case: ifP. Qed.

Lemma lower_name x : name_ok x -> to_lowercase x = x.
Proof.
case: x => // c x /and3P[_ _ h]; rewrite /to_lowercase; elim: (c :: x) h => //= d y IH /andP[hd /IH ->].
by rewrite lower_charK //; case/and5P: hd => _ _ _ _ /andP[].
Qed.

Lemma zero_defined : defined_on zero_values e.
Proof.
apply/allP => x /flattenP[s /mapP[f fi ->]].
have okf : factor_ok f.
  case/and4P: ok => _ hl _ hr; case/flattenP: fi => t; rewrite mem_rcons inE => /orP[/eqP ->|ti] ft.
    exact: (allP hr).
  by have /andP[_ /allP] := allP hl _ ti; apply.
rewrite /factor_names; case Ea: (f_atom f) okf => [y|] //=; rewrite inE /factor_ok Ea => /andP[hy _] /eqP ->.
by rewrite /zero_values lower_name // hy.
Qed.

(* For every equation but those between two single variables, preprocessing returns
   as soon as the two-adicity of the field and the reference string allow. *)
Theorem C89_preprocessing_returns (s : F) (j m : nat) :
  (1 < equation_size e <= 2 ^ j)%N -> (j <= two_adicity P)%N -> (2 ^ j <= m)%N ->
  exists2 c, compute_cpi P (srs_new_from_secret E s m) input = Ret c & (cpi_n c <= 2 ^ j)%N.
Proof.
move=> /andP[e1 ej] jS jm.
have fits : (equation_size e <= 2 ^ two_adicity P)%N by apply: leq_trans ej _; rewrite leq_exp2l.
have [cir Ep [_ ret]] := C88_compiles ok zero_names zero_defined written fits.
have [cc Ec le] := ret e1.
have [iff _] := C60_preprocessed P (srs_new_from_secret E s m) ok zero_names zero_defined pre written Ep.
have [calls Ecs _] := C88_gate_count ok zero_names zero_defined written.
have Ecir : build calls = cir by move: Ep; rewrite Ecs => -[].
have wf : wf_compiled P cc by apply: (@compiled_wf F E X calls cc); rewrite Ecir.
have nm : (cc_size cc <= m)%N by apply: leq_trans (le j ej) jm.
have st p := @commit_stored F E cc s m nm p.
exists (@CPI F E (cc_size cc) (cc_k1 (cc_copy cc)) (cc_k2 (cc_copy cc))
  (commitment_of E s (Poly (q_lx (cc_gate cc)))) (commitment_of E s (Poly (q_rx (cc_gate cc))))
  (commitment_of E s (Poly (q_mx (cc_gate cc)))) (commitment_of E s (Poly (q_ox (cc_gate cc))))
  (commitment_of E s (Poly (q_cx (cc_gate cc)))) (commitment_of E s (Poly (s_sigma_1 (cc_copy cc))))
  (commitment_of E s (Poly (s_sigma_2 (cc_copy cc)))) (commitment_of E s (Poly (s_sigma_3 (cc_copy cc))))
  (pi_x (cc_gate cc))); last exact: le.
apply/iff; exists cc => //; split=> //; split; split.
- exact: (st _ (wf_ql wf)).
- exact: (st _ (wf_qr wf)).
- exact: (st _ (wf_qm wf)).
- exact: (st _ (wf_qo wf)).
- exact: (st _ (wf_qc wf)).
- exact: (st _ (wf_s1 wf)).
- exact: (st _ (wf_s2 wf)).
- exact: (st _ (wf_s3 wf)).
Qed.

End Text.
