(* C67: round-by-round soundness of the PLONK verifier against provers whose
   group elements are computed from the reference string. *)
From Coq Require Import String Ascii NArith.
Set Warnings "-notation-overridden,-ambiguous-paths".
From mathcomp Require Import all_ssreflect all_algebra.
From mathcomp Require Import zify ring.
From Verif Require Import Base BaseLemmas ArkPoly ArkPolyLemmas ArkDomain ArkDomainLemmas
  ArkPolyFft ArkPolyFftLemmas KzgModel KzgSpec PlonkModel PlonkSpec PlonkLemmas PlonkRefine
  PlonkProve PlonkVerify PlonkCompile PlonkProps PlonkSoundSpec.

Set Implicit Arguments.
Unset Strict Implicit.
Unset Printing Implicit Defensive.

Import GRing.Theory.
Local Open Scope ring_scope.

Section Combine.
Variable F : fieldType.
Implicit Types (es : seq F).

Lemma combine_cons v e es : combine v (e :: es) = e + v * combine v es.
Proof.
rewrite /combine /= big_ord_recl expr0 mul1r; congr (_ + _).
by rewrite mulr_sumr; apply: eq_bigr => i _; rewrite /= exprS mulrA.
Qed.

Lemma combineE v es : combine v es = (Poly es).[v].
Proof.
elim: es => [|e es IH]; first by rewrite /combine big_ord0 /= horner0.
by rewrite combine_cons IH /= horner_cons addrC mulrC.
Qed.

Lemma Poly_neq0 es e : e \in es -> e <> 0 -> Poly es != 0.
Proof.
move=> ei ne; apply/eqP => P0; case: ne.
by have /(congr1 (fun f : {poly F} => f`_(index e es))) := P0; rewrite coef_Poly nth_index // coef0.
Qed.

Lemma few_combine es (vs : seq F) : (exists2 e, e \in es & e <> 0) -> uniq vs ->
  (forall v, v \in vs -> combine v es = 0) -> (size vs < size es)%N.
Proof.
case=> e ei ne uv H; apply: leq_trans (size_Poly es).
by apply: max_poly_roots (Poly_neq0 ei ne) _ uv; apply/allP => v /H; rewrite combineE => /rootP.
Qed.

End Combine.

Section Counting.
Variables (F : fieldType) (n : nat) (w : F) (cc : compiled_circuit F) (M : messages F).

(* C67, counting: with everything fixed before a challenge held constant, few
   values of that challenge are unlucky. *)

Theorem C67_few_bad_alpha beta gamma (alphas : seq F) : uniq alphas ->
  (forall alpha, alpha \in alphas -> bad_alpha n w cc M beta gamma alpha) ->
  (size alphas <= 2)%N.
Proof.
move=> ua H; case: alphas ua H => [|a0 alphas] ua H //.
have [[i li ex] _] := H a0 (mem_head _ _).
have := few_combine ex ua; apply=> alpha /H[_]; exact.
Qed.

Theorem C67_few_bad_v beta gamma alpha zeta a b c e1 e2 zw d (vs : seq F) : uniq vs ->
  (forall v, v \in vs -> bad_v n w cc M beta gamma alpha zeta a b c e1 e2 zw d v) ->
  (size vs <= 5)%N.
Proof.
move=> uv H; case: vs uv H => [|v0 vs] uv H //.
have [ex _] := H v0 (mem_head _ _).
by have := few_combine ex uv; apply=> v /H[].
Qed.

Theorem C67_few_bad_u beta gamma alpha zeta a b c e1 e2 zw d v (us : seq F) : uniq us ->
  (forall u, u \in us -> bad_u n w cc M beta gamma alpha zeta a b c e1 e2 zw d v u) ->
  (size us <= 1)%N.
Proof.
case: us => [|u1 [|u2 us]] //= /andP[nu _] H.
have [ne h1] := H u1 (mem_head _ _).
have [_ h2] : bad_u n w cc M beta gamma alpha zeta a b c e1 e2 zw d v u2.
  by apply: H; rewrite !inE eqxx orbT.
have d0 : u1 - u2 != 0 by rewrite subr_eq0; apply: contra nu => /eqP ->; rewrite mem_head.
have /eqP : (u1 - u2) *: shifted_gap w M zeta zw = 0.
  rewrite scalerBl; apply/eqP; rewrite subr_eq0; apply/eqP.
  by apply: (addrI (opening_gap n w cc M beta gamma alpha zeta a b c e1 e2 zw d v)); rewrite h1 h2.
rewrite scaler_eq0 (negbTE d0) /= => /eqP s0.
by case: ne => // ne; case: ne; move: h1; rewrite s0 scaler0 addr0.
Qed.

End Counting.

Section Sizes.
Variables (F : fieldType) (E : pairing_group F) (X : plonk_env E).
Variables (cc : compiled_circuit F) (M : messages F) (N : nat).
Local Notation P := (pk_fft X).
Local Notation n := (cc_size cc).
Local Notation w := (omega_of P cc).
Local Notation g := (cc_gate cc).
Local Notation k := (cc_copy cc).
Hypotheses (ok : fft_ok P) (wf : wf_compiled P cc) (nN : (n <= N)%N) (N2 : (2 <= N)%N).
Hypothesis szM : all (fun f : {poly F} => (size f <= N)%N)
   [:: ms_A M; ms_B M; ms_C M; ms_Z M; ms_Tlo M; ms_Tmid M; ms_Thi M; ms_W M; ms_Ww M].

Lemma size_ms : [/\ (size (ms_A M) <= N)%N, (size (ms_B M) <= N)%N & (size (ms_C M) <= N)%N] /\
  [/\ (size (ms_Z M) <= N)%N, (size (ms_W M) <= N)%N & (size (ms_Ww M) <= N)%N] /\
  [/\ (size (ms_Tlo M) <= N)%N, (size (ms_Tmid M) <= N)%N & (size (ms_Thi M) <= N)%N].
Proof. by move: szM => /= /and5P[-> -> -> -> /and5P[-> -> -> -> /andP[->]]]. Qed.

Lemma size_quotient_gap beta gamma alpha d :
  (size (quotient_gap n w cc M beta gamma alpha d) <= maxn (4 * N) (n + N + 2 * d))%N.
Proof.
have [[sA sB sC] [[sZ _ _] [sl sm sh]]] := size_ms.
have prim := wf_prim ok wf; have n0 := wf_gt0 wf.
have le (p : seq F) : trimmed p /\ (size (Poly p) <= n)%N -> (size (Poly p) <= N)%N by case=> _ h; apply: leq_trans h nN.
have sX (x : F) : (size (x *: 'X : {poly F}) <= N)%N by apply: size_scale_le; rewrite size_polyX.
have sc (x : F) : (size (x%:P : {poly F}) <= N)%N by apply: size_polyC_le; lia.
have mx1 m : (m <= 4 * N -> m <= maxn (4 * N) (n + N + 2 * d))%N by lia.
rewrite /quotient_gap; apply: size_sub_le; last first.
  apply: (@size_mul_le _ _ _ n.+1 (N + 2 * d)); last by lia.
    by rewrite -[ZH _ _]/(zpoly F n) size_zpoly.
  apply: size_add_le; first apply: size_add_le.
  - by apply: leq_trans sl _; lia.
  - by apply: (@size_mul_le _ _ _ d.+1 N); rewrite ?size_polyXn //; lia.
  - by apply: (@size_mul_le _ _ _ (2 * d).+1 N); rewrite ?size_polyXn //; lia.
apply: mx1; apply: size_add_le; first apply: size_add_le.
- rewrite /gate_poly; repeat apply: size_add_le.
  + apply: (@size_mul_le _ _ _ (2 * N) N); [|exact: le (wf_qm wf)|by lia].
    by apply: size_mul_le sA sB _; lia.
  + by apply: size_mul_le sA (le _ (wf_ql wf)) _; lia.
  + by apply: size_mul_le sB (le _ (wf_qr wf)) _; lia.
  + by apply: size_mul_le sC (le _ (wf_qo wf)) _; lia.
  + by apply: leq_trans (le _ (wf_pi wf)) _; lia.
  + by apply: leq_trans (le _ (wf_qc wf)) _; lia.
- apply: size_scale_le; rewrite /perm_poly.
  have s3' (f1 f2 f3 : {poly F}) : (size f1 <= N)%N -> (size f2 <= N)%N -> (size f3 <= N)%N ->
      (size (f1 * f2 * f3)%R <= 3 * N)%N.
    move=> h1 h2 h3; apply: (@size_mul_le _ _ _ (2 * N) N) => //; last by lia.
    by apply: size_mul_le h1 h2 _; lia.
  apply: size_sub_le.
    apply: (@size_mul_le _ _ _ (3 * N) N) => //; last by lia.
    by apply: s3'; apply: size_add_le => //; apply: size_add_le.
  apply: (@size_mul_le _ _ _ (3 * N) N); [|by rewrite (size_compw ok wf)|by lia].
  apply: s3'; apply: size_add_le => //; apply: size_add_le => //; apply: size_scale_le.
  + exact: le (wf_s1 wf).
  + exact: le (wf_s2 wf).
  + exact: le (wf_s3 wf).
- apply: size_scale_le; apply: (@size_mul_le _ _ _ N N); [|by apply: leq_trans (size_lagrange prim n0) nN|by lia].
  by apply: size_sub_le => //; rewrite size_poly1; lia.
Qed.

Lemma few_bad_zeta beta gamma alpha d (zetas : seq F) : uniq zetas ->
  (forall zeta, zeta \in zetas -> bad_zeta n w cc M beta gamma alpha d zeta) ->
  (size zetas < maxn (4 * N) (n + N + 2 * d))%N.
Proof.
case: zetas => [|z0 zs] uz H; first by rewrite /= leq_max; apply/orP; left; lia.
apply: leq_trans (size_quotient_gap beta gamma alpha d).
have [/eqP ne _] := H z0 (mem_head _ _).
by apply: max_poly_roots ne _ uz; apply/allP => z /H[_ /rootP].
Qed.

Lemma size_gap beta gamma alpha zeta a b c e1 e2 zw d v u :
  (size (opening_gap n w cc M beta gamma alpha zeta a b c e1 e2 zw d v
         + u *: shifted_gap w M zeta zw)%R <= N.+1)%N.
Proof.
have [[sA sB sC] [[sZ sW sWw] [sl sm sh]]] := size_ms.
have le (p : seq F) : trimmed p /\ (size (Poly p) <= n)%N -> (size (Poly p) <= N.+1)%N.
  by case=> _ h; apply: leq_trans h (leqW nN).
have ls (f : {poly F}) : (size f <= N)%N -> (size f <= N.+1)%N by apply: leqW.
have sc (x : F) : (size (x%:P : {poly F}) <= N.+1)%N by apply: size_polyC_le.
have sX (f : {poly F}) x : (size f <= N)%N -> (size (('X - x%:P) * f)%R <= N.+1)%N.
  by move=> h; apply: (@size_mul_le _ _ _ 2 N) => //; rewrite size_XsubC.
have s1' : (size (1 : {poly F})%R <= N.+1)%N by rewrite size_poly1.
apply: size_add_le; last first.
  by apply: size_scale_le; apply: size_sub_le; [exact: sX|apply: size_sub_le => //; apply: ls].
apply: size_sub_le; first exact: sX.
apply: size_add_le; last by apply: size_scale_le; apply: size_sub_le => //; exact: le (wf_s2 wf).
apply: size_add_le; last by apply: size_scale_le; apply: size_sub_le => //; exact: le (wf_s1 wf).
do 3 (apply: size_add_le; last by apply: size_scale_le; apply: size_sub_le => //; apply: ls).
rewrite /lin_poly; apply: size_sub_le; last first.
  by apply: size_scale_le; apply: size_add_le; first apply: size_add_le; try apply: size_scale_le; apply: ls.
apply: size_add_le; last by apply: size_scale_le; apply: size_sub_le => //; apply: ls.
apply: size_sub_le; last first.
  by apply: size_scale_le; apply: size_add_le => //; apply: size_scale_le; exact: le (wf_s3 wf).
apply: size_add_le; last by apply: size_scale_le; apply: ls.
apply: size_add_le => //; rewrite /lin_gate; repeat apply: size_add_le; try apply: size_scale_le.
- exact: le (wf_qm wf).
- exact: le (wf_ql wf).
- exact: le (wf_qr wf).
- exact: le (wf_qo wf).
- exact: le (wf_qc wf).
Qed.

Lemma few_bad_trapdoor beta gamma alpha zeta a b c e1 e2 zw d v u (ss : seq F) : uniq ss ->
  (forall s, s \in ss -> bad_trapdoor n w cc M beta gamma alpha zeta a b c e1 e2 zw d v u s) ->
  (size ss <= N)%N.
Proof.
case: ss => [|s0 ss] uz H //; rewrite -ltnS.
apply: leq_trans (size_gap beta gamma alpha zeta a b c e1 e2 zw d v u).
have [/eqP ne _] := H s0 (mem_head _ _).
by apply: max_poly_roots ne _ uz; apply/allP => z /H[_ /rootP].
Qed.

End Sizes.

Section Accept.
Variables (F : fieldType) (E : pairing_group F) (X : plonk_env E).
Hypotheses (okE : pairing_ok E) (ok : fft_ok (pk_fft X)).
Variables (calls : seq (gate_call F)) (cc : compiled_circuit F).
Hypothesis compiled : compile (pk_fft X) (build calls) = Ret cc.
Variables (s : F) (m : nat).
Hypothesis nm : (cc_size cc <= m)%N.
Local Notation srs := (srs_new_from_secret E s m).
Local Notation n := (cc_size cc).
Local Notation w := (omega_of (pk_fft X) cc).
Local Notation g := (cc_gate cc).
Local Notation k := (cc_copy cc).
Let wf := compiled_wf compiled.
Let prim : n.-primitive_root w := wf_prim ok wf.

Lemma scale_g1_inj (x y : F) : x *: g1_gen E = y *: g1_gen E -> x = y.
Proof.
move/eqP; rewrite -subr_eq0 -scalerBl scaler_eq0 (negbTE (g1_gen_neq0 okE)) orbF.
by rewrite subr_eq0 => /eqP.
Qed.

Lemma equation_atE T (pf : proof E) :
  equation_at (pk_fft X) cc (ch_beta X T pf, ch_gamma X T pf, ch_alpha X T pf, ch_zeta X T pf,
                ch_v X T pf, ch_u X T pf, s) pf = verifier_equation X cc s T pf.
Proof. by []. Qed.

Lemma equation_gap_at beta gamma alpha zeta v u (pf : proof E) (M : messages F) N : zeta != 1 ->
  explains s N M pf -> equation_at (pk_fft X) cc (beta, gamma, alpha, zeta, v, u, s) pf ->
  (opening_gap n w cc M beta gamma alpha zeta
     (bar_a pf) (bar_b pf) (bar_c pf) (bar_s_sigma_1 pf) (bar_s_sigma_2 pf) (bar_z_w pf)
     (pf_degree pf).+1 v
   + u *: shifted_gap w M zeta (bar_z_w pf)).[s] = 0.
Proof.
move=> z1 [[eA eB eC] eZ [el em eh] [eW eWw] _].
have L1 := lagrange0E prim (wf_nz ok wf) z1.
rewrite /equation_at -L1.
rewrite -eA -eB -eC -eZ -el -em -eh -eW -eWw /commitment_of.
rewrite !scalerA -!(scalerDl, scalerBl) !scalerA -!(scalerDl, scalerBl) => /eqP/scale_g1_inj.
move: (bar_a pf) (bar_b pf) (bar_c pf) (bar_s_sigma_1 pf) (bar_s_sigma_2 pf) (bar_z_w pf) => a b c e1 e2 zw.
have -> : zeta ^+ n - 1 = (ZH F n).[zeta].
  by rewrite /ZH -polyC1 hornerD hornerN hornerXn hornerC.
rewrite /opening_gap /shifted_gap /lin_poly /lin_gate.
case: M {eA eB eC eZ el em eh eW eWw} => A B C Z Tlo Tmid Thi W Ww /=.
rewrite !(hornerD, hornerM, hornerZ, hornerN, hornerC, hornerX).
move: (ZH F n).[zeta] (lagrange n w 0).[zeta] (zeta ^+ (pf_degree pf).+1) (zeta ^+ (2 * (pf_degree pf).+1)) => Zz Lz x1 x2.
move: (Poly (q_mx g)).[_] (Poly (q_lx g)).[_] (Poly (q_rx g)).[_] (Poly (q_ox g)).[_] (Poly (q_cx g)).[_] => qm ql qr qo qc.
move: (Poly (pi_x g)).[_] (Poly (s_sigma_1 k)).[s] (Poly (s_sigma_2 k)).[s] (Poly (s_sigma_3 k)).[s] => p s1s s2s s3.
move: A.[s] B.[s] C.[s] Z.[s] Tlo.[s] Tmid.[s] Thi.[s] W.[s] Ww.[s] => A1 B1 C1 Z1 t1 t2 t3 W1 W2 H.
rewrite [in LHS](_ : _ + _ = (s - zeta) * W1 + u * (s - zeta * w) * W2 -
   ((s - zeta) * W1 + u * (s - zeta * w) * W2)); first by rewrite subrr.
rewrite {2}H; ring.
Qed.

Lemma equation_gap T (pf : proof E) (M : messages F) N : ch_zeta X T pf != 1 ->
  explains s N M pf -> verifier_equation X cc s T pf ->
  (opening_gap n w cc M (ch_beta X T pf) (ch_gamma X T pf) (ch_alpha X T pf) (ch_zeta X T pf)
     (bar_a pf) (bar_b pf) (bar_c pf) (bar_s_sigma_1 pf) (bar_s_sigma_2 pf) (bar_z_w pf)
     (pf_degree pf).+1 (ch_v X T pf)
   + ch_u X T pf *: shifted_gap w M (ch_zeta X T pf) (bar_z_w pf)).[s] = 0.
Proof. by move=> z1 ex; rewrite -equation_atE; apply: equation_gap_at z1 ex. Qed.

(* the values are right: the quotient equation at zeta *)
Lemma lin_quotient (M : messages F) beta gamma alpha zeta d :
  let a := (ms_A M).[zeta] in let b := (ms_B M).[zeta] in let c := (ms_C M).[zeta] in
  (lin_poly n w cc M beta gamma alpha zeta a b c (Poly (s_sigma_1 k)).[zeta]
     (Poly (s_sigma_2 k)).[zeta] (ms_Z M).[zeta * w] d).[zeta] =
  (quotient_gap n w cc M beta gamma alpha d).[zeta].
Proof.
case: M => A B C Z Tlo Tmid Thi W Ww /=.
rewrite /lin_poly /quotient_gap /gate_poly /perm_poly /lin_gate /=.
rewrite !(hornerD, hornerM, hornerZ, hornerN, hornerC, hornerX, horner_comp, hornerXn) [w * zeta]mulrC.
move: (zeta ^+ n) (lagrange n w 0).[zeta] (zeta ^+ d) (zeta ^+ (2 * d)) => Zz Lz x1 x2.
move: (Poly (q_mx g)).[_] (Poly (q_lx g)).[_] (Poly (q_rx g)).[_] (Poly (q_ox g)).[_] (Poly (q_cx g)).[_] => qm ql qr qo qc.
move: (Poly (pi_x g)).[_] (Poly (s_sigma_1 k)).[_] (Poly (s_sigma_2 k)).[_] (Poly (s_sigma_3 k)).[_] => p s1 s2 s3.
move: A.[_] B.[_] C.[_] Z.[zeta] Z.[zeta * w] Tlo.[_] Tmid.[_] Thi.[_] => A1 B1 C1 Z1 Z2 t1 t2 t3.
ring.
Qed.

Lemma row_combine (M : messages F) beta gamma alpha d i : quotient_gap n w cc M beta gamma alpha d = 0 ->
  combine alpha (row_constraints n w cc M beta gamma i) = 0.
Proof.
move/(congr1 (fun f : {poly F} => f.[w ^+ i])); rewrite horner0 => H.
rewrite -[RHS]H !combine_cons {1}/combine big_ord0.
rewrite /quotient_gap; move: (gate_poly _ _ _ _) (perm_poly _ _ _ _ _ _ _ _) (_ * lagrange _ _ _) (_ + _ + 'X^_ * _).
move: (ZH F n) (ZH_root ok wf i) => Zp Z0.
move=> f1 f2 f3 f4; rewrite !(hornerD, hornerN, hornerM, hornerZ) Z0.
by move: f1.[_] f2.[_] f3.[_] f4.[_] => x1 x2 x3 x4; ring.
Qed.

(* the gate constraint of a row is the relation of its call *)
Lemma relationE (A B C : {poly F}) g0 i : (i < size calls)%N ->
  (gate_poly cc A B C).[w ^+ i] = 0 ->
  relation_holds (nth g0 calls i) A.[w ^+ i] B.[w ^+ i] C.[w ^+ i].
Proof.
move=> li; have /= [_ sel] := C46_call_rows ok g0 compiled li.
move: sel; set x := w ^+ i.
rewrite /gate_poly !(hornerD, hornerM) /selectors_of /relation_holds.
move: (nth g0 calls i) A.[x] B.[x] C.[x] => gc a b c.
case: call_type => -[-> -> -> -> -> ->] H; apply/eqP; rewrite -subr_eq0 -[X in _ == X]H; apply/eqP; ring.
Qed.

(* the permutation argument *)
Lemma perm_rows (M : messages F) beta gamma :
  (forall i, (i < n)%N -> (perm_poly w cc beta gamma (ms_A M) (ms_B M) (ms_C M) (ms_Z M)).[w ^+ i] = 0) ->
  (ms_Z M).[1] = 1 ->
  let val := values_of w (ms_A M) (ms_B M) (ms_C M) in
  \prod_(x <- slots n) (val x + beta * slot_code w x + gamma) =
  \prod_(x <- slots n) (val x + beta * slot_code w (slot_pos calls x) + gamma).
Proof.
move=> H Z1 val; have [Ecc _ dle _] := compile_inv compiled.
have Esz : n = csize calls by rewrite Ecc.
have vE l i : (l < 3)%N -> val (l, i) = (nth (ms_C M) [:: ms_A M; ms_B M] l).[w ^+ i] by [].
have slotsE (f : slot -> F) :
    \prod_(x <- slots n) f x = \prod_(i < n) (f (0%N, nat_of_ord i) * f (1%N, nat_of_ord i) * f (2%N, nat_of_ord i)).
  by rewrite Esz; exact: (prod_slots calls).
rewrite !slotsE.
pose num i := (val (0%N, i) + beta * slot_code w (0%N, i) + gamma) *
  (val (1%N, i) + beta * slot_code w (1%N, i) + gamma) * (val (2%N, i) + beta * slot_code w (2%N, i) + gamma).
pose den i := (val (0%N, i) + beta * slot_code w (slot_pos calls (0%N, i)) + gamma) *
  (val (1%N, i) + beta * slot_code w (slot_pos calls (1%N, i)) + gamma) *
  (val (2%N, i) + beta * slot_code w (slot_pos calls (2%N, i)) + gamma).
have step i : (i < n)%N -> num i * (ms_Z M).[w ^+ i] = den i * (ms_Z M).[w ^+ i.+1].
  move=> li; have := H i li; rewrite /perm_poly.
  have [h1 h2 h3 hk1 hk2] := C47_sigma_rows ok compiled li.
  rewrite hk1 hk2 !(hornerD, hornerN, hornerM, hornerZ, hornerX, hornerC, horner_comp) h1 h2 h3 -exprS.
  move/eqP; rewrite subr_eq0 => /eqP E'.
  by rewrite /den /val /values_of /= -E' /num /val /values_of /slot_code /= mul1r !mulrA.
have tel i : (i <= n)%N -> (\prod_(j < i) den j) * (ms_Z M).[w ^+ i] = \prod_(j < i) num j.
  elim: i => [|i IH] le; first by rewrite !big_ord0 expr0 Z1 mulr1.
  rewrite !big_ord_recr /= -(IH (ltnW le)) -mulrA -step //.
  by move: (\prod_(_ < _) _) (num _) (_.[_]) => x y z; ring.
by have := tel n (leqnn _); rewrite (prim_expr_order prim) Z1 mulr1 => <-.
Qed.

Lemma gap_cases (M : messages F) beta gamma alpha zeta v u a b c e1 e2 zw d :
  (opening_gap n w cc M beta gamma alpha zeta a b c e1 e2 zw d v + u *: shifted_gap w M zeta zw).[s] = 0 ->
  satisfies calls n (values_of w (ms_A M) (ms_B M) (ms_C M)) \/
  bad_beta_gamma n w M calls beta gamma \/
  bad_alpha n w cc M beta gamma alpha \/
  bad_zeta n w cc M beta gamma alpha d zeta \/
  bad_v n w cc M beta gamma alpha zeta a b c e1 e2 zw d v \/
  bad_u n w cc M beta gamma alpha zeta a b c e1 e2 zw d v u \/
  bad_trapdoor n w cc M beta gamma alpha zeta a b c e1 e2 zw d v u s.
Proof.
move=> gap.
set f1 := opening_gap n w cc M beta gamma alpha zeta a b c e1 e2 zw d v in gap *.
set f2 := shifted_gap w M zeta zw in gap *.
have [f0|/eqP ne] := eqVneq (f1 + u *: f2) 0; last by do 6 right.
have [f10|/eqP ne] := eqVneq f1 0; last by do 5 right; left; split; [left|].
have [f20|/eqP ne] := eqVneq f2 0; last by do 5 right; left; split; [right|].
have Ezw : zw = (ms_Z M).[zeta * w].
  have := congr1 (fun f : {poly F} => f.[zeta * w]) f20; rewrite /f2 /shifted_gap horner0.
  rewrite !(hornerD, hornerM, hornerN, hornerC, hornerX) subrr mul0r add0r => /eqP.
  by rewrite oppr_eq0 subr_eq0 => /eqP.
set es := value_errors n w cc M beta gamma alpha zeta a b c e1 e2 zw d.
have ces : combine v es = 0.
  have := congr1 (fun f : {poly F} => f.[zeta]) f10; rewrite /f1 /opening_gap horner0.
  rewrite /es /value_errors !combine_cons {1}/combine big_ord0.
  move: (lin_poly _ _ _ _ _ _ _ _ _ _ _ _ _ _ _) => l.
  rewrite !(hornerD, hornerN, hornerM, hornerZ, hornerX, hornerC) subrr mul0r add0r => /eqP.
  rewrite oppr_eq0 => /eqP H; rewrite -[RHS]H {H}.
  by move: l.[_] (ms_A M).[_] (ms_B M).[_] (ms_C M).[_] (Poly _).[_] (Poly _).[_] => x0 x1 x2 x3 x4 x5; ring.
have [/hasP[e ei /eqP ne]|/hasPn aes] := boolP (has (fun e => e != 0) es).
  by do 4 right; left; split=> //; exists e.
have ae e : e \in es -> e = 0 by move/aes; rewrite negbK => /eqP.
have q0 : (quotient_gap n w cc M beta gamma alpha d).[zeta] = 0.
  rewrite -lin_quotient /=.
  have -> : (ms_A M).[zeta] = a by apply/eqP; rewrite -subr_eq0; apply/eqP/ae; rewrite /es /value_errors !inE eqxx ?orbT.
  have -> : (ms_B M).[zeta] = b by apply/eqP; rewrite -subr_eq0; apply/eqP/ae; rewrite /es /value_errors !inE eqxx ?orbT.
  have -> : (ms_C M).[zeta] = c by apply/eqP; rewrite -subr_eq0; apply/eqP/ae; rewrite /es /value_errors !inE eqxx ?orbT.
  have -> : (Poly (s_sigma_1 k)).[zeta] = e1 by apply/eqP; rewrite -subr_eq0; apply/eqP/ae; rewrite /es /value_errors !inE eqxx ?orbT.
  have -> : (Poly (s_sigma_2 k)).[zeta] = e2 by apply/eqP; rewrite -subr_eq0; apply/eqP/ae; rewrite /es /value_errors !inE eqxx ?orbT.
  by rewrite -Ezw; apply: ae; rewrite mem_head.
have [qz|/eqP ne] := eqVneq (quotient_gap n w cc M beta gamma alpha d) 0; last by do 3 right; left.
have [/hasP[i]|/hasPn rows] := boolP (has (fun i => has (fun e => e != 0) (row_constraints n w cc M beta gamma i)) (iota 0 n)).
  rewrite mem_iota add0n => /andP[_ li] /hasP[e ei /eqP ne]; do 2 right; left; split; first by exists i => //; exists e.
  by move=> j _; apply: row_combine qz.
have row i e : (i < n)%N -> e \in row_constraints n w cc M beta gamma i -> e = 0.
  by move=> li; have := rows i; rewrite mem_iota li => /(_ isT)/hasPn h /h; rewrite negbK => /eqP.
have n0 := prim_order_gt0 prim.
have Z1 : (ms_Z M).[1] = 1.
  have : ((ms_Z M - 1) * lagrange n w 0).[w ^+ 0] = 0 by apply: (row 0%N) => //; rewrite !inE eqxx ?orbT.
  rewrite hornerM (lagrangeE prim) // eqxx mulr1 expr0 hornerD hornerN hornerC => /eqP.
  by rewrite subr_eq0 => /eqP.
have prods := perm_rows (fun i li => row i _ li (_ : _ \in _)) Z1.
have [/hasP[x xs /eqP ne]|/hasPn copies] := boolP (has (fun x =>
    values_of w (ms_A M) (ms_B M) (ms_C M) (slot_pos calls x) != values_of w (ms_A M) (ms_B M) (ms_C M) x) (slots n)).
  right; left; split; first by exists x.
  by apply: prods => i; rewrite !inE eqxx orbT.
left; split; last by move=> x /copies; rewrite negbK => /eqP.
move=> g0 i li; have ln : (i < n)%N.
  have [Ecc _ _ _] := compile_inv compiled; rewrite Ecc; exact: leq_trans li (csize_ge calls).
by apply: relationE => //; apply: (row i) => //; rewrite mem_head.
Qed.

(* C67: an accepted proof whose commitments are explained by polynomials either
   proves knowledge of a satisfying assignment (the wire polynomials on the
   domain) or one of its challenges, or the trapdoor, is unlucky. *)
Theorem C67_soundness T (pf : proof E) (M : messages F) (N : nat) : digest_long T ->
  explains s N M pf -> verify X T cc srs pf = Ret tt ->
  let beta := ch_beta X T pf in let gamma := ch_gamma X T pf in let alpha := ch_alpha X T pf in
  let zeta := ch_zeta X T pf in let v := ch_v X T pf in let u := ch_u X T pf in
  let a := bar_a pf in let b := bar_b pf in let c := bar_c pf in
  let e1 := bar_s_sigma_1 pf in let e2 := bar_s_sigma_2 pf in let zw := bar_z_w pf in
  let d := (pf_degree pf).+1 in
  satisfies calls n (values_of w (ms_A M) (ms_B M) (ms_C M)) \/
  bad_beta_gamma n w M calls beta gamma \/
  bad_alpha n w cc M beta gamma alpha \/
  bad_zeta n w cc M beta gamma alpha d zeta \/
  bad_v n w cc M beta gamma alpha zeta a b c e1 e2 zw d v \/
  bad_u n w cc M beta gamma alpha zeta a b c e1 e2 zw d v u \/
  bad_trapdoor n w cc M beta gamma alpha zeta a b c e1 e2 zw d v u s.
Proof.
move=> long ex acc.
have [z1 eqn] : ch_zeta X T pf != 1 /\ verifier_equation X cc s T pf.
  move: acc; rewrite (C52_verify okE ok compiled s nm) //; case: ifP => // _.
  by case: eqP => // _; case: ifP.
exact: gap_cases (equation_gap z1 ex eqn).
Qed.


(* C67, counting (continued): N is the number of points of the reference string. *)
Theorem C67_few_bad_zeta (M : messages F) beta gamma alpha d (zetas : seq F) (pf : proof E) N :
  explains s N M pf -> (n <= N)%N -> uniq zetas ->
  (forall zeta, zeta \in zetas -> bad_zeta n w cc M beta gamma alpha d zeta) ->
  (size zetas < maxn (4 * N) (n + N + 2 * d))%N.
Proof.
case=> _ _ _ _ szM nN; apply: (few_bad_zeta ok wf nN _ szM).
have [Ecc gt1 _ _] := compile_inv compiled; apply: leq_trans nN; rewrite Ecc.
exact: leq_trans gt1 (csize_ge calls).
Qed.

Theorem C67_few_bad_trapdoor (M : messages F) beta gamma alpha zeta a b c e1 e2 zw d v u (ss : seq F)
  (pf : proof E) N :
  explains s N M pf -> (n <= N)%N -> uniq ss ->
  (forall s, s \in ss -> bad_trapdoor n w cc M beta gamma alpha zeta a b c e1 e2 zw d v u s) ->
  (size ss <= N)%N.
Proof. by case=> _ _ _ _ szM nN; apply: (few_bad_trapdoor wf nN szM). Qed.

(* outside a list of at most (3n)^2 values of beta, at most 3n values of gamma
   are unlucky *)
Theorem C67_few_bad_beta_gamma (M : messages F) :
  2%:R ^+ n != 1 :> F -> 3%:R ^+ n != 1 :> F -> 2%:R ^+ n != 3%:R ^+ n :> F -> 3%:R != 0 :> F ->
  exists2 bad_beta : seq F, (size bad_beta <= (3 * n) ^ 2)%N &
  forall beta, beta \notin bad_beta ->
  forall gammas, uniq gammas ->
  (forall gamma, gamma \in gammas -> bad_beta_gamma n w M calls beta gamma) ->
  (size gammas <= 3 * n)%N.
Proof.
have [Ecc _ dle pos] := compile_inv compiled => n21 n31 n23 nz3.
set sl := slots n; have szs : size sl = (3 * n)%N by rewrite size_allpairs !size_iota.
set c := slot_code w; set v := values_of w (ms_A M) (ms_B M) (ms_C M).
exists [seq (v p.1 - v p.2) / (c (slot_pos calls p.2) - c p.1) | p <- [seq (x, y) | x <- sl, y <- sl]].
  by rewrite size_map size_allpairs szs mulnn.
move=> beta nb [|g0 gs] // ug; set gs' := g0 :: gs => Hg; rewrite leqNgt; apply/negP => big.
have [[y ys bad] _] := Hg g0 (mem_head _ _).
pose f x := v x + beta * c x; pose h x := v x + beta * c (slot_pos calls x).
have rp (e : slot -> F) gamma :
    (\prod_(x <- sl) ('X - (- e x)%:P)).[gamma] = \prod_(x <- sl) (e x + gamma).
  rewrite horner_prod; apply: eq_bigr => x _.
  by rewrite hornerD hornerN hornerX hornerC opprK addrC.
have sp (e : slot -> F) : size (\prod_(x <- sl) ('X - (- e x)%:P) : {poly F}) = (3 * n).+1.
  by rewrite -(big_map (fun x => - e x) xpredT (fun a => 'X - a%:P)) size_prod_XsubC size_map szs.
have Epoly : \prod_(x <- sl) ('X - (- f x)%:P) = \prod_(x <- sl) ('X - (- h x)%:P) :> {poly F}.
  apply/eqP; rewrite -subr_eq0; apply/negPn/negP => nz.
  have : (size gs' < (3 * n).+1)%N.
    apply: leq_trans (max_poly_roots nz _ ug) _.
      apply/allP => gamma gi; rewrite /root hornerD hornerN !rp subr_eq0; apply/eqP.
      by have [_] := Hg gamma gi.
    by apply: size_sub_le; rewrite sp.
  by rewrite ltnS leqNgt big.
case: bad.
have yp : slot_pos calls y \in sl.
  by move: pos; rewrite /sl Ecc => /allP; apply; rewrite -[csize _]/(cc_size (compiled_of (pk_fft X) calls)) -Ecc.
have : root (\prod_(x <- sl) ('X - (- h x)%:P)) (- h y).
  by rewrite -(big_map (fun x => - h x) xpredT (fun a => 'X - a%:P)) root_prod_XsubC; apply: (map_f (fun x => - h x)).
rewrite -Epoly -(big_map (fun x => - f x) xpredT (fun a => 'X - a%:P)) root_prod_XsubC.
case/mapP => x xs /oppr_inj e.
have [ec|ne] := eqVneq (c (slot_pos calls y)) (c x); last first.
  case/negP: nb; apply/mapP; exists (x, y); first by apply/allpairsP; exists (x, y).
  have d0 : c (slot_pos calls y) - c x != 0 by rewrite subr_eq0.
  apply: (mulIf d0); rewrite mulfVK // /=; move: e; rewrite /h /f mulrBr.
  move: (beta * _) (beta * _) (v x) (v y) => p q vx vy e.
  by rewrite -[q](addKr vy) e; ring.
rewrite -/v; have -> : slot_pos calls y = x.
  exact: (C47_code_injective prim (two_neq0 ok) nz3 n21 n31 n23) yp xs ec.
by apply/esym; move: e; rewrite /h /f ec => /addIr.
Qed.

End Accept.

(* The hypotheses of C67_soundness are met by every proof the prover returns. *)
Section HonestInstance.
Variables (F : fieldType) (E : pairing_group F) (X : plonk_env E).
Hypotheses (ok : fft_ok (pk_fft X)) (long : digest_long (pk_sha256 X)).
Variables (calls : seq (gate_call F)) (cc : compiled_circuit F).
Hypothesis compiled : compile (pk_fft X) (build calls) = Ret cc.
Variables (s : F) (m : nat).
Hypothesis nm : (cc_size cc <= m)%N.

Theorem C67_honest_explained T b (pf : proof E) :
  generate_proof X T b cc (srs_new_from_secret E s m) = Ret pf ->
  exists M, explains s (m + 3) M pf.
Proof.
have wf := compiled_wf compiled.
case/(generate_inv ok long compiled nm) => -> _ _ _.
exists (Messages (hr_A cc b) (hr_B cc b) (hr_C cc b) (hr_z X cc b s) (slice_of (hr_t X cc b s) 0)
  (slice_of (hr_t X cc b s) 1) (slice_of (hr_t X cc b s) 2) (hr_W X cc b s) (hr_Ww X cc b s)).
split; [by split|by []|by split|by split|].
have n3 l : (l <= cc_size cc + 3 -> l <= m + 3)%N by move: nm; lia.
have n2 l : (l <= cc_size cc + 2 -> l <= m + 3)%N by move: nm; lia.
rewrite /= (n2 _ (sA b ok wf)) (n2 _ (sB b ok wf)) (n2 _ (sC b ok wf)) (n3 _ (size_permZ ok wf _ _ _)).
have ss i : (size (slice_of (hr_t X cc b s) i) <= m + 3)%N.
  apply: n2; apply: leq_trans (size_slice_of _ _) (slice_len_le _ ok wf _ _ _).
by rewrite !ss (n3 _ (size_openW _ ok wf _ _ _ _ _)) (n3 _ (size_openWw _ ok wf _ _ _)).
Qed.

End HonestInstance.
