(* C85: honest provers fail for a small share of the challenges only. *)
From Coq Require Import String Ascii NArith.
Set Warnings "-notation-overridden,-ambiguous-paths".
From mathcomp Require Import all_ssreflect all_algebra.
From mathcomp Require Import zify ring.
From Verif Require Import Base BaseLemmas ArkPoly ArkPolyLemmas ArkDomain ArkDomainLemmas
  ArkPolyFft ArkPolyFftLemmas KzgModel KzgSpec PlonkModel PlonkSpec PlonkLemmas PlonkRefine PlonkProve
  PlonkCompile PlonkProps Concrete ConcreteProps PlonkErrorProps OracleProver PlonkFsSpec
  PlonkFsProps HonestErrorSpec.

Set Implicit Arguments.
Unset Strict Implicit.
Unset Printing Implicit Defensive.

Import GRing.Theory.
Local Open Scope ring_scope.

Lemma size_top (F : fieldType) (f : {poly F}) m : (size f <= m.+1)%N -> f`_m != 0 -> size f = m.+1.
Proof.
move=> le nz; apply/eqP; rewrite eqn_leq le ltnNge /=; apply/negP => lt.
by move: nz; rewrite nth_default ?eqxx.
Qed.

Lemma few_roots (F : fieldType) (f : {poly F}) m (xs : seq F) : f != 0 -> (size f <= m.+1)%N -> uniq xs ->
  (forall x, x \in xs -> f.[x] = 0) -> (size xs <= m)%N.
Proof.
move=> nz sf ux H; rewrite -ltnS; apply: leq_trans sf; apply: max_poly_roots => //.
by apply/allP => x /H e; rewrite /root e.
Qed.

Section Algebra.
Variables (F : fieldType) (E : pairing_group F) (X : plonk_env E).
Local Notation P := (pk_fft X).
Hypothesis ok : fft_ok P.
Variables (calls : seq (gate_call F)) (cc : compiled_circuit F) (b : nat -> F).
Hypothesis compiled : compile P (build calls) = Ret cc.
Hypothesis good : good_blinders b.
Let wf : wf_compiled P cc := @compiled_wf F E X calls cc compiled.
Local Notation n := (cc_size cc).
Local Notation w := (omega_of P cc).
Local Notation k := (cc_copy cc).
Local Notation g := (cc_gate cc).
Let prim := wf_prim ok wf.
Let n0 := wf_gt0 wf.
Local Notation A := (wireA n cc b).
Local Notation B := (wireB n cc b).
Local Notation C := (wireC n cc b).

Lemma blind_top (f : {poly F}) (c d : F) : (size f <= n)%N ->
  (f + (c%:P + d *: 'X) * ZH F n)`_(n.+1) = d.
Proof.
move=> sf; rewrite coefD nth_default ?add0r; last by apply: leq_trans sf _.
rewrite /ZH mulrBr mulr1 coefB coefMXn ltnNge leqnSn /= subSnn !coefD !coefZ !coefX !coefC /=.
rewrite mulr1 add0r; case: (n) n0 => // m _ /=; by rewrite mulr0 !addr0 subr0.
Qed.
Lemma blind_top3 (f : {poly F}) (c d e : F) : (size f <= n)%N ->
  (f + (c%:P + d *: 'X + e *: 'X^2) * ZH F n)`_(n.+2) = e.
Proof.
move=> sf; rewrite coefD nth_default ?add0r; last by apply: leq_trans sf _; clear; lia.
rewrite /ZH mulrBr mulr1 coefB coefMXn; have -> : (n.+2 < n)%N = false by clear; lia.
have -> : (n.+2 - n = 2)%N by clear; lia.
rewrite !coefD !coefZ !coefX !coefXn !coefC /=.
case: (n) n0 => // m _ /=; by rewrite !mulr0 mulr1 !addr0 subr0 !add0r.
Qed.

Lemma good_parts : [/\ b 1%N != 0, b 3%N != 0, b 5%N != 0, b 7%N != 0 & b 1%N + b 3%N != b 5%N].
Proof. by case/and5P: good. Qed.

Lemma Atop : A`_(n.+1) = b 1%N. Proof. exact: blind_top (proj2 (wf_fa wf)). Qed.
Lemma Btop : B`_(n.+1) = b 3%N. Proof. exact: blind_top (proj2 (wf_fb wf)). Qed.
Lemma Ctop : C`_(n.+1) = b 5%N. Proof. exact: blind_top (proj2 (wf_fc wf)). Qed.
Lemma Ztop beta gamma : (permZ n w cc b beta gamma)`_(n.+2) = b 7%N.
Proof. by apply: blind_top3; apply: size_interp. Qed.

(* a wire plus a polynomial of lower degree has degree n + 1 *)
Lemma wire_size (W : {poly F}) (d : F) (l : {poly F}) : (size W <= n + 2)%N -> W`_(n.+1) = d -> d != 0 ->
  (size l <= n.+1)%N -> size (W + l) = n.+2.
Proof.
move=> sW Wt d0 sl; apply: size_top.
  by apply: size_add_le; [move: sW; clear; lia|apply: leq_trans sl _].
by rewrite coefD Wt [l`__]nth_default // addr0.
Qed.

Lemma line_size (c d : F) : (size (c *: 'X + d%:P)%R <= n.+1)%N.
Proof.
apply: size_add_le; first by apply: size_scale_le; rewrite size_polyX ltnS.
by apply: leq_trans (size_polyC_leq1 _) _.
Qed.

(* the factor of z in the linearisation, as a polynomial in zeta *)
Definition z_factor (beta gamma alpha : F) : {poly F} :=
  (A + (beta *: 'X + gamma%:P)) * (B + ((beta * cc_k1 k) *: 'X + gamma%:P)) *
    (C + ((beta * cc_k2 k) *: 'X + gamma%:P)) + alpha *: lagrange n w 0.

Lemma z_factor_size beta gamma alpha : size (z_factor beta gamma alpha) = (3 * n + 4)%N.
Proof.
have [b1 b3 b5 _ _] := good_parts.
have sA' := wire_size (sA b ok wf) Atop b1 (line_size beta gamma).
have sB' := wire_size (sB b ok wf) Btop b3 (line_size (beta * cc_k1 k) gamma).
have sC' := wire_size (sC b ok wf) Ctop b5 (line_size (beta * cc_k2 k) gamma).
have nz (f : {poly F}) m : size f = m.+1 -> f != 0 by rewrite -size_poly_gt0 => ->.
have e : size ((A + (beta *: 'X + gamma%:P)) * (B + ((beta * cc_k1 k) *: 'X + gamma%:P)) *
    (C + ((beta * cc_k2 k) *: 'X + gamma%:P))) = (3 * n + 4)%N.
  rewrite size_mul ?mulf_neq0 ?(nz _ _ sA') ?(nz _ _ sB') ?(nz _ _ sC') //.
  rewrite size_mul ?(nz _ _ sA') ?(nz _ _ sB') // sA' sB' sC'; clear; lia.
rewrite /z_factor size_addl // e; apply: leq_ltn_trans (size_scale_leq _ _) _.
by apply: leq_ltn_trans (size_lagrange prim n0) _; clear; lia.
Qed.

Lemma few_z_factor beta gamma alpha (zs : seq F) : uniq zs ->
  (forall z, z \in zs -> (z_factor beta gamma alpha).[z] = 0) -> (size zs <= 3 * n + 3)%N.
Proof.
move=> uz; have sz := z_factor_size beta gamma alpha.
by apply: few_roots => //; [rewrite -size_poly_gt0 sz addn4|rewrite sz addn4 addn3].
Qed.

(* selectors: some gate of the circuit multiplies, adds or fixes a wire *)
Lemma selectors : (Poly (q_mx g) != 0) ||
  (b 1%N *: Poly (q_lx g) + b 3%N *: Poly (q_rx g) + b 5%N *: Poly (q_ox g) != 0).
Proof.
have [b1 b3 b5 _ b135] := good_parts.
have [_ gt1 _ _] := compile_inv compiled; case: calls compiled gt1 => [|g0 cs] //= comp _.
have [_] := C46_call_rows ok g0 comp (ltn0Sn _); rewrite expr0 [nth _ _ _]/= /selectors_of.
case: call_type => -[l1 r1 o1 m1 _ _].
- apply/orP; right; apply/eqP => /(congr1 (fun f : {poly F} => f.[1])); rewrite !hornerE l1 r1 o1.
  by rewrite mulr1 mulr1 mulrN1 => /eqP; rewrite subr_eq0 (negbTE b135).
- by apply/orP; left; apply/eqP => e; move: m1; rewrite e horner0 => /eqP; rewrite eq_sym oner_eq0.
- apply/orP; right; apply/eqP => /(congr1 (fun f : {poly F} => f.[1])); rewrite !hornerE l1 r1 o1.
  by rewrite !mulr0 !addr0 mulr1 => /eqP; rewrite (negbTE b1).
Qed.

Lemma few_lin_gate (zs : seq F) : uniq zs ->
  (forall z, z \in zs -> lin_gate cc A.[z] B.[z] C.[z] = 0) -> (size zs <= 2 * n + 2)%N.
Proof.
move=> uz H; have [b1 b3 b5 _ _] := good_parts.
have sA0 : size A = n.+2 by have := @wire_size A _ 0 (sA b ok wf) Atop b1; rewrite addr0 size_poly0; apply.
have sB0 : size B = n.+2 by have := @wire_size B _ 0 (sB b ok wf) Btop b3; rewrite addr0 size_poly0; apply.
have sC0 : size C = n.+2 by have := @wire_size C _ 0 (sC b ok wf) Ctop b5; rewrite addr0 size_poly0; apply.
pose f j : {poly F} := (Poly (q_mx g))`_j *: (A * B) + ((Poly (q_lx g))`_j *: A +
  (Poly (q_rx g))`_j *: B + (Poly (q_ox g))`_j *: C + ((Poly (q_cx g))`_j)%:P).
have fE j z : z \in zs -> (f j).[z] = 0.
  move/H/(congr1 (fun h : {poly F} => h`_j)); rewrite /lin_gate !coefD !coefZ coef0 => e; rewrite -[RHS]e.
  rewrite /f; clear; move: A B C (Poly _)`_j (Poly _)`_j (Poly _)`_j (Poly _)`_j (Poly _)`_j => A' B' C' x1 x2 x3 x4 x5.
  by rewrite !(hornerD, hornerZ, hornerM, hornerC); move: A'.[z] B'.[z] C'.[z] => p q r; ring.
have szl j : (size ((Poly (q_lx g))`_j *: A + (Poly (q_rx g))`_j *: B + (Poly (q_ox g))`_j *: C +
    ((Poly (q_cx g))`_j)%:P)%R <= n.+2)%N.
  apply: size_add_le; last by apply: leq_trans (size_polyC_leq1 _) _.
  by apply: size_add_le; first apply: size_add_le; apply: size_scale_le; rewrite ?sA0 ?sB0 ?sC0.
have sAB : size (A * B) = (2 * n + 3)%N.
  rewrite size_mul -?size_poly_gt0 ?sA0 ?sB0 //; clear; lia.
have [m0|m0] := eqVneq (Poly (q_mx g)) 0.
- have := selectors; rewrite m0 eqxx /= => nzL.
  have [j jL] : exists j, (b 1%N *: Poly (q_lx g) + b 3%N *: Poly (q_rx g) + b 5%N *: Poly (q_ox g))`_j != 0.
    by exists (size (b 1%N *: Poly (q_lx g) + b 3%N *: Poly (q_rx g) + b 5%N *: Poly (q_ox g))).-1; rewrite -lead_coefE lead_coef_eq0.
  apply: (@few_roots F (f j)) => //; last by move=> z zi; apply: fE.
  + apply/eqP => /(congr1 (fun h : {poly F} => h`_(n.+1))); rewrite /f m0 coef0 scale0r add0r !coefD !coefZ Atop Btop Ctop coefC /=.
    rewrite addr0 coef0 => e; move/eqP: jL; apply; rewrite !coefD !coefZ -[RHS]e; move: (Poly _)`_j (Poly _)`_j (Poly _)`_j => p q r; ring.
  + rewrite /f m0 coef0 scale0r add0r; apply: leq_trans (szl j) _; clear; lia.
- pose j := (size (Poly (q_mx g))).-1.
  have jm : (Poly (q_mx g))`_j != 0 by rewrite -lead_coefE lead_coef_eq0.
  have sf : size (f j) = (2 * n + 3)%N.
    rewrite /f size_addl size_scale // sAB //; apply: leq_ltn_trans (szl j) _; move: n0; clear; lia.
  by apply: (@few_roots F (f j)) => //; [rewrite -size_poly_gt0 sf addn3|rewrite sf addn3 addn2|move=> z zi; apply: fE].
Qed.

Lemma Z1_size beta gamma : size (permZ n w cc b beta gamma - 1) = n.+3.
Proof.
have [_ _ _ b7 _] := good_parts; apply: size_top.
  apply: size_sub_le; first by have := size_permZ ok wf b beta gamma; rewrite addn3.
  by rewrite size_poly1.
by rewrite coefB Ztop coef1 subr0.
Qed.
Lemma lagrange0 : lagrange n w 0 != 0.
Proof.
apply/eqP => /(congr1 (fun f : {poly F} => f.[1])); have := lagrangeE prim n0 n0; rewrite expr0 => ->.
by rewrite horner0 => /eqP; rewrite oner_eq0.
Qed.

Lemma few_quotient beta gamma (als : seq F) : uniq als ->
  (forall al, al \in als -> quotient_poly n w cc b beta gamma al = 0) -> (size als <= 2)%N.
Proof.
move=> ua H; pose D := (permZ n w cc b beta gamma - 1) * lagrange n w 0; pose j := (size D).-1.
have sD : (n.+3 <= size D)%N.
  rewrite size_mul -?size_poly_gt0 ?Z1_size ?size_poly_gt0 ?lagrange0 //.
  have : (0 < size (lagrange n w 0))%N by rewrite size_poly_gt0 lagrange0.
  by move: (size _) => m; clear; lia.
have Dj : D`_j != 0 by rewrite -lead_coefE lead_coef_eq0 -size_poly_gt0; apply: leq_trans sD.
pose G := (gate_poly cc A B C)`_j.
pose Q := (perm_poly w cc beta gamma A B C (permZ n w cc b beta gamma))`_j.
pose f : {poly F} := (D`_j) *: 'X^2 + (Q *: 'X + G%:P).
have sf : size f = 3%N.
  rewrite /f size_addl size_scale ?size_polyXn //.
  apply: leq_ltn_trans (size_add _ _) _; rewrite gtn_max ltnS (leq_trans (size_scale_leq _ _)) ?size_polyX //.
  by rewrite (leq_ltn_trans (size_polyC_leq1 _)).
apply: (@few_roots F f) => //; [by rewrite -size_poly_gt0 sf|by rewrite sf|] => al /H q0.
have sc : (size (constraint_poly n w cc b beta gamma al) <= n)%N.
  move/eqP: q0; rewrite /quotient_poly divp_eq0; case/or3P.
  - by move/eqP=> ->; rewrite size_poly0.
  - by move/eqP=> e; have := zpoly_neq0 F n0; rewrite -[zpoly F n]/(ZH F n) e eqxx.
  - by rewrite -[ZH F n]/(zpoly F n) size_zpoly.
have : (constraint_poly n w cc b beta gamma al)`_j = 0.
  apply: nth_default; apply: leq_trans sc _; rewrite /j; move: sD; move: (size D) => m; clear; lia.
rewrite -[constraint_poly _ _ _ _ _ _ _]/(gate_poly cc A B C +
  al *: perm_poly w cc beta gamma A B C (permZ n w cc b beta gamma) + (al ^+ 2) *: D).
rewrite /f /G /Q; clear; move: (gate_poly _ _ _ _) (perm_poly _ _ _ _ _ _ _ _) D j => x y z i.
rewrite !coefD !coefZ !(hornerD, hornerZ, hornerC, hornerX, hornerXn).
by move: x`_i y`_i z`_i => x' y' z' e; rewrite -[RHS]e; ring.
Qed.

Lemma linearisation_nz beta gamma alpha zeta : alpha != 0 -> (z_factor beta gamma alpha).[zeta] != 0 ->
  linearisation n w cc b beta gamma alpha zeta != 0.
Proof.
move=> al0 zf; have [_ _ _ b7 _] := good_parts.
apply/eqP => /(congr1 (fun f : {poly F} => f`_(n.+2))); rewrite coef0 /linearisation.
have hi (f : {poly F}) : (size f <= n + 2)%N -> f`_(n.+2) = 0 by rewrite addn2 => h; apply: nth_default.
have le (f : {poly F}) : (size f <= n)%N -> (size f <= n + 2)%N by move=> h; apply: leq_trans h _; clear; lia.
have lec (c : F) : (size (c%:P)%R <= n + 2)%N by apply: leq_trans (size_polyC_leq1 _) _; clear; lia.
have ss i : (size (slice_of (quotient_poly n w cc b beta gamma alpha) i) <= n + 2)%N.
  exact: leq_trans (size_slice_of _ _) (slice_len_le _ ok wf _ _ _).
have lg : (size (lin_gate cc A.[zeta] B.[zeta] C.[zeta]) <= n + 2)%N.
  by rewrite /lin_gate; repeat apply: size_add_le; try apply: size_scale_le; apply: le;
    [exact: (proj2 (wf_qm wf))|exact: (proj2 (wf_ql wf))|exact: (proj2 (wf_qr wf))
    |exact: (proj2 (wf_qo wf))|exact: (proj2 (wf_qc wf))].
have s3 : (size (beta *: Poly (s_sigma_3 k) + (C.[zeta] + gamma)%:P)%R <= n + 2)%N.
  by apply: size_add_le => //; apply: size_scale_le; apply: le; exact: (proj2 (wf_s3 wf)).
have st := size_add_le (size_add_le (ss 0%N) (size_scale_le _ (ss 1%N))) (size_scale_le _ (ss 2%N)).
have top (L p Z s t : {poly F}) c1 c2 c3 c4 : L`_(n.+2) = 0 -> p`_(n.+2) = 0 -> s`_(n.+2) = 0 -> t`_(n.+2) = 0 ->
    Z`_(n.+2) = b 7%N ->
    (L + p + c1 *: Z - c2 *: s + c3 *: (Z - 1) - c4 *: t)`_(n.+2) = (c1 + c3) * b 7%N.
  move=> L0 p0 s0 t0 Zt; rewrite coefB coefD coefB !coefD !coefZ coefB L0 p0 s0 t0 Zt coef1 /=; ring.
rewrite (top _ _ _ _ _ _ _ _ _ (hi _ lg) (hi _ (lec _)) (hi _ s3) (hi _ (st _ _)) (Ztop _ _)).
move/eqP; rewrite mulf_eq0 (negbTE b7) orbF => /eqP e.
move/eqP: zf; apply; apply: (mulfI al0); rewrite mulr0 -[RHS]e /z_factor; clear; move: A B C (lagrange _ _ _) => A' B' C' l; rewrite !(hornerD, hornerZ, hornerM, hornerC, hornerX).
by move: A'.[zeta] B'.[zeta] C'.[zeta] l.[zeta] => p q r l'; ring.
Qed.

Hypothesis nz3 : 3%:R != 0 :> F.
Lemma sigmas_nz : [/\ Poly (s_sigma_1 k) != 0, Poly (s_sigma_2 k) != 0 & Poly (s_sigma_3 k) != 0].
Proof.
have [s1 s2 s3 _ _] := C47_sigma_rows ok compiled n0.
have [Ecc _ _ pos] := compile_inv compiled.
have code l : (l < 3)%N -> slot_code w (slot_pos calls (l, 0%N)) != 0.
  move=> l3; move/allP: pos => /(_ (l, 0%N)); rewrite !mem_slots l3 /=.
  have -> : (0 < csize calls)%N by rewrite -[csize calls](congr1 (@cc_size F) Ecc).
  case/(_ isT)/andP => c3 _; rewrite /slot_code mulf_neq0 //.
    by move: c3; case: (slot_pos _ _).1 => [|[|[|c]]] //= _; [rewrite oner_eq0|exact: (two_neq0 ok)].
  rewrite expf_neq0 //; apply/eqP => w0; have := prim_expr_order prim.
  by rewrite w0 expr0n eqn0Ngt n0 => /eqP; rewrite eq_sym oner_eq0.
have go (f : {poly F}) l : (l < 3)%N -> f.[w ^+ 0] = slot_code w (slot_pos calls (l, 0%N)) -> f != 0.
  by move=> l3 e; apply/eqP => f0; move: (code l l3); rewrite -e f0 horner0 eqxx.
by split; [apply: (go _ 0%N)|apply: (go _ 1%N)|apply: (go _ 2%N)].
Qed.

(* the unlucky challenges *)
Definition unlucky_beta_gamma (y : F * F) : bool :=
  (y.1 == 0) || has (fun i => perm_den w cc y.1 y.2 i == 0) (iota 0 n.-1).
Definition unlucky_alpha beta gamma (al : F) : bool :=
  (al == 0) || (quotient_poly n w cc b beta gamma al == 0).
Definition unlucky_zeta beta gamma alpha (z : F) : bool :=
  [|| z == 1, lin_gate cc A.[z] B.[z] C.[z] == 0 | (z_factor beta gamma alpha).[z] == 0].

Lemma few_alpha beta gamma (als : seq F) : uniq als ->
  (forall al, al \in als -> unlucky_alpha beta gamma al) -> (size als <= 3)%N.
Proof.
move=> ua H; have [|ys [zs [pe Py Pz]]] := @split_or _ (fun al => al = 0)
  (fun al => quotient_poly n w cc b beta gamma al = 0) als.
  by move=> al /H /orP[/eqP|/eqP]; [left|right].
move: ua; rewrite (perm_uniq pe) (perm_size pe) cat_uniq size_cat => /and3P[u1 _ u2].
apply: (@leq_add _ _ 1 2); last exact: few_quotient Pz.
by apply: (@uniq_leq_size _ _ [:: 0]) => // y /Py ->; rewrite mem_head.
Qed.

Lemma few_zeta beta gamma alpha (zs : seq F) : uniq zs ->
  (forall z, z \in zs -> unlucky_zeta beta gamma alpha z) -> (size zs <= 5 * n + 6)%N.
Proof.
move=> uz H; have [|y1 [z1 [pe Py Pz]]] := @split_or _ (fun z => z = 1)
  (fun z => lin_gate cc A.[z] B.[z] C.[z] = 0 \/ (z_factor beta gamma alpha).[z] = 0) zs.
  by move=> z /H /or3P[] /eqP; [left|right; left|right; right].
have [y2 [z2 [pe2 Py2 Pz2]]] := split_or Pz.
move: uz; rewrite (perm_uniq pe) (perm_size pe) cat_uniq size_cat => /and3P[u1 _].
rewrite (perm_uniq pe2) (perm_size pe2) cat_uniq size_cat => /and3P[u2 _ u3].
have h1 : (size y1 <= 1)%N by apply: (@uniq_leq_size _ _ [:: 1]) => // y /Py ->; rewrite mem_head.
have h2 := few_lin_gate u2 Py2; have h3 := few_z_factor u3 Pz2.
by move: h1 h2 h3; move: (size _) (size _) (size _); clear; lia.
Qed.

End Algebra.

Lemma entry_inj (K : nat) (K0 : (0 < K)%N) (H : seq ascii) (H' : seq ascii) : (256 ^ 8 <= K)%N ->
  entry K0 (le_decode (take 8 H)) = entry K0 (le_decode (take 8 H')) ->
  le_decode (take 8 H) = le_decode (take 8 H').
Proof.
move=> K64 /(congr1 val) /=; rewrite !modn_small; first by move/N2Nat.inj.
all: apply: leq_trans K64; apply: leq_trans (le_decode_lt _) _; rewrite leq_exp2l // size_take; case: ltnP; lia.
Qed.

Section Run.
Variables (F : finFieldType) (E : pairing_group F) (X : plonk_env E).
Local Notation P := (pk_fft X).
Hypotheses (okE : pairing_ok E) (ok : fft_ok P).
Variables (calls : seq (gate_call F)) (cc : compiled_circuit F) (b : nat -> F) (s : F) (m : nat).
Hypothesis compiled : compile P (build calls) = Ret cc.
Local Notation n := (cc_size cc).
Local Notation w := (omega_of P cc).
Hypothesis good : good_blinders b.
Hypothesis nz3 : 3%:R != 0 :> F.
Hypothesis nm : (n <= m)%N.
Local Notation H := (pk_sha256 X).
Hypothesis long : digest_long H.
Variables (K : nat) (K0 : (0 < K)%N).
Hypothesis K64 : (256 ^ 8 <= K)%N.
Local Notation table := (rand_table F K).
Local Notation com f := (commitment_of E s f).
Local Notation Xt t := (with_table K0 X t).
Implicit Types (q : seq (G1 E)) (t : table).

Local Notation loc := (fun q => entry K0 (seed_after X H q)).

Definition asker : oracle_prover (seq (G1 E)) (F * F) unit :=
  let q1 := hr_fed1 E cc b s in
  Ask q1 (fun y1 => let q2 := q1 ++ [:: com (permZ n w cc b y1.1 y1.2)] in
  Ask q2 (fun y2 => let q3 := q2 ++
      [seq com (slice_of (quotient_poly n w cc b y1.1 y1.2 y2.1) i) | i <- [:: 0%N; 1%N; 2%N]] in
  Ask q3 (fun=> Answer tt))).

Lemma asked_run t : asked loc asker t = [:: hr_fed1 E cc b s; hr_fed2 (Xt t) cc b s; hr_fed3 (Xt t) cc b s].
Proof. by []. Qed.

Definition bad_answer q (t : table) : Prop :=
  let y := t (loc q) in let y1 := t (loc (take 3 q)) in let y2 := t (loc (take 4 q)) in
  if size q == 3%N then is_true (unlucky_beta_gamma X cc y)
  else if size q == 4%N then loc (take 3 q) != loc q /\ unlucky_alpha X cc b y1.1 y1.2 y.1
  else if size q == 7%N then
    [/\ loc (take 3 q) != loc q, loc (take 4 q) != loc q & unlucky_zeta X cc b y1.1 y1.2 y2.1 y.1]
  else False.

Lemma few_beta_gamma (ys : seq (F * F)) : uniq ys -> (forall y, y \in ys -> unlucky_beta_gamma X cc y) ->
  (size ys <= (3 * n + 1) * #|F|)%N.
Proof.
move=> uy Hy; have [y|z1 [z2 [pe P1 Q2]]] := @split_or _ (fun y => y.1 = 0)
    (fun y => has (fun i => perm_den w cc y.1 y.2 i == 0) (iota 0 n.-1)) ys.
  by case/Hy/orP => [/eqP|]; [left|right].
move: uy; rewrite (perm_uniq pe) (perm_size pe) cat_uniq size_cat addnC mulnDl => /and3P[u1 _ u2].
apply: leq_add; last first.
  apply: (few_first (P := fun x => x = 0)) => // xs ux Hx.
  by apply: (@uniq_leq_size _ _ [:: 0]) => // x /Hx ->; rewrite mem_head.
apply: (few_fibers (f := fst) (g := snd)) => // [[x y] [x' y'] /= -> -> //|beta gs ug Hg].
pose k := cc_copy cc; pose g := cc_gate cc.
pose cand := flatten [seq [:: - ((Poly (f_ax g)).[w ^+ i] + beta * (Poly (s_sigma_1 k)).[w ^+ i]);
   - ((Poly (f_bx g)).[w ^+ i] + beta * (Poly (s_sigma_2 k)).[w ^+ i]);
   - ((Poly (f_cx g)).[w ^+ i] + beta * (Poly (s_sigma_3 k)).[w ^+ i])] | i <- iota 0 n].
have -> : (3 * n = size cand)%N.
  rewrite size_flatten /shape -map_comp sumnE big_map (eq_bigr (fun=> 3%N)) // big_const_seq count_predT.
  by rewrite size_iota iter_addn_0.
apply: uniq_leq_size => // gamma /Hg[[x y] /Q2 hs /= [Ex Ey]]; move: hs; rewrite /= Ex Ey => /hasP[i].
rewrite mem_iota add0n => /andP[_ li] den0.
apply/flattenP; eexists; first by apply/mapP; exists i; [rewrite mem_iota add0n leq0n; move: li; rewrite -subn1; lia|reflexivity].
move: den0; rewrite /perm_den !mulf_eq0 !inE -/k -/g => /orP[/orP[]|]; rewrite addrC addr_eq0 => ->; by rewrite ?orbT.
Qed.

Lemma few_bad_answer q t (ys : seq (F * F)) : uniq ys ->
  (forall y, y \in ys -> bad_answer q (upd t (loc q) y)) -> (size ys <= (5 * n + 6) * #|F|)%N.
Proof.
move=> uy Hy.
have mono a c : (a <= c)%N -> (size ys <= a * #|F|)%N -> (size ys <= c * #|F|)%N.
  by move=> le h; apply: leq_trans h _; rewrite leq_mul2r le orbT.
case: (eqVneq (size q) 3%N) => [s3|n3].
  apply: (mono (3 * n + 1)%N); first by clear; lia.
  apply: few_beta_gamma => // y yi; have := Hy y yi; rewrite /bad_answer s3 eqxx upd_same; apply.
case: (eqVneq (size q) 4%N) => [s4|n4].
  apply: (mono 3%N); first by clear; lia.
  pose y1 := t (loc (take 3 q)).
  apply: (few_first (P := fun al => unlucky_alpha X cc b y1.1 y1.2 al)) => // [y yi|xs ux]; last first.
    exact: (few_alpha ok compiled good ux).
  have := Hy y yi; rewrite /bad_answer (negbTE n3) s4 eqxx upd_same => -[ne].
  by rewrite ffunE (negbTE ne).
case: (eqVneq (size q) 7%N) => [s7|n7].
  pose y1 := t (loc (take 3 q)); pose y2 := t (loc (take 4 q)).
  apply: (few_first (P := fun z => unlucky_zeta X cc b y1.1 y1.2 y2.1 z)) => // [y yi|xs ux]; last first.
    exact: (few_zeta ok compiled good ux).
  have := Hy y yi; rewrite /bad_answer (negbTE n3) (negbTE n4) s7 eqxx upd_same => -[ne1 ne2].
  by rewrite ffunE (negbTE ne1) ffunE (negbTE ne2).
case: ys uy Hy {mono} => [|y ys] // _ /(_ y (mem_head _ _)).
by rewrite /bad_answer (negbTE n3) (negbTE n4) (negbTE n7).
Qed.

Hypothesis bd : (4 * n + 6 <= 2 ^ two_adicity P)%N.
Hypothesis hold : all (@call_holds F) calls.
Hypothesis perm : positions_permute calls n.
Hypothesis copies : copies_hold calls n.

Lemma lucky_run T t :
  ~~ unlucky_beta_gamma X cc (t (loc (hr_fed1 E cc b s))) ->
  ~~ unlucky_alpha X cc b (hr_beta (Xt t) cc b s) (hr_gamma (Xt t) cc b s) (hr_alpha (Xt t) cc b s) ->
  ~~ unlucky_zeta X cc b (hr_beta (Xt t) cc b s) (hr_gamma (Xt t) cc b s) (hr_alpha (Xt t) cc b s)
      (hr_zeta (Xt t) cc b s) ->
  proved_and_accepted (Xt t) T cc b s m.
Proof.
rewrite /unlucky_beta_gamma negb_or => /andP[be0 dens].
rewrite /unlucky_alpha negb_or => /andP[al0 t0].
rewrite /unlucky_zeta !negb_or => /and3P[z1 lin zf].
have wf := @compiled_wf F E X calls cc compiled.
have [s1 s2 s3] := sigmas_nz ok compiled nz3.
have [b1 b3 b5 b7 _] := good_parts good.
have nz (f : {poly F}) j : f`_j != 0 -> f != 0.
  by apply: contraNneq => ->; rewrite coef0.
have na : no_accident (Xt t) cc b s.
  rewrite /no_accident s1 s2 s3; apply/andP; split; first by move: dens; rewrite -all_predC; apply.
  apply/andP; split; first exact: be0.
  rewrite (nz _ n.+1) ?(Atop b compiled) // (nz _ n.+1) ?(Btop b compiled) // (nz _ n.+1) ?(Ctop b compiled) //.
  rewrite !andTb; apply/andP; split; first exact: t0.
  apply/andP; split; first exact: lin.
  exact: (linearisation_nz ok compiled good al0 zf).
have [pf Eg Ev] := @C51_satisfied_circuits F E (Xt t) okE ok long calls cc compiled s m nm b T bd hold perm copies na.
exists pf => //; rewrite Ev ifF //; apply/negbTE.
by have [-> _ _ _] := @generate_inv F E (Xt t) ok long calls cc compiled s m nm b T pf Eg.
Qed.

(* For a satisfied circuit and good blinders, the share of tables for which the
   prover fails, or its proof is not accepted, is at most 3 (5 n + 6) / card F -
   counting the runs that draw their challenges from three different seeds. *)
Theorem C85_plonk_honest_failures T (tbls : seq table) : uniq tbls ->
  (forall t, t \in tbls -> run_seeds_differ (Xt t) cc b s /\ ~ proved_and_accepted (Xt t) T cc b s m) ->
  (size tbls * #|F| <= 3 * (5 * n + 6) * #|{: table}|)%N.
Proof.
move=> ut Ht.
have F0 : (0 < #|F|)%N by apply/card_gt0P; exists 0.
have szn t : (size (asked loc asker t) <= 3)%N by [].
have := unlucky_share few_bad_answer szn ut.
rewrite card_prod !mulnA => /(_ _)-U; rewrite -(leq_pmul2r F0) [X in (_ <= X)%N]mulnAC; apply: U => t ti.
have [/and3P[d12 d13 d23] nf] := Ht t ti.
have loc_ne q q' : seed_after X H q != seed_after X H q' -> loc q != loc q'.
  by apply: contraNneq => e; apply/eqP; exact: (entry_inj K64 e).
have l12 := loc_ne _ _ d12; have l13 := loc_ne _ _ d13; have l23 := loc_ne _ _ d23.
have pack q : q \in asked loc asker t -> bad_answer q t ->
  exists2 q0, q0 \in asked loc asker t & bad_answer q0 t /\
    forall q', q' \in asked loc asker t -> loc q' = loc q0 -> q' = q0.
  move=> qi bq; exists q => //; split=> // q' qi' /eqP.
  move: qi qi'; rewrite asked_run !inE => /or3P[] /eqP -> /or3P[] /eqP -> //;
    by rewrite ?(negbTE l12) ?(negbTE l13) ?(negbTE l23) // eq_sym ?(negbTE l12) ?(negbTE l13) ?(negbTE l23).
have [u1|g1] := boolP (unlucky_beta_gamma X cc (t (loc (hr_fed1 E cc b s)))).
  by apply: (pack (hr_fed1 E cc b s)); rewrite ?asked_run ?mem_head.
have [u2|g2] := boolP (unlucky_alpha X cc b (hr_beta (Xt t) cc b s) (hr_gamma (Xt t) cc b s) (hr_alpha (Xt t) cc b s)).
  by apply: (pack (hr_fed2 (Xt t) cc b s)); [rewrite asked_run !inE eqxx orbT|split].
have [u3|g3] := boolP (unlucky_zeta X cc b (hr_beta (Xt t) cc b s) (hr_gamma (Xt t) cc b s)
    (hr_alpha (Xt t) cc b s) (hr_zeta (Xt t) cc b s)).
  by apply: (pack (hr_fed3 (Xt t) cc b s)); [rewrite asked_run !inE eqxx !orbT|split].
by case: nf; apply: lucky_run.
Qed.

End Run.

(* ------------------------------------------------------------------ *)
(* The blinders as nine draws. *)
Definition drawn (F : fieldType) (x : 9.-tuple F) (i : nat) : F := nth 0 x i.-1.

Section Blinders.
Variable F : finFieldType.

Lemma count_determined (k : nat) (i : 'I_k.+1) (h : k.-tuple F -> F) (xs : seq (k.+1.-tuple F)) : uniq xs ->
  (forall x, x \in xs -> tnth x i = h [tuple tnth x (lift i j) | j < k]) -> (size xs <= #|F| ^ k)%N.
Proof.
move=> ux Hx; rewrite -card_tuple -[X in (_ <= X)%N]mul1n.
apply: (few_fibers (f := fun x : k.+1.-tuple F => [tuple tnth x (lift i j) | j < k]) (g := fun x => tnth x i)) => //.
  move=> x y e ei; apply: eq_from_tnth => j; case: (unliftP i j) => [j' ->|->] //.
  by have := congr1 (fun z => tnth z j') e; rewrite !tnth_mktuple.
move=> a bs ub Hb; apply: (@uniq_leq_size _ _ [:: h a]) => // c /Hb[x xi [<- <-]].
by rewrite inE Hx.
Qed.

(* Of the lists of nine blinders a share of at most 5 / card F is not good. *)
Theorem C85_few_bad_blinders (xs : seq (9.-tuple F)) : uniq xs ->
  (forall x, x \in xs -> ~~ good_blinders (drawn x)) -> (size xs <= 5 * #|F| ^ 8)%N.
Proof.
move=> ux Hx.
have zero (i : 'I_9) ys : uniq ys -> (forall x : 9.-tuple F, x \in ys -> drawn x i.+1 = 0) -> (size ys <= #|F| ^ 8)%N.
  by move=> uy Hy; apply: (@count_determined 8 i (fun=> 0)) => // x /Hy; rewrite /drawn /= (tnth_nth 0).
have split5 x : x \in xs -> [\/ drawn x 1 = 0, drawn x 3 = 0, drawn x 5 = 0 |
    drawn x 7 = 0 \/ drawn x 1 + drawn x 3 = drawn x 5].
  move/Hx; rewrite /good_blinders !negb_and !negbK.
  case/or4P=> [/eqP h|/eqP h|/eqP h|/orP[] /eqP h]; first by constructor 1.
  - by constructor 2.
  - by constructor 3.
  - by constructor 4; left.
  - by constructor 4; right.
have [|y1 [z1 [p1 Y1 Z1]]] := @split_or _ (fun x : 9.-tuple F => drawn x 1 = 0)
  (fun x => drawn x 3 = 0 \/ (drawn x 5 = 0 \/ (drawn x 7 = 0 \/ drawn x 1 + drawn x 3 = drawn x 5))) xs.
  by move=> x /split5[]; tauto.
have [y2 [z2 [p2 Y2 Z2]]] := split_or Z1.
have [y3 [z3 [p3 Y3 Z3]]] := split_or Z2.
have [y4 [z4 [p4 Y4 Z4]]] := split_or Z3.
move: ux; rewrite (perm_uniq p1) (perm_size p1) cat_uniq size_cat => /and3P[u1 _].
rewrite (perm_uniq p2) (perm_size p2) cat_uniq size_cat => /and3P[u2 _].
rewrite (perm_uniq p3) (perm_size p3) cat_uniq size_cat => /and3P[u3 _].
rewrite (perm_uniq p4) (perm_size p4) cat_uniq size_cat => /and3P[u4 _ u5].
have h1 := zero (Ordinal (isT : (0 < 9)%N)) _ u1 Y1.
have h2 := zero (Ordinal (isT : (2 < 9)%N)) _ u2 Y2.
have h3 := zero (Ordinal (isT : (4 < 9)%N)) _ u3 Y3.
have h4 := zero (Ordinal (isT : (6 < 9)%N)) _ u4 Y4.
have h5 : (size z4 <= #|F| ^ 8)%N.
  apply: (@count_determined 8 (Ordinal (isT : (4 < 9)%N)) (fun a => tnth a (Ordinal (isT : (0 < 8)%N)) + tnth a (Ordinal (isT : (2 < 8)%N)))) => // x /Z4.
  by rewrite /drawn !tnth_mktuple !(tnth_nth 0) /= => ->.
by move: h1 h2 h3 h4 h5; move: (#|F| ^ 8)%N (size y1) (size y2) (size y3) (size y4) (size z4); clear; lia.
Qed.
End Blinders.

Lemma pow_sixteen k x a c : (5 <= k)%N -> (x <= 2 ^ k)%N -> (a <= 15)%N -> (c <= 32)%N ->
  (a * x + c <= 2 ^ (k + 4))%N.
Proof.
move=> k5 xk a15 c32; rewrite expnD; have -> : (2 ^ 4 = 16)%N by [].
have : (32 <= 2 ^ k)%N by rewrite (_ : 32 = 2 ^ 5)%N // leq_exp2l.
have : (a * x <= 15 * 2 ^ k)%N by exact: leq_mul.
move: c32; move: (2 ^ k)%N (a * x)%N; clear; lia.
Qed.
(* Over the BLS12-381 scalar field and for up to 2^28 rows: at most one in 2^219
   tables. *)
Theorem C85_plonk_bls (F : finFieldType) (E : pairing_group F) (X : plonk_env E)
  (calls : seq (gate_call F)) (cc : compiled_circuit F) (b : nat -> F) (s : F) (m K : nat) (K0 : (0 < K)%N)
  (T : bytes -> bytes) (tbls : seq (rand_table F K)) :
  #|F| = N.to_nat bls_r -> pk_fft X = bls_fft F -> pairing_ok E -> K = (2 ^ 64)%N ->
  digest_long (pk_sha256 X) -> compile (pk_fft X) (build calls) = Ret cc ->
  (cc_size cc <= 2 ^ 28)%N -> (cc_size cc <= m)%N -> good_blinders b ->
  all (@call_holds F) calls -> positions_permute calls (cc_size cc) -> copies_hold calls (cc_size cc) ->
  uniq tbls ->
  (forall t, t \in tbls -> run_seeds_differ (with_table K0 X t) cc b s /\
     ~ proved_and_accepted (with_table K0 X t) T cc b s m) ->
  (2 ^ 219 * size tbls <= #|{: rand_table F K}|)%N.
Proof.
move=> cF Ef okE eK long comp n28 nm good hold perm copies ut Ht.
have char : N.to_nat bls_r \in [char F] by exact: (char_of_card cF C63_bls_prime).
have ok : fft_ok (pk_fft X) by rewrite Ef; exact: (C63_bls char).
have [_ _ _ nz3] := coset_facts char Ef comp.
have bd : (4 * cc_size cc + 6 <= 2 ^ two_adicity (pk_fft X))%N by rewrite Ef -[two_adicity _]/(28 + 4)%N; apply: (@pow_sixteen 28 (cc_size cc) 4 6 isT n28 isT isT).
have le := C85_plonk_honest_failures okE ok comp good nz3 nm long (word_seeds eK) bd hold perm copies ut Ht.
have err : (3 * (5 * cc_size cc + 6) <= 2 ^ 32)%N by rewrite mulnDr mulnA; apply: (@pow_sixteen 28 (cc_size cc) 15 18 isT n28 isT isT).
have big : (2 ^ (219 + 32) <= #|F|)%N by rewrite cF; exact: (@to_nat_pow 251%num bls_r bls_big).
have := @fs_share #|F| (size tbls) 1 _ #|{: rand_table F K}| 219 32 _ err big.
rewrite !mul1n; apply; exact: le.
Qed.
