(* The list-level prover refines the polynomial-level honest run. *)
From Coq Require Import String Ascii NArith.
Set Warnings "-notation-overridden,-ambiguous-paths".
From mathcomp Require Import all_ssreflect all_algebra.
From mathcomp Require Import zify ring.
From Verif Require Import Base BaseLemmas ArkPoly ArkPolyLemmas ArkDomain ArkDomainLemmas
  ArkPolyFft ArkPolyFftLemmas KzgModel KzgSpec KzgLemmas PlonkModel PlonkSpec PlonkLemmas.

Set Implicit Arguments.
Unset Strict Implicit.
Unset Printing Implicit Defensive.

Import GRing.Theory.
Local Open Scope ring_scope.

Section Slices.
Variables (F : fieldType).
Implicit Types (p : seq F) (t : {poly F}).

Lemma slice_len_code len : (let tmp0 := len %/ 3 in if tmp0 * 3 < len then tmp0 + 1 else tmp0)%N
  = ((len + 2) %/ 3)%N.
Proof. by move=> /=; case: ltnP => h; lia. Qed.

Lemma nth_chunks fuel k p i : (size p <= fuel)%N -> (0 < k)%N ->
  nth [::] (chunks_fuel fuel k p) i = take k (drop (i * k) p).
Proof.
elim: fuel p i => [|f IH] p i /= le k0.
  by case: p le => // _; rewrite nth_nil.
case: p le => [|a p] le; first by rewrite nth_nil.
case: i => [|i]; first by rewrite mul0n drop0.
by rewrite /= IH ?drop_drop ?mulSn 1?addnC // size_drop; move: le => /=; lia.
Qed.

Lemma size_chunks fuel k p m : (size p <= fuel)%N -> (0 < k)%N -> (size p <= m * k)%N ->
  (size (chunks_fuel fuel k p) <= m)%N.
Proof.
elim: fuel p m => [|f IH] p m //= le k0 lm.
case: p le lm => [|a p] //= le lm; case: m lm => [|m] lm //.
by rewrite ltnS IH // size_drop /=; lia.
Qed.

Lemma nth_map_trim (l : seq (seq F)) i : nth [::] [seq trim c | c <- l] i = trim (nth [::] l i).
Proof.
case: (ltnP i (size l)) => h; first by rewrite (nth_map [::]).
by rewrite !nth_default ?size_map.
Qed.

(* the slices of a stored polynomial *)
Lemma slice_newE p : trimmed p -> p != [::] ->
  exists2 sp, slice_new p = Ret sp &
  [/\ size (sl_slices sp) = 3%N, sl_degree sp = (slice_len (Poly p) - 1)%N &
      forall i, (i < 3)%N -> Poly (nth [::] (sl_slices sp) i) = slice_of (Poly p) i /\
                trimmed (nth [::] (sl_slices sp) i)].
Proof.
move=> tp ne; rewrite /slice_new.
have := slice_len_code (size p); rewrite /= => ->.
have -> : ((size p + 2) %/ 3)%N = slice_len (Poly p) by rewrite /slice_len (trimmed_size tp).
set d := slice_len _.
have sz : (0 < size p)%N by case: (p) ne.
have d0 : (0 < d)%N by rewrite /d /slice_len -(trimmed_size tp); lia.
rewrite -lt0n d0 /oassert bindRet.
have le3 : (size [seq trim c | c <- chunks_fuel (size p) d p] <= 3)%N.
  rewrite size_map; apply: size_chunks => //.
  by rewrite /d /slice_len -(trimmed_size tp); lia.
rewrite le3 bindRet; eexists; first by [].
have nthE i : (i < 3)%N -> nth [::] ([seq trim c | c <- chunks_fuel (size p) d p] ++
    nseq (3 - size [seq trim c | c <- chunks_fuel (size p) d p]) [::]) i =
    trim (take d (drop (i * d) p)).
  move=> i3; rewrite nth_cat nth_nseq.
  case: ltnP => h; first by rewrite nth_map_trim nth_chunks.
  rewrite if_same; move: h; rewrite size_map => h.
  by rewrite -(@nth_chunks (size p)) // nth_default.
split=> //=.
  by rewrite size_cat size_nseq; lia.
move=> i i3; rewrite nthE //; split; last exact: trimmed_trim.
rewrite Poly_trim; apply/polyP => j; rewrite coef_Poly coef_poly coef_Poly.
case: ltnP => h; last by rewrite nth_default // size_take_min; lia.
by rewrite nth_take // nth_drop.
Qed.

Lemma slice_new_nil : slice_new ([::] : seq F) = Panic.
Proof. by []. Qed.

Lemma slice_len_gt0 t : t != 0 -> (0 < slice_len t)%N.
Proof. by rewrite -size_poly_gt0 /slice_len; lia. Qed.

Lemma size_slice_of t i : (size (slice_of t i) <= slice_len t)%N.
Proof. exact: size_poly. Qed.

(* recombination *)
Lemma slices_sum t : t = slice_of t 0 + 'X^(slice_len t) * slice_of t 1 +
  'X^(2 * slice_len t) * slice_of t 2.
Proof.
apply/polyP => j; rewrite !coefD !coefXnM /slice_of !coef_poly mul0n add0n mul1n.
set d := slice_len t.
have le : (size t <= 3 * d)%N by rewrite /d /slice_len; lia.
case: (ltnP j d) => h1.
  by rewrite (_ : j < 2 * d)%N ?addr0 //; lia.
rewrite add0r; case: (ltnP j (2 * d)) => h2.
  by rewrite addr0 ifT ?subnKC //; lia.
rewrite ifF ?add0r; last by lia.
case: (ltnP (j - 2 * d) d) => h3; first by rewrite subnKC.
by rewrite nth_default //; apply: leq_trans le _; lia.
Qed.

Lemma slice_compactE (sp : slice_poly F) t zeta : t != 0 -> size (sl_slices sp) = 3%N ->
  sl_degree sp = (slice_len t - 1)%N ->
  (forall i, (i < 3)%N -> Poly (nth [::] (sl_slices sp) i) = slice_of t i /\
                trimmed (nth [::] (sl_slices sp) i)) ->
  exists2 p, slice_compact sp zeta = Ret p &
    Poly p = slice_of t 0 + (zeta ^+ slice_len t) *: slice_of t 1 +
             (zeta ^+ (2 * slice_len t)) *: slice_of t 2 /\ trimmed p.
Proof.
move=> t0 sz dg Hs; rewrite /slice_compact sz dg /= subnK ?slice_len_gt0 //.
eexists; first by [].
rewrite !Poly_padd !Poly_pscale; split; last exact: trimmed_trim.
by do 3 rewrite (proj1 (Hs _ _)) //; rewrite muln0 muln1 expr0 scale1r mulnC.
Qed.

End Slices.

Section Wf.
Variables (F : fieldType) (P : fft_field F) (cc : compiled_circuit F).
Hypotheses (ok : fft_ok P) (wf : wf_compiled P cc).
Local Notation n := (cc_size cc).
Local Notation w := (omega_of P cc).
Local Notation g := (cc_gate cc).
Local Notation k := (cc_copy cc).

Lemma wf_size : n = (2 ^ up_log 2 n)%N.
Proof. by case/and3P: wf => _ /eqP. Qed.

Lemma wf_gt0 : (0 < n)%N.
Proof. by rewrite wf_size expn_gt0. Qed.

Lemma wf_prim : n.-primitive_root w.
Proof.
rewrite {1}wf_size; apply: root_of_unity_prim => //.
by case/and3P: wf.
Qed.

Lemma wf_nz : n%:R != 0 :> F.
Proof. by rewrite wf_size (two_pow_neq0 ok). Qed.

Lemma wf_domain : domain_new P n = Some (Domain n w).
Proof. by rewrite /domain_new /omega_of -wf_size; case/and3P: wf => _ _ ->. Qed.

Lemma wf_poly p : p \in stored_polys cc -> trimmed p /\ (size (Poly p) <= n)%N.
Proof.
case/and3P: wf => /allP Ha _ _ /Ha /andP[tp sz]; split=> //.
by rewrite -(trimmed_size tp).
Qed.

Ltac in_stored := by rewrite /stored_polys !inE eqxx ?orbT.
Lemma wf_fa : trimmed (f_ax g) /\ (size (Poly (f_ax g)) <= n)%N. Proof. apply: wf_poly; in_stored. Qed.
Lemma wf_fb : trimmed (f_bx g) /\ (size (Poly (f_bx g)) <= n)%N. Proof. apply: wf_poly; in_stored. Qed.
Lemma wf_fc : trimmed (f_cx g) /\ (size (Poly (f_cx g)) <= n)%N. Proof. apply: wf_poly; in_stored. Qed.
Lemma wf_ql : trimmed (q_lx g) /\ (size (Poly (q_lx g)) <= n)%N. Proof. apply: wf_poly; in_stored. Qed.
Lemma wf_qr : trimmed (q_rx g) /\ (size (Poly (q_rx g)) <= n)%N. Proof. apply: wf_poly; in_stored. Qed.
Lemma wf_qo : trimmed (q_ox g) /\ (size (Poly (q_ox g)) <= n)%N. Proof. apply: wf_poly; in_stored. Qed.
Lemma wf_qm : trimmed (q_mx g) /\ (size (Poly (q_mx g)) <= n)%N. Proof. apply: wf_poly; in_stored. Qed.
Lemma wf_qc : trimmed (q_cx g) /\ (size (Poly (q_cx g)) <= n)%N. Proof. apply: wf_poly; in_stored. Qed.
Lemma wf_pi : trimmed (pi_x g) /\ (size (Poly (pi_x g)) <= n)%N. Proof. apply: wf_poly; in_stored. Qed.
Lemma wf_s1 : trimmed (s_sigma_1 k) /\ (size (Poly (s_sigma_1 k)) <= n)%N. Proof. apply: wf_poly; in_stored. Qed.
Lemma wf_s2 : trimmed (s_sigma_2 k) /\ (size (Poly (s_sigma_2 k)) <= n)%N. Proof. apply: wf_poly; in_stored. Qed.
Lemma wf_s3 : trimmed (s_sigma_3 k) /\ (size (Poly (s_sigma_3 k)) <= n)%N. Proof. apply: wf_poly; in_stored. Qed.

End Wf.

Section Rounds.
Variables (F : fieldType) (E : pairing_group F) (X : plonk_env E).
Variables (cc : compiled_circuit F).
Local Notation P := (pk_fft X).
Hypotheses (ok : fft_ok P) (wf : wf_compiled P cc).
Local Notation n := (cc_size cc).
Local Notation w := (omega_of P cc).
Local Notation g := (cc_gate cc).
Local Notation k := (cc_copy cc).
Local Notation dom := (Domain n w).
Local Notation bd := (4 * n + 6 <= 2 ^ two_adicity P)%N.
Let prim := wf_prim ok wf.
Let n0 := wf_gt0 wf.
Let nz := wf_nz ok wf.

Lemma w_n : w ^+ n = 1. Proof. exact: prim_expr_order. Qed.

(* round 1 *)
Lemma Poly2 (x y : F) : Poly (trim [:: x; y]) = x%:P + y *: 'X.
Proof. by rewrite Poly_trim !Poly_cons Poly_nil mulr0 addr0 -mul_polyC mulrC. Qed.

Lemma Poly3 (x y z : F) : Poly (trim [:: x; y; z]) = x%:P + y *: 'X + z *: 'X^2.
Proof.
rewrite Poly_trim !Poly_cons Poly_nil mulr0 addr0 -!mul_polyC expr2.
by rewrite mulrDr addrA; congr (_ + _ + _); rewrite ?mulrA mulrC ?mulrA.
Qed.

Lemma Poly1 (x : F) : Poly (trim [:: x]) = x%:P.
Proof. by rewrite Poly_trim !Poly_cons Poly_nil mulr0 addr0. Qed.

Lemma ZHE : zpoly F n = ZH F n. Proof. by []. Qed.

Lemma blind_wireE f b' b'' : Poly (blind_wire dom f b' b'') = Poly f + (b''%:P + b' *: 'X) * ZH F n.
Proof. by rewrite Poly_padd Poly_mul_vanishing Poly2. Qed.

Lemma size_blind (f : {poly F}) b' b'' : (size f <= n)%N ->
  (size (f + (b''%:P + b' *: 'X) * ZH F n)%R <= n + 2)%N.
Proof.
move=> sf; apply: size_add_le; first by apply: leq_trans sf _; rewrite leq_addr.
apply: (@size_mul_le _ _ _ 2 n.+1); last by lia.
  apply: size_add_le; first exact: size_polyC_le.
  by apply: size_scale_le; rewrite size_polyX.
by rewrite size_zpoly.
Qed.

(* round 2 *)
Lemma acc_num_spec beta gamma i : acc_numerator cc beta gamma (w ^+ i) = perm_num w cc beta gamma i.
Proof. by rewrite /acc_numerator !pevalE. Qed.

Lemma acc_den_spec beta gamma i : acc_denominator cc beta gamma (w ^+ i) = perm_den w cc beta gamma i.
Proof. by rewrite /acc_denominator !pevalE. Qed.

Definition gp beta gamma (i : nat) : F :=
  \prod_(j < i) (perm_num w cc beta gamma j / perm_den w cc beta gamma j).

Lemma gpS beta gamma i : gp beta gamma i.+1 =
  gp beta gamma i * (perm_num w cc beta gamma i / perm_den w cc beta gamma i).
Proof. by rewrite /gp big_ord_recr. Qed.

Lemma nth_dom_elements i : (i < n)%N -> ohead (drop i (dom_elements dom)) = Some (w ^+ i).
Proof.
move=> li; rewrite (drop_nth 0) /dom_elements ?size_map ?size_iota //=.
by rewrite (nth_map 0%N) ?size_iota // nth_iota.
Qed.

Lemma acc_loop beta gamma j c : (j + c <= n.-1)%N ->
  ois true (all (fun i => perm_den w cc beta gamma i != 0) (iota j c))
    (ofold (fun (st : seq F * F) i =>
          w' <- unwrap (ohead (drop (i - 1) (dom_elements dom)));;
          q <- fdiv (st.2 * acc_numerator cc beta gamma w') (acc_denominator cc beta gamma w');;
          Ret (rcons st.1 q, q))
        ([seq gp beta gamma i | i <- iota 0 j.+1], gp beta gamma j) (iota j.+1 c))
    (fun st => st.1 = [seq gp beta gamma i | i <- iota 0 (j + c).+1]).
Proof.
elim: c j => [|c IH] j le; first by rewrite addn0.
rewrite [iota j.+1 _]/= [ofold _ _ _]/= subn1 [j.+1.-1]/= nth_dom_elements; last by lia.
rewrite !bindRet acc_num_spec acc_den_spec /fdiv [all _ _]/=.
case: eqP => [_|_] //=.
have -> : gp beta gamma j * perm_num w cc beta gamma j / perm_den w cc beta gamma j = gp beta gamma j.+1.
  by rewrite gpS mulrA.
have := IH j.+1; rewrite addSnnS => /(_ le).
by rewrite -[in iota 0 j.+2]addn1 iotaD map_cat cats1.
Qed.

Lemma compute_accE beta gamma :
  ois true (all (fun i => perm_den w cc beta gamma i != 0) (iota 0 n.-1))
    (compute_acc beta gamma dom cc)
    (fun acc => [/\ Poly acc.1 = interp n w (gp beta gamma),
                    Poly acc.2 = interp n w (gp beta gamma) \Po (w *: 'X),
                    trimmed acc.1 & trimmed acc.2]).
Proof.
rewrite /compute_acc /acc_values.
have := acc_loop beta gamma (leqnn (0 + n.-1)%N).
rewrite -[[seq _ | i <- iota 0 1]]/[:: gp beta gamma 0] /gp big_ord0 -/(gp _ _) subn1.
rewrite add0n prednK //; case: ofold => [st|e|] // [-> Est].
rewrite !bindRet; split=> //; rewrite Est.
split; try exact: trimmed_interpolate.
  apply: (interp_uniq prim); first exact: (@size_interpolate _ dom).
  move=> i li; rewrite (@interpolateE _ dom) //=.
  by rewrite (nth_map 0%N) ?size_iota // nth_iota.
apply: (@interpolate_uniq _ dom) => //=.
  apply: leq_trans (size_comp_poly_leq _ _) _.
  have := size_interp prim (gp beta gamma).
  have : (size (w *: 'X : {poly F})%R <= 2)%N by apply: size_scale_le; rewrite size_polyX.
  move: (size (w *: 'X)%R) (size (interp _ _ _)) => a c ha hc.
  by nia.
move=> i li; rewrite horner_comp !hornerE -exprS.
have -> : rot 1 [seq gp beta gamma i0 | i0 <- iota 0 n] =
  rcons [seq gp beta gamma i0 | i0 <- iota 1 n.-1] (gp beta gamma 0).
  by rewrite -{1}(prednK n0) /= rot1_cons.
rewrite nth_rcons size_map size_iota; case: ltnP => h.
  by rewrite (interpE prim) ?(nth_map 0%N) ?size_iota // ?nth_iota //; lia.
have -> : i = n.-1 by lia.
by rewrite eqxx prednK // w_n -[1](expr0 w) (interpE prim).
Qed.

Lemma ois_bd (T : Type) (b1 b2 c : bool) (m : outcome T) Q : (b2 -> b1) -> ois b1 c m Q -> ois b2 c m Q.
Proof. by case: m => //= h1 h2 /h1. Qed.

Lemma ZH_comp : ZH F n \Po (w *: 'X) = ZH F n.
Proof.
rewrite /ZH rmorphB rmorph1 rmorphX /= comp_polyX -mul_polyC exprMn_comm; last exact: mulrC.
by rewrite -rmorphX /= w_n mul1r.
Qed.

(* the permutation polynomial and its shift *)
Section PermZ.
Variables (b : nat -> F) (beta gamma : F) (acc_x acc_wx : seq F).
Hypotheses (Ex : Poly acc_x = interp n w (gp beta gamma))
           (Ew : Poly acc_wx = interp n w (gp beta gamma) \Po (w *: 'X)).
Local Notation z := (permZ n w cc b beta gamma).

Lemma z_xE : Poly (padd (mul_vanishing dom (trim [:: b 9%N; b 8%N; b 7%N])) acc_x) = z.
Proof. by rewrite Poly_padd Poly_mul_vanishing Poly3 Ex addrC. Qed.

Lemma z_wxE : Poly (padd (mul_vanishing dom (trim [:: b 9%N; b 8%N * w ^+ 1; b 7%N * dom_element dom 2])) acc_wx)
  = z \Po (w *: 'X).
Proof.
rewrite Poly_padd Poly_mul_vanishing Poly3 Ew addrC /permZ rmorphD rmorphM /= ZH_comp.
congr (_ + _ * _); rewrite !rmorphD /= !comp_polyZ rmorphX /= comp_polyX comp_polyC.
rewrite expr1 /dom_element /= scalerA; congr (_ + _ + _).
rewrite -[w *: 'X]mul_polyC exprMn_comm; last exact: mulrC.
by rewrite -rmorphX /= mul_polyC scalerA.
Qed.
End PermZ.

Lemma permZ_root b beta gamma i : (i < n)%N -> (permZ n w cc b beta gamma).[w ^+ i] = gp beta gamma i.
Proof.
move=> li; rewrite /permZ hornerD (interpE prim) // hornerM /ZH !hornerE hornerXn.
by rewrite -exprM mulnC exprM w_n expr1n subrr mulr0 addr0.
Qed.

Lemma permZ_1 b beta gamma : (permZ n w cc b beta gamma).[1] = 1.
Proof. by rewrite -[X in _.[X]](expr0 w) permZ_root // /gp big_ord0. Qed.

Lemma permZ_neq0 b beta gamma : permZ n w cc b beta gamma != 0.
Proof.
by apply/eqP => E0; have := permZ_1 b beta gamma; rewrite E0 horner0 => /eqP; rewrite eq_sym oner_eq0.
Qed.

Lemma size_permZ b beta gamma : (size (permZ n w cc b beta gamma) <= n + 3)%N.
Proof.
apply: size_add_le; first by apply: leq_trans (size_interp prim _) _; rewrite leq_addr.
apply: (@size_mul_le _ _ _ 3 n.+1); [|by rewrite size_zpoly|by lia].
apply: size_add_le; first apply: size_add_le; first exact: size_polyC_le.
  by apply: size_scale_le; rewrite size_polyX.
by apply: size_scale_le; rewrite size_polyXn.
Qed.

Lemma w_neq0 : w != 0.
Proof.
apply/eqP => E0; have := w_n; rewrite E0 expr0n eqn0Ngt n0 => /eqP.
by rewrite eq_sym oner_eq0.
Qed.

Lemma size_compw (f : {poly F}) : size (f \Po (w *: 'X)) = size f.
Proof. by rewrite size_comp_poly2 // size_scale ?w_neq0 // size_polyX. Qed.

(* round 3 *)
Lemma divide_by_vanishingE bd' p :
  ois bd' (ZH F n %| Poly p) (divide_by_vanishing_poly dom p)
      (fun q => Poly q * ZH F n = Poly p /\ trimmed q).
Proof.
rewrite /divide_by_vanishing_poly -ZHE -(@div_vanishing_rem _ dom) //.
case Ed: (div_vanishing dom p) => [q r] /=.
case: ifP => [dv|_] //=; split=> //.
have := @div_vanishing_quot _ dom p n0; rewrite -div_vanishing_rem // Ed => -> //; split=> //.
by have := trimmed_trim (div_vanishing_fuel (size p).+1 (dom_size dom) p).1;
   move: Ed; rewrite /div_vanishing => -[<- _].
Qed.

(* lia without the context *)
Ltac cl := clear; lia.

Section Round3.
Variables (ax bx cx z_x z_wx : seq F) (A B C z : {poly F}).
Hypotheses (EA : Poly ax = A) (EB : Poly bx = B) (EC : Poly cx = C) (Ez : Poly z_x = z)
  (Ezw : Poly z_wx = z \Po (w *: 'X)).
Hypotheses (tA : trimmed ax) (tB : trimmed bx) (tC : trimmed cx) (tz : trimmed z_x) (tzw : trimmed z_wx).
Hypotheses (sA : (size A <= n + 2)%N) (sB : (size B <= n + 2)%N) (sC : (size C <= n + 2)%N)
  (sz : (size z <= n + 3)%N).

Let bdE : bd -> (4 * n + 6 <= 2 ^ two_adicity P)%N. Proof. by []. Qed.

Lemma line1E : ois bd true (quotient_line1 X cc ax bx cx)
  (fun r => Poly r = gate_poly cc A B C /\ trimmed r).
Proof.
have [tqm sqm] := wf_qm wf; have [tql sql] := wf_ql wf; have [tqr sqr] := wf_qr wf.
have [tqo sqo] := wf_qo wf; rewrite /quotient_line1.
apply: ois_bindT (pmul_ois (trimmed_normal tA) (trimmed_normal tB) EA EB _ bdE) _.
  by apply: leq_trans (leq_add sA sB) _; cl.
move=> ab [Eab tab].
apply: ois_bindT (pmul_ois (trimmed_normal tab) (trimmed_normal tqm) Eab erefl _ bdE) _.
  have sAB : (size (A * B)%R <= 2 * n + 3)%N by apply: size_mul_le sA sB _; cl.
  by apply: leq_trans (leq_add sAB sqm) _; cl.
move=> t1 [E1 _].
apply: ois_bindT (pmul_ois (trimmed_normal tA) (trimmed_normal tql) EA erefl _ bdE) _.
  by apply: leq_trans (leq_add sA sql) _; cl.
move=> t2 [E2 _].
apply: ois_bindT (pmul_ois (trimmed_normal tB) (trimmed_normal tqr) EB erefl _ bdE) _.
  by apply: leq_trans (leq_add sB sqr) _; cl.
move=> t3 [E3 _].
apply: ois_bindT (pmul_ois (trimmed_normal tC) (trimmed_normal tqo) EC erefl _ bdE) _.
  by apply: leq_trans (leq_add sC sqo) _; cl.
move=> t4 [E4 _]; split=> //; rewrite !Poly_padd E1 E2 E3 E4; split=> //.
exact: trimmed_trim.
Qed.

Section Factors.
Variables (beta gamma : F).
Local Notation k1 := (cc_k1 k).
Local Notation k2 := (cc_k2 k).
Local Notation s1 := (Poly (s_sigma_1 k)).
Local Notation s2 := (Poly (s_sigma_2 k)).
Local Notation s3 := (Poly (s_sigma_3 k)).

Lemma fac_num p f c : Poly p = f -> (size f <= n + 2)%N ->
  Poly (padd p (trim [:: gamma; c])) = f + c *: 'X + gamma%:P /\
  (size (f + c *: 'X + gamma%:P)%R <= n + 2)%N.
Proof.
move=> Ep sf; rewrite Poly_padd Poly2 Ep; split; first by rewrite addrCA addrC -addrA addrC.
apply: size_add_le; last by apply: size_polyC_le; rewrite addn2.
by apply: size_add_le => //; apply: size_scale_le; rewrite size_polyX addn2.
Qed.

Lemma fac_den p f s : Poly p = f -> (size f <= n + 2)%N -> (size (Poly s) <= n)%N ->
  Poly (padd (padd p (pscale s beta)) (trim [:: gamma])) = f + beta *: Poly s + gamma%:P /\
  (size (f + beta *: Poly s + gamma%:P)%R <= n + 2)%N.
Proof.
move=> Ep sf ss; rewrite !Poly_padd Poly1 Ep Poly_pscale; split=> //.
apply: size_add_le; last by apply: size_polyC_le; rewrite addn2.
apply: size_add_le => //; apply: size_scale_le; apply: leq_trans ss _; exact: leq_addr.
Qed.

Definition numP : {poly F} := (A + beta *: 'X + gamma%:P) * (B + (beta * k1) *: 'X + gamma%:P) *
    (C + (beta * k2) *: 'X + gamma%:P).
Definition denP : {poly F} := (A + beta *: s1 + gamma%:P) * (B + beta *: s2 + gamma%:P) *
    (C + beta *: s3 + gamma%:P).

Lemma size3 (f1 f2 f3 : {poly F}) : (size f1 <= n + 2)%N -> (size f2 <= n + 2)%N ->
  (size f3 <= n + 2)%N -> (size (f1 * f2 * f3)%R <= 3 * n + 4)%N.
Proof.
move=> h1 h2 h3; apply: (@size_mul_le _ _ _ (2 * n + 3)) h3 _; last by cl.
by apply: size_mul_le h1 h2 _; cl.
Qed.

Lemma prod3E p1 p2 p3 (f1 f2 f3 : {poly F}) : normal p1 -> normal p2 -> normal p3 ->
  Poly p1 = f1 -> Poly p2 = f2 -> Poly p3 = f3 ->
  (size f1 <= n + 2)%N -> (size f2 <= n + 2)%N -> (size f3 <= n + 2)%N ->
  ois bd true (m1 <- pmul P p1 p2;; pmul P m1 p3) (fun r => Poly r = f1 * f2 * f3 /\ trimmed r).
Proof.
move=> n1 n2 n3 E1 E2 E3 h1 h2 h3.
apply: ois_bindT (pmul_ois n1 n2 E1 E2 _ bdE) _.
  by apply: leq_trans (leq_add h1 h2) _; cl.
move=> m1 [Em tm]; apply: pmul_ois (trimmed_normal tm) n3 Em E3 _ bdE.
have sm : (size (f1 * f2)%R <= 2 * n + 3)%N by apply: size_mul_le h1 h2 _; cl.
by apply: leq_trans (leq_add sm h3) _; cl.
Qed.

Lemma perm_numE : ois bd true (perm_num_poly X cc beta gamma ax bx cx)
  (fun r => Poly r = numP /\ trimmed r).
Proof.
have [e1 h1] := fac_num beta EA sA; have [e2 h2] := fac_num (beta * k1) EB sB.
have [e3 h3] := fac_num (beta * k2) EC sC.
by apply: prod3E e1 e2 e3 h1 h2 h3; apply: normal_trim.
Qed.

Lemma perm_denE : ois bd true (perm_den_poly X cc beta gamma ax bx cx)
  (fun r => Poly r = denP /\ trimmed r).
Proof.
have [e1 h1] := fac_den EA sA (proj2 (wf_s1 wf)); have [e2 h2] := fac_den EB sB (proj2 (wf_s2 wf)).
have [e3 h3] := fac_den EC sC (proj2 (wf_s3 wf)).
by apply: prod3E e1 e2 e3 h1 h2 h3; apply: normal_trim.
Qed.

Lemma size_numP : (size numP <= 3 * n + 4)%N.
Proof.
by apply: size3; [case: (fac_num beta EA sA) | case: (fac_num (beta * k1) EB sB)
  | case: (fac_num (beta * k2) EC sC)].
Qed.

Lemma size_denP : (size denP <= 3 * n + 4)%N.
Proof.
apply: size3; [case: (fac_den EA sA (proj2 (wf_s1 wf))) => //
 | case: (fac_den EB sB (proj2 (wf_s2 wf))) => //
 | case: (fac_den EC sC (proj2 (wf_s3 wf))) => //].
Qed.

Lemma perm_polyE : perm_poly w cc beta gamma A B C z = numP * z - denP * (z \Po (w *: 'X)).
Proof. by []. Qed.

Lemma l1_polyE : Poly (l1_poly dom) = lagrange n w 0.
Proof.
apply: (@interpolate_uniq _ dom) => //=; first exact: size_lagrange.
move=> i li; rewrite (lagrangeE prim) //.
by case: i li => [|i] li //=; rewrite nth_nseq if_same.
Qed.

Hypothesis z1 : z.[1] = 1.

Lemma z_neq0 : z_x != [::].
Proof.
rewrite trimmed_eq0 // Ez; apply/eqP => E0; move: z1; rewrite E0 horner0 => /eqP.
by rewrite eq_sym oner_eq0.
Qed.

Lemma quotientE alpha :
  ois bd ((ZH F n %| gate_poly cc A B C) && (ZH F n %| alpha *: perm_poly w cc beta gamma A B C z))
    (compute_quotient_polynomial X beta gamma alpha ax bx cx z_x z_wx dom cc)
    (fun t => Poly t = (gate_poly cc A B C + alpha *: perm_poly w cc beta gamma A B C z
       + (alpha ^+ 2) *: ((z - 1) * lagrange n w 0)) %/ ZH F n /\ trimmed t).
Proof.
rewrite /compute_quotient_polynomial.
apply: ois_bindT line1E _ => line1 [El1 tl1].
apply: ois_bind.
  apply: ois_cond (divide_by_vanishingE bd line1).
  by rewrite El1.
move=> q1 _ [Eq1 tq1].
apply: ois_bindT perm_numE _ => m2 [Em2 tm2].
apply: ois_bindT (pmul_ois (trimmed_normal tm2) (trimmed_normal tz) Em2 Ez _ bdE) _.
  by apply: leq_trans (leq_add size_numP sz) _; cl.
move=> m2z [Em2z tm2z].
apply: ois_bindT perm_denE _ => m3 [Em3 tm3].
apply: ois_bindT (pmul_ois (trimmed_normal tm3) (trimmed_normal tzw) Em3 Ezw _ bdE) _.
  have szw : (size (z \Po (w *: 'X)) <= n + 3)%N by rewrite size_compw.
  by apply: leq_trans (leq_add size_denP szw) _; cl.
move=> m3z [Em3z tm3z].
have E23 : Poly (psub (pscale m2z alpha) (pscale m3z alpha)) = alpha *: perm_poly w cc beta gamma A B C z.
  by rewrite Poly_psub !Poly_pscale Em2z Em3z perm_polyE scalerBr.
rewrite -[ZH F n %| alpha *: _]andbT; apply: ois_bind.
  by apply: ois_cond (divide_by_vanishingE bd _); rewrite E23.
move=> q23 _ [Eq23 tq23].
have [zx2 Ezx2] := padd_coeff0_ret (-1) z_neq0; rewrite Ezx2 bindRet.
have [_ E2 n2] := padd_coeff0P Ezx2.
have {}E2 : Poly zx2 = z - 1 by rewrite E2 Ez rmorphN1.
have sz2 : (size (z - 1)%R <= n + 3)%N.
  by apply: size_sub_le => //; rewrite size_poly1 addn3.
apply: ois_bindT (pmul_ois (n2 tz) (trimmed_normal _) E2 l1_polyE _ bdE) _.
  exact: trimmed_interpolate.
  by apply: leq_trans (leq_add sz2 (size_lagrange prim n0)) _; cl.
move=> m4 [Em4 tm4].
have E4 : Poly (pscale m4 (alpha * alpha)) = alpha ^+ 2 *: ((z - 1) * lagrange n w 0).
  by rewrite Poly_pscale Em4 expr2.
apply: ois_bindT.
  apply: ois_cond (divide_by_vanishingE bd _); rewrite E4.
  rewrite -mul_polyC; apply: dvdp_mull; rewrite -ZHE (zpoly_dvd _ prim); apply/allP=> i; rewrite mem_iota add0n /= => li.
  rewrite hornerM (lagrangeE prim) //; case: i li => [|i] li; last by rewrite mulr0.
  by rewrite expr0 -[in (z - 1)]polyC1 hornerD hornerN hornerC z1 subrr mul0r.
move=> q4 [Eq4 tq4]; split=> //; split; last exact: trimmed_trim.
rewrite !Poly_padd -E4 -E23 -El1 -Eq1 -Eq23 -Eq4 -!mulrDl mulpK //.
by rewrite -ZHE zpoly_neq0.
Qed.

(* round 5 *)
Lemma padd_coeff0E bd' (p : seq F) a : trimmed p ->
  ois bd' (Poly p != 0) (padd_coeff0 p a) (fun r => Poly r = Poly p + a%:P /\ normal r).
Proof.
move=> tp; rewrite -trimmed_eq0 //; case E0: (p == [::]) => /=.
  by move/eqP: E0 => ->.
have [r Er] := padd_coeff0_ret a (negbT E0); rewrite Er /=.
by have [_ Ep nr] := padd_coeff0P Er; split=> //; split=> //; apply: nr.
Qed.

Lemma s3_scaled : (Poly (pscale (s_sigma_3 k) beta) != 0) = (beta != 0) && (s3 != 0).
Proof. by rewrite Poly_pscale scaler_eq0 negb_or. Qed.

Lemma linearisationE alpha ec tx_compact (T : {poly F}) : Poly tx_compact = T ->
  let ba := A.[ec] in let bb := B.[ec] in let bc := C.[ec] in
  ois bd ((lin_gate cc ba bb bc != 0) && ((beta != 0) && (s3 != 0)))
    (compute_linearisation_polynomial X beta gamma alpha ec ba bb bc s1.[ec] s2.[ec] z.[ec * w]
       (Poly (pi_x g)).[ec] tx_compact z_x ax bx cx z_wx dom cc)
    (fun r => Poly r =
       lin_gate cc ba bb bc + ((Poly (pi_x g)).[ec])%:P
       + (alpha * (ba + beta * ec + gamma) * (bb + beta * k1 * ec + gamma) *
           (bc + beta * k2 * ec + gamma)) *: z
       - (alpha * (ba + beta * s1.[ec] + gamma) * (bb + beta * s2.[ec] + gamma) * z.[ec * w])
           *: (beta *: s3 + (bc + gamma)%:P)
       + (alpha ^+ 2 * (lagrange n w 0).[ec]) *: (z - 1)
       - ((ZH F n).[ec]) *: T /\ trimmed r).
Proof.
move=> ET /=; rewrite /compute_linearisation_polynomial.
set line1_0 := padd _ (q_cx g).
have El0 : Poly line1_0 = lin_gate cc A.[ec] B.[ec] C.[ec].
  by rewrite !Poly_padd !Poly_pscale.
apply: ois_bind.
  by apply: ois_cond (padd_coeff0E bd _ (trimmed_trim _)); rewrite -El0.
move=> line1 _ [El1 _].
rewrite -[X in ois _ X]andbT; apply: ois_bind.
  apply: ois_cond (padd_coeff0E bd _ (trimmed_pscale beta (proj1 (wf_s3 wf)))).
  exact: s3_scaled.
move=> tmp2 _ [Et2 _].
apply: ois_bindT perm_numE _ => n2 [En2 tn2].
have En2' : Poly (pscale n2 alpha) = alpha *: numP by rewrite Poly_pscale En2.
apply: ois_bindT (pmul_ois (trimmed_normal (trimmed_pscale alpha tn2)) (trimmed_normal tz) En2' Ez _ bdE) _.
  apply: leq_trans (leq_add (size_scale_le alpha size_numP) sz) _; cl.
move=> line22 [E22 _].
apply: ois_bindT perm_denE _ => n3 [En3 tn3].
have En3' : Poly (pscale n3 alpha) = alpha *: denP by rewrite Poly_pscale En3.
apply: ois_bindT (pmul_ois (trimmed_normal (trimmed_pscale alpha tn3)) (trimmed_normal tzw) En3' Ezw _ bdE) _.
  have szw : (size (z \Po (w *: 'X)) <= n + 3)%N by rewrite size_compw.
  apply: leq_trans (leq_add (size_scale_le alpha size_denP) szw) _; cl.
move=> line32 [E32 _].
apply: (@ois_bindT _ _ _ _ _ _ (fun=> True)).
  rewrite /oassert ifT //; apply/eqP.
  rewrite !pevalE E22 E32 !Poly_pscale Et2 Poly_pscale Ez /numP /denP.
  rewrite !hornerE horner_comp !hornerE [w * ec]mulrC.
  rewrite /=; move: A.[ec] B.[ec] C.[ec] s1.[ec] s2.[ec] s3.[ec] z.[ec] z.[ec * w] => *; ring.
move=> _ _.
have [zx2 Ezx2] := padd_coeff0_ret (-1) z_neq0; rewrite Ezx2 bindRet.
have [_ E2 _] := padd_coeff0P Ezx2.
have {}E2 : Poly zx2 = z - 1 by rewrite E2 Ez rmorphN1.
split=> //; split; last exact: trimmed_trim.
rewrite !Poly_padd !Poly_pneg !Poly_pscale El1 El0 Et2 Poly_pscale E2 Ez ET !pevalE l1_polyE.
have -> : vanishing_at dom ec = (ZH F n).[ec].
  by rewrite /vanishing_at /ZH -polyC1 hornerD hornerN hornerXn hornerC.
rewrite scalerA; congr (_ + _ + _ *: _ - _ *: _ + _ *: _ - _).
- by rewrite mulrC !mulrA.
- by rewrite [LHS]mulrC !mulrA.
Qed.

Lemma openingE r_x r v ec : Poly r_x = r -> trimmed r_x ->
  ois bd ((r != 0) && ((A != 0) && ((B != 0) && ((C != 0) && ((s1 != 0) && (s2 != 0))))))
    (opening_sum cc r_x ax bx cx r.[ec] A.[ec] B.[ec] C.[ec] s1.[ec] s2.[ec] v)
    (fun q => Poly q = (r - (r.[ec])%:P) + v *: (A - (A.[ec])%:P) + (v ^+ 2) *: (B - (B.[ec])%:P) +
       (v ^+ 3) *: (C - (C.[ec])%:P) + (v ^+ 4) *: (s1 - (s1.[ec])%:P) +
       (v ^+ 5) *: (s2 - (s2.[ec])%:P) /\ trimmed q).
Proof.
move=> Er tr; rewrite /opening_sum /poly_sub_para.
apply: ois_bind; first by apply: ois_cond (padd_coeff0E bd _ tr); rewrite Er.
move=> p0 _ [E0 _].
apply: ois_bind; first by apply: ois_cond (padd_coeff0E bd _ tA); rewrite EA.
move=> p1 _ [E1 _].
apply: ois_bind; first by apply: ois_cond (padd_coeff0E bd _ tB); rewrite EB.
move=> p2 _ [E2 _].
apply: ois_bind; first by apply: ois_cond (padd_coeff0E bd _ tC); rewrite EC.
move=> p3 _ [E3 _].
apply: ois_bind; first by apply: ois_cond (padd_coeff0E bd _ (proj1 (wf_s1 wf))).
move=> p4 _ [E4 _].
rewrite -[X in ois _ X]andbT.
apply: ois_bind; first by apply: ois_cond (padd_coeff0E bd _ (proj1 (wf_s2 wf))).
move=> p5 _ [E5 _]; split=> //; split; last exact: trimmed_trim.
rewrite !Poly_padd !Poly_pscale E0 E1 E2 E3 E4 E5 Er EA EB EC !rmorphN /=.
by rewrite -expr2 -!exprSr.
Qed.

Lemma checked_divE (p : seq F) f (x : F) : Poly p = f -> normal p -> f.[x] = 0 ->
  exists2 q, checked_div p x = Ret q & Poly q = f %/ ('X - x%:P) /\ normal q.
Proof.
move=> <- np E0; have [qr Eqr [Eq nq]] := divide_qr_linE x np.
rewrite E0 eqxx => e; exists qr.1; first by rewrite /checked_div Eqr bindRet e.
by rewrite Eq E0 polyC0 subr0.
Qed.

End Factors.

End Round3.

End Rounds.
