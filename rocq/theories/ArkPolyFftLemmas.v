(* Lemmas about ArkPolyFft.v: every list operation against mathcomp {poly F}. *)
Set Warnings "-notation-overridden,-ambiguous-paths".
From mathcomp Require Import all_ssreflect all_algebra.
From mathcomp Require Import zify ring.
From Verif Require Import Base BaseLemmas ArkPoly ArkPolyLemmas ArkDomain ArkDomainLemmas ArkPolyFft
  KzgModel KzgSpec KzgLemmas.

Set Implicit Arguments.
Unset Strict Implicit.
Unset Printing Implicit Defensive.

Import GRing.Theory.
Local Open Scope ring_scope.

Section ArkPolyFftLemmas.
Variables (F : fieldType) (P : fft_field F).
Implicit Types (s p q v : seq F) (x a z : F) (d : domain F).

(* coefficient lists on which `degree` does not panic *)
Definition normal p : bool := (Poly p == 0) || (last 0 p != 0).

Lemma normal_trim p : normal (trim p).
Proof.
rewrite /normal Poly_trim; case: eqP => //= /eqP ne.
by apply: trim_last (trim_trim p); rewrite trim_zero.
Qed.

Lemma normal_nil : normal [::].
Proof. by rewrite /normal Poly_nil eqxx. Qed.

Lemma normal_padd p q : normal (padd p q).
Proof. exact: normal_trim. Qed.

Lemma normal_size p : normal p -> Poly p != 0 -> size p = size (Poly p).
Proof.
by rewrite /normal => /orP[-> //|ln] _; rewrite -size_trim (last_neq0_trim ln).
Qed.

Lemma Poly_pneg p : Poly (pneg p) = - Poly p.
Proof.
elim: p => [|a p IH]; first by rewrite Poly_nil oppr0.
by rewrite [pneg _]/= !Poly_cons -/(pneg p) IH rmorphN /=; ring.
Qed.

Lemma Poly_psub p q : Poly (psub p q) = Poly p - Poly q.
Proof. by rewrite Poly_trim padd_rawE Poly_pneg. Qed.

Lemma Poly_scalel p a : Poly [seq a * b | b <- p] = a%:P * Poly p.
Proof.
elim: p => [|b p IH]; first by rewrite Poly_nil mulr0.
by rewrite map_cons !Poly_cons IH rmorphM /=; ring.
Qed.

Lemma Poly_pmul_raw p q : Poly (pmul_raw p q) = Poly p * Poly q.
Proof.
elim: p => [|a p IH]; first by rewrite Poly_nil mul0r.
rewrite [pmul_raw _ _]/= -/(pmul_raw p q) padd_rawE Poly_scalel !Poly_cons IH.
by rewrite polyC0; ring.
Qed.

Lemma pmulP p q r : pmul P p q = Ret r -> Poly r = Poly p * Poly q /\ normal r.
Proof.
rewrite /pmul !pis_zeroP; case: eqP => [->|_] /=.
  by case=> <-; rewrite Poly_nil mul0r normal_nil.
case: eqP => [->|_] /=; first by case=> <-; rewrite Poly_nil mulr0 normal_nil.
by case: domain_new => // _ [<-]; rewrite Poly_trim Poly_pmul_raw normal_trim.
Qed.

Lemma pmul_cases p q : is_ret (pmul P p q) \/ pmul P p q = Panic.
Proof.
rewrite /pmul; case: (_ || _); first by left.
by case: domain_new => [_|]; [left|right].
Qed.

(* a product that fits in the largest domain *)
Lemma pmul_ret p q n : normal p -> normal q -> (size (Poly p) + size (Poly q) <= n.+1)%N ->
  (n <= 2 ^ two_adicity P)%N -> exists2 r, pmul P p q = Ret r & Poly r = Poly p * Poly q /\ normal r.
Proof.
move=> np nq le le2.
suff [r E] : exists r, pmul P p q = Ret r by exists r => //; apply: pmulP E.
rewrite /pmul !pis_zeroP; case: eqP => [_|/eqP zp] /=; first by exists [::].
case: eqP => [_|/eqP zq] /=; first by exists [::].
rewrite /domain_new (normal_size np zp) (normal_size nq zq).
set k := up_log _ _; suff -> : (k <= two_adicity P)%N by eexists.
rewrite -(up_expnK (two_adicity P) (isT : 1 < 2)%N); apply: leq_up_log.
by apply: leq_trans le2; rewrite leq_subLR add1n.
Qed.

Definition trimmed p : bool := trim p == p.

Lemma trimmed_trim p : trimmed (trim p).
Proof. by rewrite /trimmed trim_trim. Qed.

Lemma trimmed_nil : trimmed [::].
Proof. by []. Qed.

Lemma trimmed_normal p : trimmed p -> normal p.
Proof. by move/eqP <-; apply: normal_trim. Qed.

Lemma trimmed_last p : p != [::] -> trimmed p = (last 0 p != 0).
Proof.
move=> ne; apply/eqP/idP; first exact: trim_last.
exact: last_neq0_trim.
Qed.

Lemma trimmed_eq0 p : trimmed p -> (p == [::]) = (Poly p == 0).
Proof. by move/eqP=> E; rewrite -{1}E trim_zero. Qed.

Lemma trimmed_size p : trimmed p -> size p = size (Poly p).
Proof. by move/eqP=> E; rewrite -{1}E size_trim. Qed.

Lemma trimmed_inj p q : trimmed p -> trimmed q -> Poly p = Poly q -> p = q.
Proof. by move=> /eqP <- /eqP <-; rewrite !trimE !polyseqK => ->. Qed.

Lemma trimmed_pscale p a : trimmed p -> trimmed (pscale p a).
Proof.
move=> tp; rewrite /pscale; case: ifP => // /norP[zp za].
case: p tp zp => // c p tp _; rewrite trimmed_last // in tp.
rewrite trimmed_last // -[map _ _]/(c * a :: map _ p) /=.
by rewrite (last_map (fun c => c * a)) mulf_neq0.
Qed.

Lemma pscale_normal p a : normal p -> normal (pscale p a).
Proof.
rewrite /pscale pis_zeroP => np; case: ifP => [|/norP[zp za]]; first by rewrite normal_nil.
move: np; rewrite /normal (negbTE zp) /= => ln; apply/orP; right.
case: p ln zp => [|c p] //= ln _; rewrite (last_map (fun c => c * a)).
exact: mulf_neq0.
Qed.

Lemma padd_coeff0P p a r : padd_coeff0 p a = Ret r ->
  [/\ p != [::], Poly r = Poly p + a%:P & trimmed p -> normal r].
Proof.
case: p => // c p [<-]; split=> //.
  by rewrite !Poly_cons rmorphD /=; ring.
rewrite trimmed_last // /normal; case: p => [|b p] /= ln; last by rewrite ln orbT.
by rewrite cons_poly_def mul0r add0r polyC_eq0; case: (c + a == 0).
Qed.

Lemma padd_coeff0_ret p a : p != [::] -> exists r, padd_coeff0 p a = Ret r.
Proof. by case: p => // c p _; eexists. Qed.

Lemma padd_coeff0_nil a : padd_coeff0 [::] a = Panic.
Proof. by []. Qed.

(* X^n - 1 *)
Definition zpoly (n : nat) : {poly F} := 'X^n - 1.

Lemma Poly_nseq0_cat n p : Poly (nseq n 0 ++ p) = 'X^n * Poly p.
Proof.
elim: n => [|n IH]; first by rewrite expr0 mul1r.
by rewrite [nseq _ _ ++ _]/= Poly_cons -/(nseq n 0 ++ p) IH exprS polyC0; ring.
Qed.

Lemma Poly_mul_vanishing d p : Poly (mul_vanishing d p) = Poly p * zpoly (dom_size d).
Proof. by rewrite Poly_trim padd_rawE Poly_nseq0_cat Poly_pneg /zpoly; ring. Qed.

Lemma Poly_cat p q : Poly (p ++ q) = Poly p + 'X^(size p) * Poly q.
Proof.
elim: p => [|a p IH]; first by rewrite expr0 mul1r add0r.
by rewrite [_ ++ _]/= !Poly_cons IH exprS mulrDr mulrA addrA.
Qed.

Lemma size_padd_raw p q : size (padd_raw p q) = maxn (size p) (size q).
Proof.
elim: p q => [|a p IH] [|b q] //=; rewrite ?maxn0 ?max0n // IH.
by rewrite maxnSS.
Qed.

Lemma div_vanishing_fuelE fuel n p : (0 < n)%N -> (size p < fuel)%N ->
  let qr := div_vanishing_fuel fuel n p in
  Poly p = Poly qr.1 * zpoly n + Poly qr.2 /\ (size qr.2 <= n)%N.
Proof.
move=> n0; elim: fuel p => // fuel IH p lt /=.
case: ltnP => [ltn|le] /=; first by rewrite mul0r add0r (ltnW ltn).
have lt' : (size (drop n p) < fuel)%N by rewrite size_drop; lia.
have [E sz] := IH _ lt'; case: div_vanishing_fuel E sz => q r /= E sz.
rewrite size_padd_raw geq_max sz size_take_min geq_minl; split=> //.
rewrite !padd_rawE -{1}(cat_take_drop n p) Poly_cat size_takel //.
rewrite {1}E /zpoly.
by rewrite [X in _ = (X + _) * _ + _]E /zpoly; ring.
Qed.

Lemma div_vanishingE d p : (0 < dom_size d)%N ->
  let qr := div_vanishing d p in
  Poly p = Poly qr.1 * zpoly (dom_size d) + Poly qr.2 /\ (size (Poly qr.2) <= dom_size d)%N.
Proof.
move=> n0; rewrite /div_vanishing /= !Poly_trim.
have [E sz] := div_vanishing_fuelE n0 (ltnSn (size p)).
by split=> //; apply: leq_trans (size_Poly _) sz.
Qed.

Lemma size_zpoly n : (0 < n)%N -> size (zpoly n) = n.+1.
Proof. by move=> n0; rewrite /zpoly size_addl size_polyXn // size_opp size_poly1. Qed.

Lemma zpoly_neq0 n : (0 < n)%N -> zpoly n != 0.
Proof. by move=> n0; rewrite -size_poly_eq0 size_zpoly. Qed.

Lemma zpoly_monic n : (0 < n)%N -> zpoly n \is monic.
Proof.
move=> n0; rewrite monicE /zpoly lead_coefDl ?lead_coefXn // size_polyXn size_opp size_poly1 //.
Qed.

(* the remainder is zero iff X^n - 1 divides *)
Lemma div_vanishing_rem d p : (0 < dom_size d)%N ->
  pis_zero (div_vanishing d p).2 = (zpoly (dom_size d) %| Poly p).
Proof.
move=> n0; have [E sz] := div_vanishingE p n0; rewrite pis_zeroP.
apply/eqP/idP => [Z|].
  by rewrite E Z addr0; apply: dvdp_mull.
rewrite {1}E dvdp_addr ?dvdp_mull // => dv.
apply/eqP; apply: contraTT dv => ne.
by rewrite /dvdp modp_small // size_zpoly.
Qed.

Lemma div_vanishing_quot d p : (0 < dom_size d)%N -> zpoly (dom_size d) %| Poly p ->
  Poly p = Poly (div_vanishing d p).1 * zpoly (dom_size d).
Proof.
move=> n0; rewrite -div_vanishing_rem // pis_zeroP => /eqP Z.
by have [E _] := div_vanishingE p n0; rewrite {1}E Z addr0.
Qed.

(* divisibility by X^n - 1 is vanishing on the n-th roots of unity *)
Lemma zpoly_dvd n (w : F) (f : {poly F}) : n.-primitive_root w ->
  (zpoly n %| f) = all (fun i => f.[w ^+ i] == 0) (iota 0 n).
Proof.
move=> prim; have n0 := prim_order_gt0 prim.
apply/idP/idP => [dv|van].
  apply/allP=> i _; case/dvdpP: dv => q ->.
  rewrite !hornerE hornerXn -exprM mulnC exprM (prim_expr_order prim) expr1n subrr mulr0 //.
rewrite /zpoly -(factor_Xn_sub_1 prim) -(big_map (fun i => w ^+ i) predT (fun x => 'X - x%:P)).
rewrite /index_iota subn0; apply: uniq_roots_dvdp.
  by apply/allP=> x /mapP[i lin ->]; rewrite rootE; apply: (allP van).
rewrite uniq_rootsE map_inj_in_uniq ?iota_uniq // => i j; rewrite !mem_iota /= add0n => li lj.
by move/eqP; rewrite (eq_prim_root_expr prim) !modn_small // => /eqP.
Qed.

(* interpolation *)
Lemma size_resize v n : size (resize v n) = n.
Proof. by rewrite /resize size_cat size_nseq size_take_min; lia. Qed.

Lemma nth_resize v n i : nth 0 (resize v n) i = if (i < n)%N then nth 0 v i else 0.
Proof.
rewrite /resize nth_cat size_take_min nth_nseq.
case: (ltnP i n) => ln; last first.
  by rewrite ifF ?if_same //; apply/negbTE; rewrite -leqNgt geq_min ln.
case: (ltnP i (size v)) => lv.
  by rewrite ifT ?nth_take // leq_min ln lv.
by rewrite ifF ?if_same ?nth_default //; apply/negbTE; rewrite -leqNgt geq_min lv orbT.
Qed.

Lemma resize_id v n : size v = n -> resize v n = v.
Proof. by move=> <-; rewrite /resize subnn take_size cats0. Qed.

Lemma sum_prim_root n (w : F) k : n.-primitive_root w -> 
  \sum_(j < n) (w ^+ k) ^+ j = if (n %| k)%N then n%:R else 0.
Proof.
move=> prim; rewrite (prim_order_dvd prim); case: eqP => [->|/eqP ne].
  by under eq_bigr do rewrite expr1n; rewrite sumr_const card_ord.
have : (w ^+ k - 1) * (\sum_(j < n) (w ^+ k) ^+ j) = 0.
  by rewrite -subrX1 -exprM mulnC exprM (prim_expr_order prim) expr1n subrr.
by move/eqP; rewrite mulf_eq0 subr_eq0 (negbTE ne) /= => /eqP.
Qed.

Lemma peval_sum v x n : size v = n -> peval v x = \sum_(i < n) nth 0 v i * x ^+ i.
Proof.
move=> sz; rewrite pevalE (@horner_coef_wide _ n) -?sz ?size_Poly //.
by apply: eq_bigr => i _; rewrite coef_Poly.
Qed.

Section Interp.
Variables (d : domain F).
Local Notation n := (dom_size d).
Local Notation w := (dom_gen d).
Hypotheses (prim : n.-primitive_root w) (nz : n%:R != 0 :> F).

Lemma interpolateE v i : (i < n)%N -> (Poly (interpolate d v)).[w ^+ i] = nth 0 v i.
Proof.
move=> ltn; rewrite Poly_trim -pevalE (@peval_sum _ _ n); last by rewrite size_map size_iota.
have n0 := prim_order_gt0 prim.
have w0 : w != 0.
  apply/eqP => E; have := prim_expr_order prim.
  by rewrite E expr0n eqn0Ngt n0 => /eqP; rewrite eq_sym oner_eq0.
have -> : \sum_(j < n) nth 0 [seq n%:R^-1 * peval (resize v n) (w^-1 ^+ j) | j <- iota 0 n] j *
            (w ^+ i) ^+ j =
          n%:R^-1 * \sum_(k < n) nth 0 (resize v n) k * \sum_(j < n) (w ^+ (i + (n - k))) ^+ j.
  rewrite mulr_sumr; under [RHS]eq_bigr do rewrite !mulr_sumr.
  rewrite exchange_big /=; apply: eq_bigr => j _.
  rewrite (nth_map 0%N) ?size_iota // nth_iota // add0n (peval_sum _ (size_resize v n)).
  rewrite -mulrA mulr_suml -mulr_sumr; congr (_ * _); apply: eq_bigr => k _.
  rewrite -mulrA; congr (_ * _).
  rewrite exprD exprMn_comm; last exact: mulrC.
  rewrite mulrC; congr (_ * _).
  rewrite -[LHS]exprM mulnC [LHS]exprM; congr (_ ^+ _).
  apply: (mulfI (expf_neq0 k w0)); rewrite -exprMn mulfV // expr1n -exprD subnKC ?(ltnW (ltn_ord k)) //.
  by rewrite (prim_expr_order prim).
rewrite (bigD1 (Ordinal ltn)) //= [X in _ * (_ + X)]big1 ?addr0.
  rewrite sum_prim_root // ifT; last by rewrite subnKC ?dvdnn // ltnW.
  by rewrite nth_resize ltn mulrCA mulVf // mulr1.
move=> k ne; rewrite sum_prim_root // ifF ?mulr0 //.
apply: contraNF ne => dv; apply/eqP/val_inj => /=.
have lk := ltn_ord k.
case/dvdnP: dv => m E.
have : m = 1%N by nia.
by move=> m1; rewrite m1 in E; lia.
Qed.

Lemma size_interpolate v : (size (Poly (interpolate d v)) <= n)%N.
Proof.
rewrite Poly_trim; apply: leq_trans (size_Poly _) _.
by rewrite size_map size_iota.
Qed.

Lemma trimmed_interpolate v : trimmed (interpolate d v).
Proof. exact: trimmed_trim. Qed.

(* polynomials of size <= n agreeing on the roots are equal *)
Lemma poly_eq_roots (f g : {poly F}) : (size f <= n)%N -> (size g <= n)%N ->
  (forall i, (i < n)%N -> f.[w ^+ i] = g.[w ^+ i]) -> f = g.
Proof.
move=> sf sg E; apply/eqP; rewrite -subr_eq0; apply: contraTT isT => ne.
have : zpoly n %| f - g.
  rewrite (zpoly_dvd _ prim); apply/allP=> i; rewrite mem_iota /= add0n => li.
  by rewrite !hornerE E // subrr.
move/(dvdp_leq ne); rewrite size_zpoly ?(prim_order_gt0 prim) // => le.
have : (size (f - g)%R <= n)%N.
  by apply: leq_trans (size_add _ _) _; rewrite size_opp geq_max sf sg.
by move=> le2; have := leq_trans le le2; rewrite ltnn.
Qed.

Lemma interpolate_uniq v (f : {poly F}) : (size f <= n)%N ->
  (forall i, (i < n)%N -> f.[w ^+ i] = nth 0 v i) -> Poly (interpolate d v) = f.
Proof.
move=> sf E; apply: poly_eq_roots (size_interpolate _) sf _ => i li.
by rewrite interpolateE // E.
Qed.

End Interp.

(* division by X - z with remainder *)
Lemma divide_qr_linE p z : normal p ->
  exists2 qr, divide_qr_lin p z = Ret qr &
  [/\ Poly qr.1 = (Poly p - ((Poly p).[z])%:P) %/ ('X - z%:P), normal qr.1 &
      (qr.2 == [::]) = ((Poly p).[z] == 0)].
Proof.
move=> np; rewrite /divide_qr_lin pis_zeroP; case: eqP => [E|/eqP ne].
  exists ([::], [::]) => //=; rewrite E horner0 polyC0 subr0 div0p !eqxx; split=> //.
  exact: normal_nil.
have ln : last 0 p != 0 by move: np; rewrite /normal (negbTE ne).
rewrite pdegreeE (negbTE ne).
rewrite (negbTE ln) bindRet (normal_size np ne).
case: ifP => [lt|_].
  have /eqP s1 : size (Poly p) == 1%N by rewrite eqn_leq size_poly_gt0 ne andbT; lia.
  case/size_poly1P: (introT eqP s1) => c c0 Ep.
  exists ([::], p) => //=; rewrite Ep hornerC subrr div0p (negbTE c0); split=> //.
    exact: normal_nil.
  by case: (p) ne => //; rewrite Poly_nil eqxx.
exists (pdiv_lin z p, trim [:: (quot_lin z p).2]) => //.
split; rewrite -?[(_, _).1]/(pdiv_lin z p) ?pdiv_lin_divp ?pevalE //.
  exact: normal_trim.
by rewrite -[(_, _).2]/(trim _) trim_zero quot_lin_rem pevalE /= cons_poly_def mul0r add0r polyC_eq0.
Qed.

End ArkPolyFftLemmas.

(* commitments of normal lists *)
Lemma commit_normal (F : fieldType) (E : pairing_group F) (s : F) m (p : seq F) : normal p ->
  kzg_commit (srs_new_from_secret E s m) p =
  if (size (Poly p) <= m + 3)%N then Ret (commitment_of E s (Poly p)) else Panic.
Proof.
move=> np; rewrite /kzg_commit evaluate_in_sE.
case: eqP => [->|/eqP ne]; first by rewrite size_poly0 /commitment_of horner0 scale0r.
move: (np); rewrite /normal (negbTE ne) /= => ln; rewrite (negbTE ln).
by rewrite (normal_size np ne).
Qed.
