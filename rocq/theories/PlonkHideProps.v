(* C73: the blinders hide the wire values from everything an honest proof shows of
   the wire and permutation polynomials. *)
From Coq Require Import NArith.
Set Warnings "-notation-overridden,-ambiguous-paths".
From mathcomp Require Import all_ssreflect all_algebra.
From mathcomp Require Import zify ring.
From Verif Require Import Base BaseLemmas ArkPoly ArkPolyLemmas ArkDomain ArkDomainLemmas
  KzgModel KzgSpec PlonkModel PlonkSpec PlonkLemmas PlonkCompile PlonkProps StatementSpec ProgramProps
  PlonkHideSpec.

Set Implicit Arguments.
Unset Strict Implicit.
Unset Printing Implicit Defensive.

Import GRing.Theory.
Local Open Scope ring_scope.

Section Interpolation.
Variable F : fieldType.

Lemma newton (xs : seq F) (y : F -> F) : uniq xs ->
  exists2 p : {poly F}, (size p <= size xs)%N & {in xs, forall x, p.[x] = y x}.
Proof.
elim: xs => [|x xs IH] /=; first by exists 0; rewrite ?size_poly0.
case/andP=> nx /IH[p sp Hp].
pose q := \prod_(z <- xs) ('X - z%:P).
have qx : q.[x] != 0 by rewrite -[_ == 0]/(root q x) root_prod_XsubC.
exists (p + ((y x - p.[x]) / q.[x]) *: q).
  apply: leq_trans (size_add _ _) _; rewrite geq_max (leq_trans sp) //=.
  by apply: leq_trans (size_scale_leq _ _) _; rewrite size_prod_XsubC.
move=> z; rewrite inE => /orP[/eqP ->|zs]; rewrite hornerD hornerZ.
  by rewrite -mulrA mulVf // mulr1 addrC subrK.
have /eqP -> : root q z by rewrite root_prod_XsubC.
by rewrite mulr0 addr0 Hp.
Qed.

Lemma newton_uniq (xs : seq F) (p q : {poly F}) : uniq xs ->
  (size p <= size xs)%N -> (size q <= size xs)%N -> {in xs, forall x, p.[x] = q.[x]} -> p = q.
Proof.
move=> u sp sq H; apply/eqP; rewrite -subr_eq0; apply/negPn/negP => nz.
have := max_poly_roots nz _ u; suff -> : all (root (p - q)) xs.
  move/(_ isT); rewrite ltnNge (leq_trans (size_add _ _)) // size_opp.
  by rewrite geq_max sp sq.
by apply/allP => x xs'; rewrite /root hornerD hornerN H // subrr.
Qed.

Lemma blinding_coefs (xs : seq F) (y : F -> F) : uniq xs ->
  exists c : nat -> F,
    {in xs, forall x, \sum_(i < size xs) c i * x ^+ i = y x} /\
    forall c' : nat -> F, {in xs, forall x, \sum_(i < size xs) c' i * x ^+ i = y x} ->
      forall i, (i < size xs)%N -> c' i = c i.
Proof.
move=> u; have [p sp Hp] := newton y u; exists (fun i => p`_i); split.
  by move=> x xs'; rewrite -horner_coef_wide // Hp.
move=> c' H i li; pose q := \poly_(j < size xs) c' j.
suff -> : p = q by rewrite coef_poly li.
apply: (newton_uniq u) => //; first exact: size_poly.
by move=> x xs'; rewrite Hp // horner_poly H.
Qed.

End Interpolation.

Section Hiding.
Variables (F : fieldType) (E : pairing_group F) (X : plonk_env E).
Hypotheses (ok : fft_ok (pk_fft X)).
Implicit Types (b : nat -> F) (cc : compiled_circuit F).

Lemma sum2 (c : nat -> F) x : \sum_(i < 2) c i * x ^+ i = c 0%N + c 1%N * x.
Proof. by rewrite !big_ord_recl big_ord0 /= expr0 mulr1 expr1 addr0. Qed.
Lemma sum3 (c : nat -> F) x : \sum_(i < 3) c i * x ^+ i = c 0%N + c 1%N * x + c 2%N * x ^+ 2.
Proof. by rewrite !big_ord_recl big_ord0 /= expr0 mulr1 expr1 addr0 addrA. Qed.

(* the equations y = f(x) + (blinding factor at x) Z_H(x), in the factor *)
Lemma blinded_value (f h z y : F) : z != 0 -> (f + h * z = y) <-> (h = (y - f) / z).
Proof.
move=> nz; split=> [<-|->]; first by rewrite addrC addKr mulfK.
by rewrite mulfVK // addrC subrK.
Qed.

Lemma wireA_at n cc b x : (wireA n cc b).[x] = (Poly (f_ax (cc_gate cc))).[x] + (b 2%N + b 1%N * x) * (x ^+ n - 1).
Proof. by rewrite /wireA /ZH !hornerE hornerXn. Qed.
Lemma wireB_at n cc b x : (wireB n cc b).[x] = (Poly (f_bx (cc_gate cc))).[x] + (b 4%N + b 3%N * x) * (x ^+ n - 1).
Proof. by rewrite /wireB /ZH !hornerE hornerXn. Qed.
Lemma wireC_at n cc b x : (wireC n cc b).[x] = (Poly (f_cx (cc_gate cc))).[x] + (b 6%N + b 5%N * x) * (x ^+ n - 1).
Proof. by rewrite /wireC /ZH !hornerE hornerXn. Qed.

Definition perm_plain n w cc (beta gamma : F) : {poly F} :=
  interp n w (fun i => \prod_(j < i) (perm_num w cc beta gamma j / perm_den w cc beta gamma j)).
Lemma permZ_at n w cc b beta gamma x : (permZ n w cc b beta gamma).[x] =
  (perm_plain n w cc beta gamma).[x] + (b 9%N + b 8%N * x + b 7%N * x ^+ 2) * (x ^+ n - 1).
Proof. by rewrite /permZ /ZH hornerD hornerM !hornerE !hornerXn. Qed.

Section OneCircuit.
Variables (cc : compiled_circuit F) (s zeta : F).
Hypothesis out : outside_domain X cc s zeta.
Local Notation n := (cc_size cc).
Local Notation w := (omega_of (pk_fft X) cc).
Hypothesis wn : w ^+ n = 1.

Lemma out_facts : [/\ s ^+ n - 1 != 0, zeta ^+ n - 1 != 0, (zeta * w) ^+ n - 1 != 0 & uniq [:: s; zeta; zeta * w]].
Proof. by move: out => /and3P[h1 h2 u]; rewrite exprMn wn mulr1 !subr_eq0. Qed.

Lemma uniq2 : uniq [:: s; zeta].
Proof. by have [_ _ _] := out_facts; rewrite /= !inE negb_or !andbT => /andP[/andP[]]. Qed.

(* solving for two blinders *)
Lemma solve2 (f : F -> F) (u v : F) : exists c : nat -> F,
  [/\ f s + (c 0%N + c 1%N * s) * (s ^+ n - 1) = u, f zeta + (c 0%N + c 1%N * zeta) * (zeta ^+ n - 1) = v
    & forall c', f s + (c'.1 + c'.2 * s) * (s ^+ n - 1) = u ->
       f zeta + (c'.1 + c'.2 * zeta) * (zeta ^+ n - 1) = v -> c' = (c 0%N, c 1%N)].
Proof.
have [zs zz _ _] := out_facts; pose y x := ((if x == s then u else v) - f x) / (x ^+ n - 1).
have ne : (zeta == s) = false by have := uniq2; rewrite /= inE andbT eq_sym => /negbTE.
have [c [H uc]] := blinding_coefs y uniq2; exists c.
have := H s; have := H zeta; rewrite !inE !eqxx orbT !sum2 /y eqxx ne => /(_ isT) hz /(_ isT) hs.
split; [exact/blinded_value|exact/blinded_value|].
case=> c0 c1 /= /(blinded_value _ _ _ zs) e1 /(blinded_value _ _ _ zz) e2.
pose c' i := if i is 0 then c0 else c1.
have /(_ _)/= U := uc c'; rewrite -(U _ 0%N) -?(U _ 1%N) //.
all: by move=> x; rewrite !inE sum2 /= => /orP[] /eqP ->; rewrite /y ?eqxx ?ne.
Qed.

(* solving for three blinders *)
Lemma solve3 (f : F -> F) (u v t : F) : exists c : nat -> F,
  let h (c0 c1 c2 x : F) := f x + (c0 + c1 * x + c2 * x ^+ 2) * (x ^+ n - 1) in
  [/\ h (c 0%N) (c 1%N) (c 2%N) s = u, h (c 0%N) (c 1%N) (c 2%N) zeta = v,
      h (c 0%N) (c 1%N) (c 2%N) (zeta * w) = t
    & forall c0 c1 c2, h c0 c1 c2 s = u -> h c0 c1 c2 zeta = v -> h c0 c1 c2 (zeta * w) = t ->
      [/\ c0 = c 0%N, c1 = c 1%N & c2 = c 2%N]].
Proof.
have [zs zz zw u3] := out_facts.
pose y x := ((if x == s then u else if x == zeta then v else t) - f x) / (x ^+ n - 1).
move: (u3); rewrite /= !inE negb_or andbT => /andP[/andP[n1 n2] n3].
have m1 : (zeta == s) = false by rewrite eq_sym (negbTE n1).
have m2 : (zeta * w == s) = false by rewrite eq_sym (negbTE n2).
have m3 : (zeta * w == zeta) = false by rewrite eq_sym (negbTE n3).
have [c [H uc]] := blinding_coefs y u3; exists c.
have := H s; have := H zeta; have := H (zeta * w); rewrite !inE !eqxx !orbT !sum3 /y !eqxx m1 m2 m3.
move=> /(_ isT) hw /(_ isT) hz /(_ isT) hs.
split; [exact/blinded_value|exact/blinded_value|exact/blinded_value|].
move=> c0 c1 c2 /(blinded_value _ _ _ zs) e1 /(blinded_value _ _ _ zz) e2 /(blinded_value _ _ _ zw) e3.
pose c' i := if i is 0 then c0 else if i is 1 then c1 else c2.
have U i : (i < 3)%N -> c' i = c i.
  apply: uc => x; rewrite !inE sum3 /=.
  by case/or3P=> /eqP ->; rewrite /y ?eqxx ?m1 ?m2 ?m3.
by rewrite -(U 0%N) // -(U 1%N) // -(U 2%N).
Qed.

(* Every possible view is shown for exactly one choice of the nine blinders. *)
Lemma view_bijective (t : seq F) : size t = 9%N ->
  exists2 b, view X cc s zeta b = t & forall b', view X cc s zeta b' = t -> same_blinders b' b.
Proof.
move: t => [|t1[|t2[|t3[|t4[|t5[|t6[|t7[|t8[|t9[|]]]]]]]]]] // _.
have [a [a1 a2 ua]] := solve2 (fun x => (Poly (f_ax (cc_gate cc))).[x]) t1 t2.
have [b [b1 b2 ub]] := solve2 (fun x => (Poly (f_bx (cc_gate cc))).[x]) t3 t4.
have [c [c1 c2 uc]] := solve2 (fun x => (Poly (f_cx (cc_gate cc))).[x]) t5 t6.
pose bl (d : nat -> F) i : F :=
  nth 0 [:: 0; a 1%N; a 0%N; b 1%N; b 0%N; c 1%N; c 0%N; d 2%N; d 1%N; d 0%N] i.
pose bw := bl (fun=> 0).
have [d [d1 d2 d3 ud]] := solve3
  (fun x => (perm_plain n w cc (hr_beta X cc bw s) (hr_gamma X cc bw s)).[x]) t7 t8 t9.
exists (bl d).
  rewrite /view /hr_A /hr_B /hr_C /hr_z !wireA_at !wireB_at !wireC_at !permZ_at.
  rewrite -[hr_beta X cc (bl d) s]/(hr_beta X cc bw s) -[hr_gamma X cc (bl d) s]/(hr_gamma X cc bw s).
  by rewrite /bl /= a1 a2 b1 b2 c1 c2 d1 d2 d3.
move=> b'; rewrite /view /hr_A /hr_B /hr_C /hr_z !wireA_at !wireB_at !wireC_at !permZ_at.
case=> e1 e2 e3 e4 e5 e6 e7 e8 e9.
have [x2 x1] := ua (_, _) e1 e2; have [x4 x3] := ub (_, _) e3 e4; have [x6 x5] := uc (_, _) e5 e6.
have EA : hr_A cc b' = hr_A cc bw by rewrite /hr_A /wireA x1 x2.
have EB : hr_B cc b' = hr_B cc bw by rewrite /hr_B /wireB x3 x4.
have EC : hr_C cc b' = hr_C cc bw by rewrite /hr_C /wireC x5 x6.
have Ef : hr_fed1 E cc b' s = hr_fed1 E cc bw s by rewrite /hr_fed1 EA EB EC.
have Eb : hr_beta X cc b' s = hr_beta X cc bw s by rewrite /hr_beta Ef.
have Eg : hr_gamma X cc b' s = hr_gamma X cc bw s by rewrite /hr_gamma Ef.
rewrite Eb Eg in e7 e8 e9; have [x9 x8 x7] := ud _ _ _ e7 e8 e9.
by move=> [|[|[|[|[|[|[|[|[|[|i]]]]]]]]]] //= _.
Qed.
End OneCircuit.

(* What an honest proof shows of the wire and permutation polynomials is the view
   at its evaluation challenge. *)
Theorem C73_proof_shows_view calls cc b s m T pf :
  digest_long (pk_sha256 X) -> compile (pk_fft X) (build calls) = Ret cc -> (cc_size cc <= m)%N ->
  generate_proof X T b cc (srs_new_from_secret E s m) = Ret pf ->
  let v := view X cc s (ch_zeta X (pk_sha256 X) pf) b in
  [/\ [:: a_commit pf; b_commit pf; c_commit pf; z_commit pf] =
        [seq nth 0 v i *: g1_gen E | i <- [:: 0%N; 2%N; 4%N; 6%N]]
    & [:: bar_a pf; bar_b pf; bar_c pf; bar_z_w pf] = [seq nth 0 v i | i <- [:: 1%N; 3%N; 5%N; 8%N]]].
Proof. by move=> long comp nm /(generate_inv ok long comp nm)[-> _ _ _]. Qed.

(* For one circuit: every nine field elements are the view for exactly one choice
   of the nine blinders, whatever the wire values. *)
Theorem C73_every_view_once calls cc s zeta (t : seq F) :
  compile (pk_fft X) (build calls) = Ret cc -> outside_domain X cc s zeta -> size t = 9%N ->
  exists2 b, view X cc s zeta b = t & forall b', view X cc s zeta b' = t -> same_blinders b' b.
Proof.
move=> comp out; apply: view_bijective => //.
by have [/prim_expr_order] := C46_wf ok comp.
Qed.

(* Hence two witnesses of one statement cannot be told apart by the view: each
   choice of blinders for one has exactly one counterpart for the other with the
   same view (and the same challenges beta and gamma). *)
Theorem C73_witnesses_indistinguishable calls calls' cc cc' s zeta :
  same_statement calls calls' ->
  compile (pk_fft X) (build calls) = Ret cc -> compile (pk_fft X) (build calls') = Ret cc' ->
  outside_domain X cc s zeta ->
  forall b, exists b',
  [/\ view X cc' s zeta b' = view X cc s zeta b,
      hr_beta X cc' b' s = hr_beta X cc b s /\ hr_gamma X cc' b' s = hr_gamma X cc b s,
      forall b'', view X cc' s zeta b'' = view X cc s zeta b -> same_blinders b'' b'
    & forall b'', view X cc s zeta b'' = view X cc' s zeta b' -> same_blinders b'' b].
Proof.
move=> same comp comp' out b.
have [cc2 [c2 sz _]] := C71_verdict_depends_on_public_part same comp.
move: c2; rewrite comp' => -[E2]; rewrite -E2 in sz.
have out' : outside_domain X cc' s zeta by move: out; rewrite /outside_domain /omega_of sz.
have [b' Eb ub] := C73_every_view_once comp' out' (erefl (size (view X cc s zeta b))).
have [b2 E2' ub2] := C73_every_view_once comp out (erefl (size (view X cc s zeta b))).
exists b'; split=> //.
  have Ef : hr_fed1 E cc' b' s = hr_fed1 E cc b s.
    by case: Eb => e1 _ e2 _ e3 _ _ _ _; rewrite /hr_fed1 /commitment_of e1 e2 e3.
  by rewrite /hr_beta /hr_gamma Ef.
move=> b''; rewrite Eb => /ub2 h i li; rewrite h //.
by rewrite (ub2 b).
Qed.

End Hiding.
