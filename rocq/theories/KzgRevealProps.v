(* C95: what a KZG commitment and its openings reveal of the polynomial. *)
Set Warnings "-notation-overridden,-ambiguous-paths".
From mathcomp Require Import all_ssreflect all_algebra.
From mathcomp Require Import zify ring.
From Verif Require Import Base BaseLemmas ArkPoly ArkPolyLemmas KzgModel KzgSpec KzgLemmas KzgProps.

Set Implicit Arguments.
Unset Strict Implicit.
Unset Printing Implicit Defensive.

Import GRing.Theory.
Local Open Scope ring_scope.

Section Reveal.
Variables (F : fieldType) (E : pairing_group F).
Variables (s : F) (m : nat).
Local Notation S := (srs_new_from_secret E s m).
Implicit Types (f g : {poly F}) (zs : seq F) (x y z : F).

Lemma open_same f g z : f != 0 -> g != 0 -> (size f <= m + 4)%N -> (size g <= m + 4)%N -> s != z ->
  f.[s] = g.[s] -> f.[z] = g.[z] -> kzg_open S f z = kzg_open S g z.
Proof.
move=> f0 g0 sf sg sz es ez; have [p Ep ->] := @C22_open F E s m f z f0 sf.
have [q Eq ->] := @C22_open F E s m g z g0 sg; rewrite ez; congr (Ret (_ *: _, _)).
have := es; rewrite Ep Eq !hornerE ez => /addrI/(mulfI _); apply.
by rewrite subr_eq0.
Qed.

(* the commitment and up to n - 2 openings of a polynomial of n coefficients:
   any value at any other point is still possible *)
Theorem C95_other_values_hidden (n : nat) f zs x y :
  (size f <= n)%N -> (n <= m + 3)%N -> (size zs + 2 <= n)%N ->
  f.[s] != 0 -> s \notin zs -> x \notin zs -> x != s ->
  exists g, [/\ (size g <= n)%N, g.[x] = y, kzg_commit S g = kzg_commit S f
    & forall z, z \in zs -> kzg_open S g z = kzg_open S f z].
Proof.
move=> sf nm zn fs sz xz xs.
pose D : {poly F} := \prod_(z <- s :: zs) ('X - z%:P).
have D0 z : z \in s :: zs -> D.[z] = 0 by move=> h; apply/rootP; rewrite /D root_prod_XsubC.
have Dx : D.[x] != 0 by rewrite -[_ == 0]/(root D x) /D root_prod_XsubC inE negb_or xs.
pose g := f + ((y - f.[x]) / D.[x]) *: D; exists g.
have sg : (size g <= n)%N.
  apply: leq_trans (size_add _ _) _; rewrite geq_max sf (leq_trans (size_scale_leq _ _)) //.
  by rewrite /D size_prod_XsubC /= -addn2.
have ge z : z \in s :: zs -> g.[z] = f.[z] by move=> h; rewrite /g !hornerE (D0 _ h) mulr0 addr0.
have gs : g.[s] = f.[s] by apply: ge; apply: mem_head.
have nz (p : {poly F}) : p.[s] != 0 -> p != 0 by apply: contra_neq => ->; rewrite horner0.
split=> //.
- by rewrite /g !hornerE mulfVK // addrC subrK.
- by rewrite !C19_commit (leq_trans sf nm) (leq_trans sg nm) gs.
move=> z hz; have b4 k : (k <= n)%N -> (k <= m + 4)%N.
  by move=> le; apply: leq_trans le (leq_trans nm _); rewrite leq_add2l.
apply: open_same; rewrite ?b4 ?nz ?gs //; last by apply: ge; rewrite inE hz orbT.
by apply: contraNneq sz => ->.
Qed.

Lemma same_values (n : nat) f g zs : (size f <= n)%N -> (size g <= n)%N -> (n <= size zs)%N -> uniq zs ->
  (forall z, z \in zs -> f.[z] = g.[z]) -> f = g.
Proof.
move=> sf sg zn uz H; apply/eqP; rewrite -subr_eq0; apply: contraLR zn => d0; rewrite -ltnNge.
have sd : (size (f - g)%R <= n)%N by apply: leq_trans (size_add _ _) _; rewrite size_opp geq_max sf.
apply: leq_trans sd; apply: max_poly_roots uz => //.
by apply/allP => z /H e; rewrite rootE !hornerE e subrr.
Qed.

Lemma same_commitment f g c : g1_gen E != 0 -> kzg_commit S f = Ret c -> kzg_commit S g = Ret c -> f.[s] = g.[s].
Proof.
move=> g0 /commit_ret[_ ec] /commit_ret[_ ec'].
have : (f.[s] - g.[s]) *: g1_gen E == 0 by rewrite scalerBl -ec -ec' subrr.
by rewrite scaler_eq0 (negbTE g0) orbF subr_eq0 => /eqP.
Qed.

Lemma shown (p : {poly F}) z t u : kzg_open S p z = Ret (t, u) -> u = p.[z].
Proof.
have pe : peval p z = p.[z] by rewrite pevalE polyseqK.
rewrite /kzg_open /open_coeffs pe; case: (polyseq p) => // a l.
by case: divide_lin => //= q; case Eq: (evaluate_in_s S q) => [W| |] //= [_ <-].
Qed.

(* the commitment and n - 1 openings leave only one polynomial *)
Theorem C95_commitment_and_openings_determine (n : nat) f g zs c :
  (size f <= n)%N -> (size g <= n)%N -> (n <= size zs + 1)%N -> uniq zs -> s \notin zs ->
  g1_gen E != 0 -> kzg_commit S f = Ret c -> kzg_commit S g = Ret c ->
  (forall z, z \in zs -> exists w w' v, kzg_open S f z = Ret (w, v) /\ kzg_open S g z = Ret (w', v)) ->
  f = g.
Proof.
move=> sf sg zn uz nz g0 cf cg H; apply: (@same_values n f g (s :: zs)) => //; rewrite /= ?nz //; first by rewrite -addn1.
move=> z; rewrite inE => /orP[/eqP ->|/H[w [w' [v [/shown <- /shown //]]]]].
exact: same_commitment cf cg.
Qed.

(* so n - 2 of them leave exactly one polynomial for each value elsewhere *)
Theorem C95_one_for_each_value (n : nat) f zs x y : g1_gen E != 0 ->
  (size f <= n)%N -> (n <= m + 3)%N -> (size zs + 2)%N = n -> uniq zs ->
  f.[s] != 0 -> s \notin zs -> x \notin zs -> x != s ->
  exists g, [/\ (size g <= n)%N, g.[x] = y, kzg_commit S g = kzg_commit S f
    & forall z, z \in zs -> kzg_open S g z = kzg_open S f z] /\
  forall h : {poly F}, (size h <= n)%N -> h.[x] = y -> kzg_commit S h = kzg_commit S f ->
    (forall z, z \in zs -> kzg_open S h z = kzg_open S f z) -> h = g.
Proof.
move=> g0 sf nm zn uz fs sz xz xs.
have zn' : (size zs + 2 <= n)%N by rewrite zn.
have [g [sg gx gc go]] := C95_other_values_hidden y sf nm zn' fs sz xz xs.
exists g; split=> // h sh hx hc ho.
have cf : kzg_commit S f = Ret (f.[s] *: g1_gen E) by rewrite C19_commit (leq_trans sf nm).
have sx : s != x by rewrite eq_sym.
apply: (@same_values n h g [:: s, x & zs]) => //.
- by rewrite /= -addn2 zn.
- by rewrite /= inE negb_or sx sz xz.
move=> z; rewrite !inE => /or3P[/eqP ->|/eqP ->|hz].
- by apply: same_commitment g0 _ _; rewrite ?hc ?gc cf.
- by rewrite hx gx.
have f0 : f != 0 by apply: contra_neq fs => ->; rewrite horner0.
have sf4 : (size f <= m + 4)%N by apply: leq_trans sf (leq_trans nm _); rewrite leq_add2l.
have [q _ Eo] := @C22_open F E s m f z f0 sf4.
have := ho z hz; rewrite Eo => /shown <-.
by have := go z hz; rewrite Eo => /shown <-.
Qed.

End Reveal.
