(* C97: the relation x^3 + x + 5 = y that the repository's examples and tests use. *)
From Coq Require Import String Ascii NArith.
Set Warnings "-notation-overridden,-ambiguous-paths".
From mathcomp Require Import all_ssreflect all_algebra.
From mathcomp Require Import zify ring.
From Verif Require Import Base BaseLemmas ArkPoly ArkPolyLemmas KzgModel KzgSpec KzgLemmas
  KzgProps NovaModel NovaSpec NovaLemmas NovaTranscript NovaProps.

Set Implicit Arguments.
Unset Strict Implicit.
Unset Printing Implicit Defensive.

Import GRing.Theory.
Local Open Scope ring_scope.

Section Relation.
Variables (F : fieldType) (E : pairing_group F) (s : F) (n : nat).
Local Notation S := (srs_new_from_secret E s n).
Local Notation R := (test_r1cs F).
Implicit Types (fi : finstance E) (fw : fwitness F) (a b c d x y u : F).

Lemma dot6 (v0 v1 v2 v3 v4 v5 a b c d y u : F) :
  dot [:: v0; v1; v2; v3; v4; v5] [:: a; b; c; d; y; u] =
  v0 * a + (v1 * b + (v2 * c + (v3 * d + (v4 * y + v5 * u)))).
Proof. by rewrite /dot /= !big_ord_recl big_ord0 /= addr0. Qed.

Lemma rowsP a b c d e0 e1 e2 e3 y u :
  (forall i, (i < 4)%N -> row_holds R ([:: a; b; c; d] ++ [:: y] ++ [:: u]) [:: e0; e1; e2; e3] u i) <->
  [/\ a * a = u * b + e0, b * a = u * c + e1, (a + c) * u = u * d + e2 & (d + 5%:R * u) * u = u * y + e3].
Proof.
rewrite /row_holds; split.
  move=> A; move: (A 0%N isT) (A 1%N isT) (A 2%N isT) (A 3%N isT).
  by rewrite /= !dot6 ?(mulr1n, mulr0n, mul0r, mul1r, addr0, add0r).
case=> h0 h1 h2 h3.
by case=> [|[|[|[|//]]]] _; rewrite /= !dot6 ?(mulr1n, mulr0n, mul0r, mul1r, addr0, add0r).
Qed.

(* the relaxed relation: four equations between the witness [a; b; c; d], the
   output y, the scalar u and the error entries *)
Theorem C97_relaxed_relation fi a b c d e0 e1 e2 e3 y : (1 <= n)%N -> fi_x fi = [:: y] ->
  let fw := FWitness [:: e0; e1; e2; e3] [:: a; b; c; d] in
  let u := fi_u fi in
  is_r1cs_satisfied R fi fw S = Ret tt <->
  [/\ a * a = u * b + e0, b * a = u * c + e1, (a + c) * u = u * d + e2,
      (d + 5%:R * u) * u = u * y + e3 & commits s fw fi].
Proof.
move=> n1 ex fw u; rewrite C29_satisfied_iff ex; split.
  by case=> _ _ /rowsP[? ? ? ?] _ Cm.
case=> h0 h1 h2 h3 Cm; split=> //; first exact/rowsP.
by split; apply: leq_trans (size_Poly _) _; rewrite /=; lia.
Qed.

Lemma commitP (w x : seq F) fi : fw_commit (fw_new w 4) S x = Ret fi ->
  [/\ fi_u fi = 1, fi_x fi = x, commits s (fw_new w 4) fi,
      (size (Poly (nseq 4 (0%R : F))) <= n + 3)%N & (size (Poly w) <= n + 3)%N].
Proof.
rewrite /fw_commit !C19_commit_vector; case: ifP => //= le; case: ifP => //= lw [<-].
by split.
Qed.

(* an unfolded pair (u is 1, no error): satisfied exactly when the witness lists
   x, x^2, x^3, x^3 + x for some x with output x^3 + x + 5 *)
Theorem C97_relation (w : seq F) y fi : fw_commit (fw_new w 4) S [:: y] = Ret fi ->
  is_r1cs_satisfied R fi (fw_new w 4) S = Ret tt <->
  exists x, w = [:: x; x ^+ 2; x ^+ 3; x ^+ 3 + x] /\ y = x ^+ 3 + x + 5%:R.
Proof.
move=> /commitP[u1 ex Cm s0 sw]; rewrite C29_satisfied_iff ex u1; split.
  case=> -[sz _] _ A _ _; move: sz A => /=.
  case: w {Cm sw} => [|a [|b [|c [|d [|z w]]]]] //= _ /rowsP[].
  rewrite !mul1r !mulr1 !addr0 => <- <- <- <-; exists a; split; last by ring.
  by congr [:: _; _; _; _]; ring.
case=> x [ew ey]; move: Cm sw; rewrite ew => Cm sw; split=> //.
apply/rowsP; rewrite ey !mul1r !mulr1 !addr0; split; by ring.
Qed.

(* the witnesses and outputs the generator lists satisfy it *)
Theorem C97_generated_pairs (k : nat) : (1 <= n)%N ->
  exists fi, fw_commit (fw_new (test_witness F k) 4) S (test_io F k) = Ret fi /\
    is_r1cs_satisfied R fi (fw_new (test_witness F k) 4) S = Ret tt.
Proof.
move=> n1; have sz (v : seq F) : (size v <= 4)%N -> (size (Poly v) <= n + 3)%N.
  by move=> h; apply: leq_trans (size_Poly _) (leq_trans h _); rewrite (leq_add2r 3 1).
case Ef: (fw_commit (fw_new (test_witness F k) 4) S (test_io F k)) => [fi|m|].
- exists fi; split=> //; apply/(C97_relation Ef); exists k%:R.
  by rewrite /test_witness /= !(natrD, natrM) !exprS !expr0 !mulr1 -!mulrA.
- by move: Ef; rewrite /fw_commit !C19_commit_vector !sz.
by move: Ef; rewrite /fw_commit !C19_commit_vector !sz.
Qed.

(* an output does not determine the input, but has at most three of them *)
Theorem C97_at_most_three y (ws : seq (seq F)) : uniq ws ->
  (forall w, w \in ws -> exists fi, fw_commit (fw_new w 4) S [:: y] = Ret fi /\
     is_r1cs_satisfied R fi (fw_new w 4) S = Ret tt) ->
  (size ws <= 3)%N.
Proof.
move=> uw A; pose q : {poly F} := 'X^3 + ('X + (5%:R - y)%:P).
have B w : w \in ws -> exists2 x, w = [:: x; x ^+ 2; x ^+ 3; x ^+ 3 + x] & root q x.
  move=> /A[fi [Ef /(C97_relation Ef)[x [-> ey]]]]; exists x => //.
  by rewrite -[root _ _]/(_ == 0) /q hornerD hornerXn hornerD hornerX hornerC; apply/eqP; rewrite ey; ring.
have sr : (size ('X + (5%:R - y)%:P : {poly F})%R <= 2)%N.
  by rewrite -(opprK (5%:R - y)) polyCN size_XsubC.
have sq : size q = 4%N by rewrite size_addl size_polyXn // ltnS (leq_trans sr).
have q0 : q != 0 by rewrite -size_poly_eq0 sq.
have -> : size ws = size (map (head 0) ws) by rewrite size_map.
rewrite -ltnS -sq; apply: max_poly_roots q0 _ _.
  by apply/allP => z /mapP[w /B[x -> rx] ->].
rewrite map_inj_in_uniq // => w w' /B[x -> _] /B[x' -> _] /= -> //.
Qed.

End Relation.
