(* Lemmas about the plonk crate: refinement of the list-level prover by the
   polynomial-level honest run of PlonkSpec.v. *)
From Coq Require Import String Ascii NArith.
Set Warnings "-notation-overridden,-ambiguous-paths".
From mathcomp Require Import all_ssreflect all_algebra.
From mathcomp Require Import zify ring.
From Verif Require Import Base BaseLemmas ArkPoly ArkPolyLemmas ArkDomain ArkDomainLemmas
  ArkPolyFft ArkPolyFftLemmas KzgModel KzgSpec KzgLemmas PlonkModel PlonkSpec.

Set Implicit Arguments.
Unset Strict Implicit.
Unset Printing Implicit Defensive.

Import GRing.Theory.
Local Open Scope ring_scope.

(* m returns a value satisfying Q when the condition c holds; it panics when c
   fails, or when the resource bound bd fails. *)
Definition ois (A : Type) (bd c : bool) (m : outcome A) (Q : A -> Prop) : Prop :=
  match m with
  | Ret v => c /\ Q v
  | Err _ => False
  | Panic => bd -> c -> False
  end.

Section Ois.
Variables (A B : Type) (bd : bool).

Lemma ois_bind c1 c2 (m : outcome A) (k : A -> outcome B) Q1 Q2 :
  ois bd c1 m Q1 -> (forall v, c1 -> Q1 v -> ois bd c2 (k v) Q2) -> ois bd (c1 && c2) (obind m k) Q2.
Proof.
case: m => [v|e|] //=; last by move=> N _ Hb /andP[/(N Hb)].
by case=> -> q /(_ v isT q).
Qed.

(* a step that fails for no other reason than the bound *)
Lemma ois_bindT c2 (m : outcome A) (k : A -> outcome B) Q1 Q2 :
  ois bd true m Q1 -> (forall v, Q1 v -> ois bd c2 (k v) Q2) -> ois bd c2 (obind m k) Q2.
Proof. by move=> H1 H2; rewrite -[c2]andTb; apply: ois_bind H1 _ => v _; apply: H2. Qed.

Lemma ois_weaken c (m : outcome A) (Q1 Q2 : A -> Prop) : ois bd c m Q1 -> (forall v, c -> Q1 v -> Q2 v) -> ois bd c m Q2.
Proof. by case: m => //= v [Hc q] /(_ v Hc q). Qed.

Lemma ois_cond c c' (m : outcome A) Q : c = c' -> ois bd c m Q -> ois bd c' m Q.
Proof. by move=> <-. Qed.

End Ois.

Section Poly.
Variables (F : fieldType) (P : fft_field F).

Lemma trimmed_pmul p q r : pmul P p q = Ret r -> trimmed r.
Proof.
rewrite /pmul; case: ifP => [_ [<-]|_]; first exact: trimmed_nil.
by case: domain_new => // _ [<-]; apply: trimmed_trim.
Qed.

Lemma pmul_ois (bd : bool) N (p q : seq F) (f g : {poly F}) :
  normal p -> normal q -> Poly p = f -> Poly q = g ->
  (size f + size g <= N.+1)%N -> (bd -> N <= 2 ^ two_adicity P)%N ->
  ois bd true (pmul P p q) (fun r => Poly r = f * g /\ trimmed r).
Proof.
move=> np nq <- <- le Hb.
case E: (pmul P p q) => [r|e|] /=.
- by split=> //; split; [have [] := pmulP E | exact: trimmed_pmul E].
- by have := pmul_cases P p q; rewrite E; case.
- by move=> /Hb Hb' _; have [r] := pmul_ret np nq le Hb'; rewrite E.
Qed.

(* sizes *)
Lemma size_add_le (f g : {poly F}) m : (size f <= m)%N -> (size g <= m)%N -> (size (f + g)%R <= m)%N.
Proof. by move=> h1 h2; apply: leq_trans (size_add _ _) _; rewrite geq_max h1. Qed.

Lemma size_sub_le (f g : {poly F}) m : (size f <= m)%N -> (size g <= m)%N -> (size (f - g)%R <= m)%N.
Proof. by move=> h1 h2; apply: size_add_le => //; rewrite size_opp. Qed.

Lemma size_scale_le a (f : {poly F}) m : (size f <= m)%N -> (size (a *: f)%R <= m)%N.
Proof. by apply: leq_trans; apply: size_scale_leq. Qed.

Lemma size_mul_le (f g : {poly F}) a b m : (size f <= a)%N -> (size g <= b)%N ->
  (a + b <= m.+1)%N -> (size (f * g)%R <= m)%N.
Proof.
move=> h1 h2 h3; apply: leq_trans (size_mul_leq _ _) _.
by move: (size f) (size g) h1 h2 => x y h1 h2; lia.
Qed.

Lemma size_polyC_le (a : F) m : (0 < m)%N -> (size a%:P <= m)%N.
Proof. by apply: leq_trans; apply: size_polyC_leq1. Qed.

End Poly.

Section Challenge.
Variables (F : fieldType) (E : pairing_group F) (X : plonk_env E) (H : bytes -> bytes).
Hypothesis long : digest_long H.
Local Notation chain cs := (ChallengeGen (Some (fs_chain X H cs))).

Lemma chain_long cs : cs != [::] -> (8 <= size (fs_chain X H cs))%N.
Proof. by case/lastP: cs => // cs c _; rewrite /fs_chain foldl_rcons. Qed.

Lemma feed_chain cs g c : cg_feed X H (chain cs g) c = chain (rcons cs c) false.
Proof. by rewrite /cg_feed /fs_chain foldl_rcons. Qed.

Lemma feeds_chain cs g c l : foldl (cg_feed X H) (chain cs g) (c :: l) = chain (cs ++ c :: l) false.
Proof.
elim: l c cs g => [|c' l IH] c cs g; last first.
  rewrite -[LHS]/(foldl (cg_feed X H) (cg_feed X H (chain cs g) c) (c' :: l)) feed_chain.
  by rewrite IH cat_rcons.
by rewrite -[LHS]/(cg_feed X H (chain cs g) c) feed_chain cats1.
Qed.

Lemma challenge1_chain cs : cs != [::] ->
  cg_challenge1 X (chain cs false) = Ret (fs_challenge X H cs 0, chain cs true).
Proof. by move=> ne; rewrite /cg_challenge1 /cg_challenges /cg_seed /= ltnNge chain_long. Qed.

Lemma challenge2_chain cs : cs != [::] ->
  cg_challenge2 X (chain cs false) =
  Ret (fs_challenge X H cs 0, fs_challenge X H cs 1, chain cs true).
Proof. by move=> ne; rewrite /cg_challenge2 /cg_challenges /cg_seed /= ltnNge chain_long. Qed.

Lemma from_commitments_chain c cs : cg_from_commitments X H (c :: cs) = chain (c :: cs) false.
Proof.
have := feeds_chain [::] false c cs; rewrite cat0s => <-.
by rewrite /cg_from_commitments.
Qed.

End Challenge.

Section Lagrange.
Variables (F : fieldType) (n : nat) (w : F).
Hypothesis prim : n.-primitive_root w.
Local Notation lag := (lagrange n w).

Lemma root_inj i j : (i < n)%N -> (j < n)%N -> (w ^+ i == w ^+ j) = (i == j).
Proof. by move=> li lj; rewrite (eq_prim_root_expr prim) !modn_small. Qed.

Lemma lagrangeE i j : (i < n)%N -> (j < n)%N -> (lag i).[w ^+ j] = (i == j)%:R.
Proof.
move=> li lj; rewrite /lagrange horner_prod; case: eqP => [<-|/eqP ne].
  apply: big1 => k nk; rewrite !hornerE mulVf // subr_eq0 root_inj // eq_sym //.
have nj : val (Ordinal lj) != i by rewrite /= eq_sym.
by rewrite (bigD1 (Ordinal lj)) //= !hornerE subrr mulr0 mul0r.
Qed.

Lemma size_lagrange i : (i < n)%N -> (size (lag i) <= n)%N.
Proof.
move=> li; rewrite /lagrange.
apply: leq_trans (size_prod_leq _ _) _.
have : (\sum_(j < n | val j != i) size ((w ^+ i - w ^+ j)^-1 *: ('X - (w ^+ j)%:P) : {poly F})%R
   <= \sum_(j < n | val j != i) 2)%N.
  apply: leq_sum => j _; apply: leq_trans (size_scale_leq _ _) _; by rewrite size_XsubC.
rewrite sum_nat_const.
have -> : #|[pred j : 'I_n | val j != i]| = n.-1.
  have := cardC (pred1 (Ordinal li)); rewrite card1 card_ord.
  rewrite add1n => cn; rewrite -[in RHS]cn [RHS]/=; by apply: eq_card => j; rewrite !inE.
move=> le; have n0 : (0 < n)%N by apply: leq_ltn_trans li.
rewrite leq_subLR; apply: leq_ltn_trans le _; lia.
Qed.

Lemma interpE (e : nat -> F) j : (j < n)%N -> (interp n w e).[w ^+ j] = e j.
Proof.
move=> lj; rewrite /interp horner_sum (bigD1 (Ordinal lj)) //= big1 ?addr0.
  by rewrite hornerZ lagrangeE // eqxx mulr1.
move=> k ne; rewrite hornerZ lagrangeE //.
by rewrite (_ : (_ == _) = false) ?mulr0 //; apply/negbTE.
Qed.

Lemma size_interp (e : nat -> F) : (size (interp n w e) <= n)%N.
Proof.
apply: leq_trans (size_sum _ _ _) _; apply/bigmax_leqP => i _.
by apply: size_scale_le; apply: size_lagrange.
Qed.

Lemma interp_uniq (e : nat -> F) (f : {poly F}) : (size f <= n)%N ->
  (forall i, (i < n)%N -> f.[w ^+ i] = e i) -> f = interp n w e.
Proof.
move=> sf Hf; apply: (@poly_eq_roots F (Domain n w) prim) => //=; first exact: size_interp.
by move=> i li; rewrite Hf // interpE.
Qed.

End Lagrange.
