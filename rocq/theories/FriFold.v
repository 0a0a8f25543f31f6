(* Polynomial folding and layers (C05, C06). *)
From Coq Require Import String Ascii NArith.
Set Warnings "-notation-overridden,-ambiguous-paths".
From mathcomp Require Import all_ssreflect all_algebra.
From mathcomp Require Import zify ring.
From Verif Require Import Base BaseLemmas ArkPoly ArkPolyLemmas ArkDomain ArkDomainLemmas
  FriModel FriMerkle.

Set Implicit Arguments.
Unset Strict Implicit.
Unset Printing Implicit Defensive.

Import GRing.Theory.
Local Open Scope ring_scope.

Section FoldLemmas.
Variable F : fieldType.
Implicit Types (p q : seq F) (r x c : F).

Lemma nth_step_by2 (s : seq F) i : nth 0 (step_by2 s) i = nth 0 s i.*2.
Proof. by elim/seq2_ind: s i => [|a|a b s IH] [|i] //=; rewrite ?nth_nil. Qed.

Lemma size_step_by2 (T : Type) (s : seq T) : size (step_by2 s) = uphalf (size s).
Proof. by elim/seq2_ind: s => //= a b s ->. Qed.

Lemma nth_trim (s : seq F) i : nth 0 (trim s) i = nth 0 s i.
Proof. by rewrite trimE coef_Poly. Qed.

Lemma fold_trim p r : trim (fold_polynomial p r) = fold_polynomial p r.
Proof. by rewrite /fold_polynomial /padd trim_trim. Qed.

Lemma fold_coef p r i :
  nth 0 (fold_polynomial p r) i = nth 0 p i.*2 + r * nth 0 p i.*2.+1.
Proof.
rewrite /fold_polynomial paddE coefD Poly_trim Poly_pscale coefZ Poly_trim !coef_Poly.
by rewrite !nth_step_by2 nth_drop add1n.
Qed.

Lemma fold_size p r : (size (fold_polynomial p r) <= uphalf (size p))%N.
Proof.
rewrite /fold_polynomial paddE.
apply: leq_trans (size_add _ _) _; rewrite geq_max !Poly_trim Poly_pscale.
apply/andP; split.
  by apply: leq_trans (size_Poly _) _; rewrite size_step_by2.
apply: leq_trans (size_scale_leq _ _) _; rewrite Poly_trim.
apply: leq_trans (size_Poly _) _; rewrite size_step_by2 size_drop.
by apply: uphalf_leq; exact: leq_subr.
Qed.

(* p(x) = even(x^2) + x odd(x^2) *)
Lemma even_odd (s : seq F) x :
  peval s x = peval (step_by2 s) (x ^+ 2) + x * peval (step_by2 (drop 1 s)) (x ^+ 2).
Proof.
elim/seq2_ind: s => [|a|a b s IH] /=; rewrite ?mulr0 ?addr0 //.
rewrite IH.
have -> : peval (if s is _ :: s' then b :: step_by2 s' else [:: b]) (x ^+ 2)
        = b + x ^+ 2 * peval (step_by2 (drop 1 s)) (x ^+ 2).
  by case: s {IH} => [|c s] //=; rewrite ?drop0 ?mulr0 ?addr0.
ring.
Qed.

Lemma fold_eval p r y : peval (fold_polynomial p r) y =
  peval (step_by2 p) y + r * peval (step_by2 (drop 1 p)) y.
Proof.
by rewrite /fold_polynomial pevalE Poly_padd Poly_pscale !Poly_trim hornerD hornerZ -!pevalE.
Qed.

(* C05 *)
Lemma fold_identity p r x : 2%:R != 0 :> F -> x != 0 ->
  peval (fold_polynomial p r) (x ^+ 2) =
  (peval p x + peval p (- x)) / 2%:R + r * ((peval p x - peval p (- x)) / (2%:R * x)).
Proof.
move=> h2 hx; rewrite fold_eval (even_odd p x) (even_odd p (- x)) sqrrN.
by field; rewrite h2 hx.
Qed.

(* the form computed by the verifier (verifier.rs:95-96) *)
Lemma fold_verifier_form p r x : 2%:R != 0 :> F -> x != 0 ->
  (r + x) * peval p x / (2%:R * x) - (r - x) * peval p (- x) / (2%:R * x) =
  peval (fold_polynomial p r) (x ^+ 2).
Proof.
by move=> h2 hx; rewrite fold_identity //; field; rewrite h2 hx.
Qed.

(* iterated folding *)
Definition fold_all p (rs : seq F) := foldl (@fold_polynomial F) p rs.

Lemma uphalf_pow2 n k : (n <= 2 ^ k.+1)%N -> (uphalf n <= 2 ^ k)%N.
Proof. by rewrite expnS mul2n; lia. Qed.

Lemma fold_all_size p rs k : (size p <= 2 ^ (size rs + k))%N ->
  (size (fold_all p rs) <= 2 ^ k)%N.
Proof.
elim: rs p => [|r rs IH] p //= le; apply: IH.
by apply: leq_trans (fold_size _ _) _; apply: uphalf_pow2.
Qed.

Lemma fold_all_trim p rs : (0 < size rs)%N -> trim (fold_all p rs) = fold_all p rs.
Proof. by case/lastP: rs => // rs r _; rewrite /fold_all -cats1 foldl_cat /= fold_trim. Qed.

(* closed form of the constant reached by folding all the way down *)
Fixpoint multilinear (s : nat -> F) (rs : seq F) : F :=
  if rs is r :: rs' then
    multilinear (fun i => s i.*2 + r * s i.*2.+1) rs'
  else s 0%N.

Lemma eq_multilinear s s' rs : s =1 s' -> multilinear s rs = multilinear s' rs.
Proof.
elim: rs s s' => [|r rs IH] s s' E //=.
by apply: IH => i; rewrite !E.
Qed.

Lemma fold_all_const p rs : nth 0 (fold_all p rs) 0 = multilinear (nth 0 p) rs.
Proof.
elim: rs p => [|r rs IH] p //=; rewrite IH.
by apply: eq_multilinear => i; rewrite fold_coef.
Qed.

(* the weight of coefficient i: product of r_j over the set bits j of i *)
Fixpoint bit_weight (rs : seq F) (i : nat) : F :=
  if rs is r :: rs' then (if odd i then r else 1) * bit_weight rs' i./2 else 1.

Lemma multilinear_sum s rs :
  multilinear s rs = \sum_(i < 2 ^ size rs) s i * bit_weight rs i.
Proof.
elim: rs s => [|r rs IH] s /=; first by rewrite big_ord1 mulr1.
rewrite IH.
have E : (2 ^ (size rs).+1 = 2 ^ size rs * 2)%N by rewrite expnSr.
rewrite -(big_mkord predT (fun i => (s i.*2 + r * s i.*2.+1) * bit_weight rs i)).
rewrite -(big_mkord predT (fun i => s i * ((if odd i then r else 1) * bit_weight rs i./2))).
rewrite E; elim: (2 ^ size rs)%N => [|n IHn]; first by rewrite !big_geq.
rewrite mulSn !big_nat_recr //= IHn -!addrA; congr (_ + _).
have -> : (n * 2)%N = n.*2 by rewrite muln2.
by rewrite /= odd_double /= doubleK uphalf_double; ring.
Qed.

End FoldLemmas.
