(* Provers that consult a table of random answers, and how often an unlucky answer
   can be found.  Generic: used for the Fiat-Shamir form of PLONK (C78). *)
Set Warnings "-notation-overridden,-ambiguous-paths".
From mathcomp Require Import all_ssreflect.

Set Implicit Arguments.
Unset Strict Implicit.
Unset Printing Implicit Defensive.

(* An adaptive prover: it asks questions and decides from the answers what to do
   next; in the end it outputs something. *)
Inductive oracle_prover (Q Y O : Type) :=
  | Answer of O
  | Ask of Q & (Y -> oracle_prover Q Y O).
Arguments Answer {Q Y O}.
Arguments Ask {Q Y O}.

Section Run.
Variables (I Y : finType) (Q O : Type) (loc : Q -> I).
Implicit Types (p : oracle_prover Q Y O) (t : {ffun I -> Y}).

(* the questions asked when question q is answered by the table entry loc q *)
Fixpoint asked p t : seq Q :=
  if p is Ask q k then q :: asked (k (t (loc q))) t else [::].
Fixpoint output p t : O :=
  match p with Answer o => o | Ask q k => output (k (t (loc q))) t end.

(* the prover that asks moreover the questions `more o` before it outputs o *)
Fixpoint ask_all (qs : seq Q) p : oracle_prover Q Y O :=
  if qs is q :: qs' then Ask q (fun=> ask_all qs' p) else p.
Fixpoint ask_more (more : O -> seq Q) p : oracle_prover Q Y O :=
  match p with
  | Answer o => ask_all (more o) (Answer o)
  | Ask q k => Ask q (fun y => ask_more more (k y))
  end.

Lemma asked_all qs p t : asked (ask_all qs p) t = qs ++ asked p t.
Proof. by elim: qs => //= q qs ->. Qed.
Lemma asked_more more p t : asked (ask_more more p) t = asked p t ++ more (output p t).
Proof. by elim: p => [o|q k IH] /=; rewrite ?asked_all ?cats0 ?IH. Qed.

End Run.

Section Counting.
Variables (I Y : finType) (Q : eqType) (O : Type) (loc : Q -> I).
Variable p : oracle_prover Q Y O.
Local Notation table := {ffun I -> Y}.
Implicit Types (t : table) (i : I).

(* the table t with another answer at i *)
Definition upd t i (y : Y) : table := [ffun j => if j == i then y else t j].

Lemma upd_same t i y : upd t i y i = y.
Proof. by rewrite ffunE eqxx. Qed.
Lemma upd_upd t i y y' : upd (upd t i y) i y' = upd t i y'.
Proof. by apply/ffunP => j; rewrite !ffunE; case: eqP. Qed.
Lemma upd_id t i : upd t i (t i) = t.
Proof. by apply/ffunP => j; rewrite ffunE; case: eqP => // ->. Qed.

(* the first question whose answer is at i does not depend on that answer *)
Definition first i t : option Q := ohead [seq q <- asked loc p t | loc q == i].

Lemma first_upd i t y : first i (upd t i y) = first i t.
Proof.
rewrite /first; elim: p => [o|q k IH] //=.
by case: eqP => // /eqP ne; rewrite ffunE (negbTE ne) IH.
Qed.

Lemma first_unique i t q : q \in asked loc p t -> loc q = i ->
  (forall q', q' \in asked loc p t -> loc q' = i -> q' = q) -> first i t = Some q.
Proof.
move=> qi li un; rewrite /first; case E: [seq _ <- _ | _] => [|q' l] /=.
  by have : q \in [::] by rewrite -E mem_filter li eqxx qi.
have : q' \in [seq q0 <- asked loc p t | loc q0 == i] by rewrite E mem_head.
by rewrite mem_filter => /andP[/eqP li' qi']; rewrite (un q').
Qed.

Lemma fiber_count (T : eqType) (A : finType) (D : {set A}) (f : T -> A) k (xs : seq T) :
  (forall x, x \in xs -> f x \in D) ->
  (forall a, count (fun x => f x == a) xs <= k) -> size xs <= k * #|D|.
Proof.
move=> inD few.
have -> : size xs = \sum_(a in D) count (fun x => f x == a) xs.
  elim: xs inD {few} => [|x xs IH] inD /=; first by rewrite big1.
  rewrite big_split /= -IH; last by move=> y yi; apply: inD; rewrite inE yi orbT.
  rewrite (bigD1 (f x)) ?inD ?mem_head //= eqxx big1 // => a /andP[_ ne].
  by rewrite eq_sym (negbTE ne).
by rewrite mulnC -sum_nat_const; apply: leq_sum.
Qed.

Variables (bad : Q -> table -> Prop) (k : nat).
Hypothesis few : forall q t ys, uniq ys -> (forall y, y \in ys -> bad q (upd t (loc q) y)) -> size ys <= k.

Lemma count_at i (ts : seq table) : uniq ts ->
  (forall t, t \in ts -> exists q, [/\ first i t = Some q, loc q = i & bad q t]) ->
  size ts * #|Y| <= k * #|[set t | first i t != None]|.
Proof.
move=> ut H; rewrite [#|Y|]cardE -(size_allpairs (fun t y => (t, y))).
apply: (fiber_count (f := fun x : table * Y => upd x.1 i x.2)) => [x /allpairsP[[t y] /= [ti _ ->]]|d].
  by rewrite inE first_upd; have [q [-> _ _]] := H t ti.
set xs := [seq _ | _ <- _, _ <- _].
have ux : uniq xs by apply: allpairs_uniq; rewrite ?enum_uniq // => -[? ?] [? ?].
rewrite -size_filter; set zs := filter _ _.
have mz x : x \in zs -> [/\ x.1 \in ts, x.2 = d i & x.1 = upd d i (x.1 i)].
  rewrite mem_filter => /andP[/eqP <- /allpairsP[[t y] /= [ti _ ->]]] /=.
  by rewrite upd_same upd_upd upd_id.
rewrite -(size_map (fun x : table * Y => x.1 i)).
have umap : uniq [seq (x : table * Y).1 i | x <- zs].
  rewrite map_inj_in_uniq ?filter_uniq // => -[t y] [t' y'] /mz[/= _ -> ->] /mz[/= _ -> ->].
  by rewrite !upd_same => ->.
have [/size0nil -> //|] := posnP (size zs).
rewrite -has_predT => /hasP[[t0 y0] /mz[/= t0i _ t0E] _].
have [q [fq lq _]] := H t0 t0i.
have fd : first i d = Some q by rewrite -fq t0E first_upd.
apply: (few (q := q) (t := d) umap) => y /mapP[x /mz[xi _ xE] ->].
have [q' [fq' lq' b]] := H _ xi.
have -> : q = q' by apply: Some_inj; rewrite -fd -fq' xE first_upd.
by rewrite lq' -xE.
Qed.

Lemma choose_fst (A B : eqType) (P : A -> B -> Prop) (bs : seq B) :
  (forall b, b \in bs -> exists a, P a b) ->
  exists2 ps : seq (A * B), [seq x.2 | x <- ps] = bs & forall x, x \in ps -> P x.1 x.2.
Proof.
elim: bs => [|b bs IH] H; first by exists [::].
have [|ps E Hp] := IH; first by move=> c ci; apply: H; rewrite inE ci orbT.
have [a Pa] := H b (mem_head _ _).
exists ((a, b) :: ps) => [|x]; first by rewrite /= E.
by rewrite inE => /predU1P[->|/Hp].
Qed.

(* If the prover asks at most n questions, then the share of the tables for which
   it asks a question with an unlucky answer, no other question of the run sharing
   its table entry, is at most n * k / #|Y|. *)
Theorem unlucky_share (n : nat) (ts : seq table) :
  (forall t, size (asked loc p t) <= n) -> uniq ts ->
  (forall t, t \in ts -> exists2 q, q \in asked loc p t & bad q t /\
     forall q', q' \in asked loc p t -> loc q' = loc q -> q' = q) ->
  size ts * #|Y| <= n * k * #|{: table}|.
Proof.
move=> szn ut H.
have [|ps Eps Hps] := @choose_fst I [eqType of table]
  (fun i t => exists q, [/\ first i t = Some q, loc q = i & bad q t]) ts.
  move=> t /H[q qi [b un]]; exists (loc q), q; split=> //.
  exact: first_unique.
have -> : size ts = \sum_(i : I) size [seq x.2 | x <- ps & x.1 == i].
  rewrite -Eps size_map; elim: (ps) => [|x xs IH] /=; first by rewrite big1.
  rewrite IH (bigD1 x.1) //= [in RHS](bigD1 x.1) //= eqxx /= addSn; congr (_ + _).+1.
  by apply: eq_bigr => i ne; rewrite eq_sym (negbTE ne).
rewrite big_distrl /=.
apply: leq_trans (_ : \sum_(i : I) k * #|[set t | first i t != None]| <= _).
  apply: leq_sum => i _; apply: count_at.
    have : uniq [seq x.2 | x <- ps] by rewrite Eps.
    by apply: subseq_uniq; apply: map_subseq; apply: filter_subseq.
  by move=> t /mapP[x]; rewrite mem_filter => /andP[/eqP <- xi] ->; apply: Hps.
rewrite -big_distrr /= [n * k]mulnC -mulnA leq_mul2l; apply/orP; right.
have -> : \sum_(i : I) #|[set t | first i t != None]| = \sum_(t : table) #|[set i | first i t != None]|.
  under eq_bigr do rewrite -sum1dep_card big_mkcond.
  rewrite exchange_big /=; apply: eq_bigr => t _.
  by rewrite -sum1dep_card [RHS]big_mkcond.
rewrite mulnC -sum_nat_const; apply: leq_sum => t _.
apply: leq_trans (szn t); rewrite -(size_map loc).
apply: leq_trans (_ : #|[seq loc q | q <- asked loc p t]| <= _); last exact: card_size.
apply: subset_leq_card; apply/subsetP => i; rewrite inE /first.
case E: [seq _ <- _ | _] => [|q l] //= _.
have : q \in [seq q0 <- asked loc p t | loc q0 == i] by rewrite E mem_head.
by rewrite mem_filter => /andP[/eqP <- qi]; apply: map_f.
Qed.

End Counting.
