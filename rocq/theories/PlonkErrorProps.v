(* C76: the soundness error of the interactive protocol behind the PLONK code. *)
From Coq Require Import String Ascii NArith.
Set Warnings "-notation-overridden,-ambiguous-paths".
From mathcomp Require Import all_ssreflect all_algebra.
From mathcomp Require Import zify ring.
From mathcomp Require finfield.
From Verif Require Import Base BaseLemmas ArkPoly ArkPolyLemmas ArkDomain ArkDomainLemmas
  ArkPolyFft ArkPolyFftLemmas KzgModel KzgSpec PlonkModel PlonkSpec PlonkLemmas PlonkRefine
  PlonkCompile PlonkProps PlonkSoundSpec PlonkSoundProps Concrete ConcreteProps.

Set Implicit Arguments.
Unset Strict Implicit.
Unset Printing Implicit Defensive.

Import GRing.Theory.
Local Open Scope ring_scope.

(* ------------------------------------------------------------------ *)
(* counting *)
Lemma split_or (T : eqType) (P Q : T -> Prop) (xs : seq T) :
  (forall x, x \in xs -> P x \/ Q x) ->
  exists ys zs, [/\ perm_eq xs (ys ++ zs), forall y, y \in ys -> P y & forall z, z \in zs -> Q z].
Proof.
elim: xs => [|x xs IH] H; first by exists [::], [::].
have [|ys [zs [pe Py Qz]]] := IH; first by move=> y yi; apply: H; rewrite inE yi orbT.
have [Px|Qx] := H x (mem_head _ _).
  exists (x :: ys), zs; split=> //=; first by rewrite perm_cons.
  by move=> y; rewrite inE => /predU1P[->|/Py].
exists ys, (x :: zs); split=> //.
  by rewrite -cat1s -[x :: zs]cat1s perm_sym perm_catCA perm_cat2l perm_sym.
by move=> z; rewrite inE => /predU1P[->|/Qz].
Qed.

Lemma count_fibers (T : eqType) (A : finType) (f : T -> A) (xs : seq T) :
  size xs = (\sum_(a : A) count (fun x => f x == a) xs)%N.
Proof.
elim: xs => [|x xs IH] /=; first by rewrite big1.
rewrite big_split /= -IH (bigD1 (f x)) //= eqxx big1 ?addn0 // => a ne.
by rewrite eq_sym (negbTE ne).
Qed.

Lemma few_fibers (T B : eqType) (A : finType) (f : T -> A) (g : T -> B) (k : nat) (xs : seq T) :
  uniq xs -> (forall x y, f x = f y -> g x = g y -> x = y) ->
  (forall a bs, uniq bs -> (forall b, b \in bs -> exists2 x, x \in xs & f x = a /\ g x = b) ->
     (size bs <= k)%N) ->
  (size xs <= k * #|A|)%N.
Proof.
move=> ux inj few; rewrite (count_fibers f) mulnC -sum_nat_const; apply: leq_sum => a _.
rewrite -size_filter -(size_map g); apply: (few a) => [|b].
  rewrite map_inj_in_uniq ?filter_uniq // => x y; rewrite !mem_filter => /andP[/eqP ex _] /andP[/eqP ey _].
  by apply: inj; rewrite ex ey.
by case/mapP=> x; rewrite mem_filter => /andP[/eqP fx xi] ->; exists x.
Qed.

(* The code's verifier is the interactive one with the challenges its transcript
   gives. *)
Theorem C76_code_is_interactive (F : fieldType) (E : pairing_group F) (X : plonk_env E)
  (calls : seq (gate_call F)) (cc : compiled_circuit F) (s : F) (m : nat) T (pf : proof E) :
  pairing_ok E -> fft_ok (pk_fft X) -> compile (pk_fft X) (build calls) = Ret cc ->
  (cc_size cc <= m)%N -> digest_long T ->
  verify X T cc (srs_new_from_secret E s m) pf = Ret tt <->
  accepts_at (pk_fft X) cc (ch_beta X T pf, ch_gamma X T pf, ch_alpha X T pf, ch_zeta X T pf,
                            ch_v X T pf, ch_u X T pf, s) pf.
Proof.
move=> okE ok compiled nm long; rewrite (C52_verify okE ok compiled s nm) // /accepts_at equation_atE.
by case: eqP => // _; case: eqP => // _ /=; case: ifP.
Qed.

Section Error.
Variables (F : finFieldType) (E : pairing_group F) (X : plonk_env E).
Hypotheses (okE : pairing_ok E) (ok : fft_ok (pk_fft X)).
Variables (calls : seq (gate_call F)) (cc : compiled_circuit F).
Hypothesis compiled : compile (pk_fft X) (build calls) = Ret cc.
Local Notation n := (cc_size cc).
Local Notation w := (omega_of (pk_fft X) cc).
Variables (N D : nat) (S : strategy F).
Hypotheses (nN : (n <= N)%N) (bd : strategy_bounded N D S).

Lemma run_explained beta gamma alpha zeta v u s :
  explains s N (run_messages S beta gamma alpha zeta v) (run_proof E S (beta, gamma, alpha, zeta, v, u, s)).
Proof. by have [sz _] := bd beta gamma alpha zeta v u; split. Qed.

Definition deg_ord beta gamma alpha zeta v u : 'I_D :=
  Ordinal (proj2 (bd beta gamma alpha zeta v u)).

Lemma N2 : (2 <= N)%N.
Proof.
have [Ecc gt1 _ _] := compile_inv compiled; apply: leq_trans nN; rewrite Ecc.
exact: leq_trans gt1 (csize_ge calls).
Qed.

Local Notation M r := (run_messages S r.1.1.1.1.1.1 r.1.1.1.1.1.2 r.1.1.1.1.2 r.1.1.1.2 r.1.1.2).
Local Notation Fn := (F : fieldType).

Definition of_beta (r : coins F) := r.1.1.1.1.1.1.
Definition of_gamma (r : coins F) := r.1.1.1.1.1.2.
Definition of_alpha (r : coins F) := r.1.1.1.1.2.
Definition of_zeta (r : coins F) := r.1.1.1.2.
Definition of_v (r : coins F) := r.1.1.2.
Definition of_u (r : coins F) := r.1.2.
Definition of_s (r : coins F) := r.2.

Lemma cardF6 : #|{: F * F * F * F * F * F}| = (#|F| ^ 6)%N.
Proof. by rewrite !card_prod !expnS expn0 muln1 !mulnA. Qed.
Lemma cardF6D : #|{: F * F * F * F * F * F * 'I_D}| = (D * #|F| ^ 6)%N.
Proof. by rewrite card_prod cardF6 card_ord mulnC. Qed.

(* beta *)
Lemma count_beta (bad : seq F) (xs : seq (coins F)) : uniq xs ->
  (forall r, r \in xs -> of_beta r \in bad) -> (size xs <= size bad * #|F| ^ 6)%N.
Proof.
move=> ux H; rewrite -cardF6.
apply: (few_fibers (f := fun r => (of_gamma r, of_alpha r, of_zeta r, of_v r, of_u r, of_s r)) (g := of_beta)) => //.
  by move=> [[[[[[? ?] ?] ?] ?] ?] ?] [[[[[[? ?] ?] ?] ?] ?] ?]; rewrite /of_beta /of_gamma /of_alpha /of_zeta /of_v /of_u /of_s /= => -[-> -> -> -> -> ->] ->.
by move=> a bs ub Hb; apply: uniq_leq_size => // b /Hb[r /H ri [_ <-]].
Qed.

Lemma count_gamma (bad : seq F) (xs : seq (coins F)) : uniq xs ->
  (forall beta, beta \notin bad -> forall gammas, uniq gammas ->
     (forall gamma, gamma \in gammas -> bad_beta_gamma n w (run_messages S 0 0 0 0 0) calls beta gamma) ->
     (size gammas <= 3 * n)%N) ->
  (forall r, r \in xs -> of_beta r \notin bad /\ bad_beta_gamma n w (M r) calls (of_beta r) (of_gamma r)) ->
  (size xs <= 3 * n * #|F| ^ 6)%N.
Proof.
move=> ux few H; rewrite -cardF6.
apply: (few_fibers (f := fun r => (of_beta r, of_alpha r, of_zeta r, of_v r, of_u r, of_s r)) (g := of_gamma)) => //.
  by move=> [[[[[[? ?] ?] ?] ?] ?] ?] [[[[[[? ?] ?] ?] ?] ?] ?]; rewrite /of_beta /of_gamma /of_alpha /of_zeta /of_v /of_u /of_s /= => -[-> -> -> -> -> ->] ->.
move=> [[[[[beta alpha] zeta] v] u] s] [|b0 bs] // ub Hb.
have nb : beta \notin bad.
  by have [r /H[nb _] [[<- _ _ _ _ _] _]] := Hb b0 (mem_head _ _).
by apply: (few beta nb) => // gamma /Hb[r /H[_ b] [[<- _ _ _ _ _] <-]].
Qed.

Lemma count_alpha (xs : seq (coins F)) : uniq xs ->
  (forall r, r \in xs -> bad_alpha n w cc (M r) (of_beta r) (of_gamma r) (of_alpha r)) ->
  (size xs <= 2 * #|F| ^ 6)%N.
Proof.
move=> ux H; rewrite -cardF6.
apply: (few_fibers (f := fun r => (of_beta r, of_gamma r, of_zeta r, of_v r, of_u r, of_s r)) (g := of_alpha)) => //.
  by move=> [[[[[[? ?] ?] ?] ?] ?] ?] [[[[[[? ?] ?] ?] ?] ?] ?]; rewrite /of_beta /of_gamma /of_alpha /of_zeta /of_v /of_u /of_s /= => -[-> -> -> -> -> ->] ->.
move=> [[[[[beta gamma] zeta] v] u] s] bs ub Hb.
apply: (C67_few_bad_alpha (n := n) (w := w) (cc := cc) (M := run_messages S beta gamma 0 0 0) (beta := beta) (gamma := gamma) ub) => alpha.
by case/Hb=> r /H b [[<- <- _ _ _ _] <-].
Qed.

Lemma count_zeta (xs : seq (coins F)) : uniq xs ->
  (forall r, r \in xs -> bad_zeta n w cc (M r) (of_beta r) (of_gamma r) (of_alpha r)
     (deg_ord (of_beta r) (of_gamma r) (of_alpha r) (of_zeta r) (of_v r) (of_u r)).+1 (of_zeta r)) ->
  (size xs <= D * maxn (4 * N) (n + N + 2 * D) * #|F| ^ 6)%N.
Proof.
move=> ux H; rewrite [(D * _)%N]mulnC -mulnA -cardF6D.
apply: (few_fibers (f := fun r => (of_beta r, of_gamma r, of_alpha r, of_v r, of_u r, of_s r,
   deg_ord (of_beta r) (of_gamma r) (of_alpha r) (of_zeta r) (of_v r) (of_u r))) (g := of_zeta)) => //.
  by move=> [[[[[[? ?] ?] ?] ?] ?] ?] [[[[[[? ?] ?] ?] ?] ?] ?]; rewrite /of_beta /of_gamma /of_alpha /of_zeta /of_v /of_u /of_s /= => -[-> -> -> -> -> -> _] ->.
move=> [[[[[[beta gamma] alpha] v] u] s] d] bs ub Hb.
have [sz _] := bd beta gamma alpha 0 0 0.
have le : (maxn (4 * N) (n + N + 2 * d.+1) <= maxn (4 * N) (n + N + 2 * D))%N.
  by rewrite geq_max leq_maxl /= leq_max leq_add2l leq_mul2l ltn_ord !orbT.
apply: leq_trans le; apply: ltnW.
apply: (few_bad_zeta ok (compiled_wf compiled) nN N2 sz (beta := beta) (gamma := gamma) (alpha := alpha) (d := d.+1) ub).
by move=> zeta /Hb[r /H b [[<- <- <- _ _ _ <-] <-]].
Qed.

Lemma count_v (xs : seq (coins F)) : uniq xs ->
  (forall r, r \in xs -> bad_v n w cc (M r) (of_beta r) (of_gamma r) (of_alpha r) (of_zeta r)
     (st_a S (of_beta r) (of_gamma r) (of_alpha r) (of_zeta r))
     (st_b S (of_beta r) (of_gamma r) (of_alpha r) (of_zeta r))
     (st_c S (of_beta r) (of_gamma r) (of_alpha r) (of_zeta r))
     (st_s1 S (of_beta r) (of_gamma r) (of_alpha r) (of_zeta r))
     (st_s2 S (of_beta r) (of_gamma r) (of_alpha r) (of_zeta r))
     (st_zw S (of_beta r) (of_gamma r) (of_alpha r) (of_zeta r))
     (deg_ord (of_beta r) (of_gamma r) (of_alpha r) (of_zeta r) (of_v r) (of_u r)).+1 (of_v r)) ->
  (size xs <= 5 * D * #|F| ^ 6)%N.
Proof.
move=> ux H; rewrite -mulnA -cardF6D.
apply: (few_fibers (f := fun r => (of_beta r, of_gamma r, of_alpha r, of_zeta r, of_u r, of_s r,
   deg_ord (of_beta r) (of_gamma r) (of_alpha r) (of_zeta r) (of_v r) (of_u r))) (g := of_v)) => //.
  by move=> [[[[[[? ?] ?] ?] ?] ?] ?] [[[[[[? ?] ?] ?] ?] ?] ?]; rewrite /of_beta /of_gamma /of_alpha /of_zeta /of_v /of_u /of_s /= => -[-> -> -> -> -> -> _] ->.
move=> [[[[[[beta gamma] alpha] zeta] u] s] d] bs ub Hb.
apply: (C67_few_bad_v (n := n) (w := w) (cc := cc) (M := run_messages S beta gamma alpha zeta 0)
  (beta := beta) (gamma := gamma) (alpha := alpha) (zeta := zeta)
  (a := st_a S beta gamma alpha zeta) (b := st_b S beta gamma alpha zeta) (c := st_c S beta gamma alpha zeta)
  (e1 := st_s1 S beta gamma alpha zeta) (e2 := st_s2 S beta gamma alpha zeta) (zw := st_zw S beta gamma alpha zeta)
  (d := d.+1) ub) => v.
by case/Hb=> r /H b [[<- <- <- <- _ _ <-] <-].
Qed.

Lemma count_u (xs : seq (coins F)) : uniq xs ->
  (forall r, r \in xs -> bad_u n w cc (M r) (of_beta r) (of_gamma r) (of_alpha r) (of_zeta r)
     (st_a S (of_beta r) (of_gamma r) (of_alpha r) (of_zeta r))
     (st_b S (of_beta r) (of_gamma r) (of_alpha r) (of_zeta r))
     (st_c S (of_beta r) (of_gamma r) (of_alpha r) (of_zeta r))
     (st_s1 S (of_beta r) (of_gamma r) (of_alpha r) (of_zeta r))
     (st_s2 S (of_beta r) (of_gamma r) (of_alpha r) (of_zeta r))
     (st_zw S (of_beta r) (of_gamma r) (of_alpha r) (of_zeta r))
     (deg_ord (of_beta r) (of_gamma r) (of_alpha r) (of_zeta r) (of_v r) (of_u r)).+1 (of_v r) (of_u r)) ->
  (size xs <= D * #|F| ^ 6)%N.
Proof.
move=> ux H; rewrite -cardF6D -[#|_|]mul1n.
apply: (few_fibers (f := fun r => (of_beta r, of_gamma r, of_alpha r, of_zeta r, of_v r, of_s r,
   deg_ord (of_beta r) (of_gamma r) (of_alpha r) (of_zeta r) (of_v r) (of_u r))) (g := of_u)) => //.
  by move=> [[[[[[? ?] ?] ?] ?] ?] ?] [[[[[[? ?] ?] ?] ?] ?] ?]; rewrite /of_beta /of_gamma /of_alpha /of_zeta /of_v /of_u /of_s /= => -[-> -> -> -> -> -> _] ->.
move=> [[[[[[beta gamma] alpha] zeta] v] s] d] bs ub Hb.
apply: (C67_few_bad_u (n := n) (w := w) (cc := cc) (M := run_messages S beta gamma alpha zeta v)
  (beta := beta) (gamma := gamma) (alpha := alpha) (zeta := zeta)
  (a := st_a S beta gamma alpha zeta) (b := st_b S beta gamma alpha zeta) (c := st_c S beta gamma alpha zeta)
  (e1 := st_s1 S beta gamma alpha zeta) (e2 := st_s2 S beta gamma alpha zeta) (zw := st_zw S beta gamma alpha zeta)
  (d := d.+1) (v := v) ub) => u.
by case/Hb=> r /H b [[<- <- <- <- <- _ <-] <-].
Qed.

Lemma count_s (xs : seq (coins F)) : uniq xs ->
  (forall r, r \in xs -> bad_trapdoor n w cc (M r) (of_beta r) (of_gamma r) (of_alpha r) (of_zeta r)
     (st_a S (of_beta r) (of_gamma r) (of_alpha r) (of_zeta r))
     (st_b S (of_beta r) (of_gamma r) (of_alpha r) (of_zeta r))
     (st_c S (of_beta r) (of_gamma r) (of_alpha r) (of_zeta r))
     (st_s1 S (of_beta r) (of_gamma r) (of_alpha r) (of_zeta r))
     (st_s2 S (of_beta r) (of_gamma r) (of_alpha r) (of_zeta r))
     (st_zw S (of_beta r) (of_gamma r) (of_alpha r) (of_zeta r))
     (deg_ord (of_beta r) (of_gamma r) (of_alpha r) (of_zeta r) (of_v r) (of_u r)).+1 (of_v r) (of_u r) (of_s r)) ->
  (size xs <= N * #|F| ^ 6)%N.
Proof.
move=> ux H; rewrite -cardF6.
apply: (few_fibers (f := fun r => (of_beta r, of_gamma r, of_alpha r, of_zeta r, of_v r, of_u r)) (g := of_s)) => //.
  by move=> [[[[[[? ?] ?] ?] ?] ?] ?] [[[[[[? ?] ?] ?] ?] ?] ?]; rewrite /of_beta /of_gamma /of_alpha /of_zeta /of_v /of_u /of_s /= => -[-> -> -> -> -> ->] ->.
move=> [[[[[beta gamma] alpha] zeta] v] u] bs ub Hb.
have [sz _] := bd beta gamma alpha zeta v u.
apply: (few_bad_trapdoor (compiled_wf compiled) nN sz
  (beta := beta) (gamma := gamma) (alpha := alpha) (zeta := zeta)
  (a := st_a S beta gamma alpha zeta) (b := st_b S beta gamma alpha zeta) (c := st_c S beta gamma alpha zeta)
  (e1 := st_s1 S beta gamma alpha zeta) (e2 := st_s2 S beta gamma alpha zeta) (zw := st_zw S beta gamma alpha zeta)
  (d := (st_degree S beta gamma alpha zeta v u).+1) (v := v) (u := u) ub) => s.
by case/Hb=> r /H b [[<- <- <- <- <- <-] <-].
Qed.

(* C76: unless the wire polynomials the prover commits to first satisfy the circuit,
   the verifier accepts for at most error_values of the card F values of each
   challenge: a share of error_values / card F of all choices of the seven coins. *)
Theorem C76_soundness_error :
  2%:R ^+ n != 1 :> F -> 3%:R ^+ n != 1 :> F -> 2%:R ^+ n != 3%:R ^+ n :> F -> 3%:R != 0 :> F ->
  ~ satisfies calls n (values_of w (st_A S) (st_B S) (st_C S)) ->
  (#|[set r : coins F | accepts_at (pk_fft X) cc r (run_proof E S r)]| <= error_values n N D * #|F| ^ 6)%N.
Proof.
move=> n21 n31 n23 nz3 unsat.
have [bad szb few] := C67_few_bad_beta_gamma ok compiled (run_messages S 0 0 0 0 0) n21 n31 n23 nz3.
rewrite cardE; set xs := enum _.
have ux : uniq xs by apply: enum_uniq.
pose R := [set r : coins F | accepts_at (pk_fft X) cc r (run_proof E S r)].
have H r : r \in xs -> accepts_at (pk_fft X) cc r (run_proof E S r).
  by rewrite mem_enum inE.
move: xs ux H => xs ux H.
pose E1 r := of_beta r \in bad.
pose E2 r := of_beta r \notin bad /\ bad_beta_gamma n w (M r) calls (of_beta r) (of_gamma r).
pose E3 r := bad_alpha n w cc (M r) (of_beta r) (of_gamma r) (of_alpha r).
pose d r := (deg_ord (of_beta r) (of_gamma r) (of_alpha r) (of_zeta r) (of_v r) (of_u r)).+1.
pose E4 r := bad_zeta n w cc (M r) (of_beta r) (of_gamma r) (of_alpha r) (d r) (of_zeta r).
pose at4 (f : F -> F -> F -> F -> F) (r : coins F) := f (of_beta r) (of_gamma r) (of_alpha r) (of_zeta r).
pose E5 r := bad_v n w cc (M r) (of_beta r) (of_gamma r) (of_alpha r) (of_zeta r)
  (at4 (st_a S) r) (at4 (st_b S) r) (at4 (st_c S) r) (at4 (st_s1 S) r) (at4 (st_s2 S) r) (at4 (st_zw S) r)
  (d r) (of_v r).
pose E6 r := bad_u n w cc (M r) (of_beta r) (of_gamma r) (of_alpha r) (of_zeta r)
  (at4 (st_a S) r) (at4 (st_b S) r) (at4 (st_c S) r) (at4 (st_s1 S) r) (at4 (st_s2 S) r) (at4 (st_zw S) r)
  (d r) (of_v r) (of_u r).
pose E7 r := bad_trapdoor n w cc (M r) (of_beta r) (of_gamma r) (of_alpha r) (of_zeta r)
  (at4 (st_a S) r) (at4 (st_b S) r) (at4 (st_c S) r) (at4 (st_s1 S) r) (at4 (st_s2 S) r) (at4 (st_zw S) r)
  (d r) (of_v r) (of_u r) (of_s r).
have cases r : r \in xs -> E1 r \/ E2 r \/ E3 r \/ E4 r \/ E5 r \/ E6 r \/ E7 r.
  move/H => {H}; case: r => [[[[[[beta gamma] alpha] zeta] v] u] s] /and3P[_ z1 eqn].
  have gap := equation_gap_at okE ok compiled z1 (run_explained beta gamma alpha zeta v u s) eqn.
  have := gap_cases ok compiled gap.
  case=> [sat|]; first by case: unsat; exact: sat.
  case=> [b2|].
    by have [i1|n1] := boolP (beta \in bad); [left|right; left; split].
  by move=> h; do 2 right; exact: h.
have peel (P Q : coins F -> Prop) ys k l : uniq ys -> (forall r, r \in ys -> P r \/ Q r) ->
    (forall zs, uniq zs -> (forall r, r \in zs -> P r) -> (size zs <= k)%N) ->
    (forall zs, uniq zs -> (forall r, r \in zs -> Q r) -> (size zs <= l)%N) ->
    (size ys <= k + l)%N.
  move=> uy PQ fP fQ; have [z1 [z2 [pe P1 Q2]]] := split_or PQ.
  move: uy; rewrite (perm_uniq pe) (perm_size pe) cat_uniq size_cat => /and3P[u1 _ u2].
  by apply: leq_add; [apply: fP|apply: fQ].
have dist (a1 a2 a3 a4 a5 a6 a7 q : nat) : ((a1 + a2 + a3 + a4 + a5 + a6 + a7) * q =
    a1 * q + (a2 * q + (a3 * q + (a4 * q + (a5 * q + (a6 * q + a7 * q))))))%N.
  by rewrite !mulnDl -!addnA.
rewrite /error_values dist.
apply: (peel _ _ _ _ _ ux cases) => [zs uz Hz|ys1 u1 c1].
  by apply: leq_trans (count_beta uz Hz) _; rewrite leq_mul2r szb orbT.
apply: (peel _ _ _ _ _ u1 c1) => [zs uz Hz|ys2 u2 c2].
  exact: count_gamma uz few Hz.
apply: (peel _ _ _ _ _ u2 c2) => [zs uz Hz|ys3 u3 c3].
  exact: count_alpha uz Hz.
apply: (peel _ _ _ _ _ u3 c3) => [zs uz Hz|ys4 u4 c4].
  exact: count_zeta uz Hz.
apply: (peel _ _ _ _ _ u4 c4) => [zs uz Hz|ys5 u5 c5].
  exact: count_v uz Hz.
apply: (peel _ _ _ _ _ u5 c5) => [zs uz Hz|ys6 u6 c6].
  exact: count_u uz Hz.
exact: count_s u6 c6.
Qed.
End Error.

Lemma coset_facts (F : fieldType) (E : pairing_group F) (X : plonk_env E)
  (calls : seq (gate_call F)) cc :
  N.to_nat bls_r \in [char F] -> pk_fft X = bls_fft F ->
  compile (pk_fft X) (build calls) = Ret cc ->
  [/\ 2%:R ^+ cc_size cc != 1 :> F, 3%:R ^+ cc_size cc != 1 :> F,
      2%:R ^+ cc_size cc != 3%:R ^+ cc_size cc :> F & 3%:R != 0 :> F].
Proof.
move=> char Ef comp; have [Ecc _ dle _] := compile_inv comp.
have Ek : exists2 k, (k <= 32)%N & cc_size cc = (2 ^ k)%N.
  by exists (up_log 2 (size calls)); [move: dle; rewrite Ef|rewrite Ecc].
case: Ek => k k32 En.
have := cosets_check_ok (p := bls_r) erefl bls_cosets_check char k32.
rewrite -En => -[n21 n31 n23]; split; [exact: n21|exact: n31|exact: n23|].
by apply/eqP => e; have := @inR_inj F bls_r char 3%num 0%num erefl erefl e.
Qed.

Lemma error_small (x y n N : nat) : (1 <= x)%N -> (64 * x <= y)%N -> (16 * (x * x) <= y)%N ->
  (n <= x)%N -> (N <= 16 * x)%N -> (error_values n N y <= 8 * (y * y))%N.
Proof.
move=> x1 xy xxy nx Nx; rewrite /error_values.
have m4 : (maxn (4 * N) (n + N + 2 * y) <= 4 * y)%N.
  by rewrite geq_max; apply/andP; split; move: x1 xy nx Nx; clear; lia.
have s1 : ((3 * n) ^ 2 <= y)%N.
  rewrite -mulnn; apply: leq_trans xxy.
  by apply: leq_trans (leq_mul (leq_mul (leqnn 3) nx) (leq_mul (leqnn 3) nx)) _; clear; nia.
have s2 : (y * maxn (4 * N) (n + N + 2 * y) <= 4 * (y * y))%N.
  by apply: leq_trans (leq_mul (leqnn y) m4) _; clear; nia.
have s3 : (8 * y <= y * y)%N by rewrite leq_mul2r; apply/orP; right; move: x1 xy; clear; lia.
move: s1 s2 s3 x1 xy nx Nx; clear; move: ((3 * n) ^ 2)%N (y * maxn _ _)%N (y * y)%N; lia.
Qed.

Lemma mul_pow c d a b : (2 ^ d = c)%N -> (d + a <= b)%N -> (c * 2 ^ a <= 2 ^ b)%N.
Proof. by move=> <- le; rewrite -expnD leq_exp2l. Qed.
Lemma le_mul_pow c d a b e : (2 ^ d = c)%N -> (b <= 2 ^ e)%N -> (e <= d + a)%N -> (b <= c * 2 ^ a)%N.
Proof. by move=> <- lb le; apply: leq_trans lb _; rewrite -expnD leq_exp2l. Qed.
Lemma error_pow (n N a b c : nat) : (n <= 2 ^ a)%N -> (N <= 2 ^ (4 + a))%N -> (6 + a <= b)%N ->
  (4 + (a + a) <= b)%N -> (3 + (b + b) <= c)%N -> (error_values n N (2 ^ b) <= 2 ^ c)%N.
Proof.
move=> na Na ab aab bc.
have e3 : (8 * 2 ^ (b + b) <= 2 ^ c)%N by apply: (@mul_pow 8 3).
apply: leq_trans e3; rewrite expnD; apply: (@error_small (2 ^ a)).
- by rewrite expn_gt0.
- exact: (@mul_pow 64 6).
- by rewrite -expnD; apply: (@mul_pow 16 4).
- exact: na.
- exact: (@le_mul_pow 16 4 a N (4 + a)).
Qed.
Lemma nat_pow2 k : Nat.pow 2 k = (2 ^ k)%N.
Proof. by elim: k => // k IH; rewrite expnS -IH /=; lia. Qed.
Lemma to_nat_pow (e p : N) : (2 ^ e <= p)%num -> (2 ^ N.to_nat e <= N.to_nat p)%N.
Proof.
move=> le; have -> : (2 ^ N.to_nat e = N.to_nat (2 ^ e))%N by rewrite N2Nat.inj_pow nat_pow2.
by apply/leP; lia.
Qed.

Lemma char_of_card (F : finFieldType) p : #|F| = p -> prime p -> p \in [char F].
Proof. by move=> e pp; apply: (@finfield.card_finCharP F p 1) => //; rewrite expn1. Qed.
Lemma share_arith (f cnt err a b : nat) : (cnt <= err * f ^ 6)%N -> (err <= 2 ^ b)%N ->
  (2 ^ (a + b) <= f)%N -> (2 ^ a * cnt <= f ^ 7)%N.
Proof.
move=> lc le lf; rewrite (expnS f); apply: leq_trans (leq_mul (leqnn _) lc) _.
rewrite mulnA leq_mul2r; apply/orP; right; apply: leq_trans lf.
by rewrite expnD leq_mul2l le orbT.
Qed.
Lemma bls_big : (2 ^ 251 <= bls_r)%num.
Proof. by vm_compute. Qed.

(* For the BLS12-381 scalar field: circuits of up to 2^28 rows, reference strings of
   up to 2^32 points, any 64-bit degree field.  A cheating prover of the interactive
   protocol is accepted for less than a 2^-120th of the choices. *)
Theorem C76_bls_negligible (F : finFieldType) (E : pairing_group F) (X : plonk_env E)
  (calls : seq (gate_call F)) (cc : compiled_circuit F) (N : nat) (S : strategy F) :
  #|F| = N.to_nat bls_r -> pk_fft X = bls_fft F -> pairing_ok E ->
  compile (pk_fft X) (build calls) = Ret cc ->
  (cc_size cc <= 2 ^ 28)%N -> (cc_size cc <= N)%N -> (N <= 2 ^ 32)%N ->
  strategy_bounded N (2 ^ 64) S ->
  ~ satisfies calls (cc_size cc) (values_of (omega_of (pk_fft X) cc) (st_A S) (st_B S) (st_C S)) ->
  (2 ^ 120 * #|[set r : coins F | accepts_at (pk_fft X) cc r (run_proof E S r)]| <= #|F| ^ 7)%N.
Proof.
move=> cF Ef okE comp n28 nN N32 bd unsat.
have char : N.to_nat bls_r \in [char F].
  exact: (char_of_card cF C63_bls_prime).
have ok : fft_ok (pk_fft X) by rewrite Ef; exact: (C63_bls char).
have [n21 n31 n23 nz3] := coset_facts char Ef comp.
have le := C76_soundness_error okE ok comp nN bd n21 n31 n23 nz3 unsat.
have err : (error_values (cc_size cc) N (2 ^ 64) <= 2 ^ 131)%N.
  exact: (@error_pow (cc_size cc) N 28 64 131 n28 (N32 : (N <= 2 ^ (4 + 28))%N) isT isT isT).
have big : (2 ^ (120 + 131) <= #|F|)%N by rewrite cF; exact: (@to_nat_pow 251%num bls_r bls_big).
exact: (share_arith le err big).
Qed.
