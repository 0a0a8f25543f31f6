(* C82: folding instances that are fixed before the challenge. *)
From Coq Require Import String Ascii NArith.
Set Warnings "-notation-overridden,-ambiguous-paths".
From mathcomp Require Import all_ssreflect all_algebra.
From mathcomp Require Import zify ring.
From Verif Require Import Base BaseLemmas ArkPoly ArkPolyLemmas KzgModel KzgSpec KzgLemmas
  KzgProps NovaModel NovaSpec NovaLemmas NovaTranscript NovaProps OracleProver NovaErrorSpec.
From Verif Require PlonkErrorProps PlonkFsProps SeedProps.

Set Implicit Arguments.
Unset Strict Implicit.
Unset Printing Implicit Defensive.

Import GRing.Theory.
Local Open Scope ring_scope.

Section Gap.
Variables (F : fieldType) (E : pairing_group F).
Hypothesis ok : pairing_ok E.
Implicit Types (R : r1cs F) (a b : opened F) (s r : F) (T : {poly F}) (fw : fwitness F).
Local Notation ra R i := (nth [::] (matrix_a R) i).
Local Notation rb R i := (nth [::] (matrix_b R) i).
Local Notation rc R i := (nth [::] (matrix_c R) i).

Definition vec a : seq F := fw_w (op_wit a) ++ op_x a ++ [:: op_u a].
Definition row_gap R a i : F :=
  dot (ra R i) (vec a) * dot (rb R i) (vec a) - op_u a * dot (rc R i) (vec a) - (fw_e (op_wit a))`_i.
Definition row_cross R a b T i : F :=
  dot (ra R i) (vec a) * dot (rb R i) (vec b) + dot (ra R i) (vec b) * dot (rb R i) (vec a) -
  op_u a * dot (rc R i) (vec b) - op_u b * dot (rc R i) (vec a) - T`_i.
Definition row_poly R a b T i : {poly F} :=
  (row_gap R a i)%:P + (row_cross R a b T i)%:P * 'X + (row_gap R b i)%:P * 'X ^+ 2.
(* r is a root of every row polynomial *)
Definition unlucky R a b T r : bool :=
  all (fun i => (row_poly R a b T i).[r] == 0) (iota 0 (size (matrix_a R))).

Lemma row_polyE R a b T i r :
  (row_poly R a b T i).[r] = row_gap R a i + r * row_cross R a b T i + r ^+ 2 * row_gap R b i.
Proof.
rewrite /row_poly; move: (row_gap R a i) (row_cross R a b T i) (row_gap R b i) => x y z.
rewrite !hornerD !hornerM !hornerC !hornerX; ring.
Qed.

Lemma row_poly_neq0 R a b T i : (row_gap R a i != 0) || (row_gap R b i != 0) -> row_poly R a b T i != 0.
Proof.
apply: contraTneq => e; rewrite negb_or !negbK.
have c k := congr1 (fun p : {poly F} => p`_k) e; move: (c 0%N) (c 2%N).
by rewrite /row_poly !coefD !coefCM !coefC !coefX !coefXn /= !mulr0 !mulr1 !addr0 !add0r => -> ->; rewrite eqxx.
Qed.

Lemma size_row_poly R a b T i : (size (row_poly R a b T i) <= 3)%N.
Proof.
apply/leq_sizeP => k k3; rewrite /row_poly !coefD !coefCM coefC coefX coefXn.
by case: k k3 => [|[|[|k]]] //= _; rewrite !mulr0 !addr0.
Qed.

Lemma relation_gap R a : relation_holds R a <-> forall i, (i < size (matrix_a R))%N -> row_gap R a i = 0.
Proof.
split=> H i lt; have := H i lt; rewrite /row_holds /row_gap -/(vec a).
  by move=> ->; ring.
by move/eqP; rewrite subr_eq0 => /eqP <-; ring.
Qed.

Lemma few_unlucky R a b T (rs : seq F) :
  ~ (relation_holds R a /\ relation_holds R b) -> uniq rs ->
  (forall r, r \in rs -> unlucky R a b T r) -> (size rs <= 2)%N.
Proof.
move=> nb us H.
have /hasP[i im ne] : has (fun i => (row_gap R a i != 0) || (row_gap R b i != 0)) (iota 0 (size (matrix_a R))).
  apply: contra_notT nb => /hasPn no.
  by split; apply/relation_gap => i lt; have := no i; rewrite mem_iota lt => /(_ isT);
     rewrite negb_or !negbK => /andP[/eqP ? /eqP ?].
rewrite -ltnS; apply: leq_trans (size_row_poly R a b T i).
apply: max_poly_roots (row_poly_neq0 T ne) _ us.
by apply/allP => r /H /allP/(_ _ im).
Qed.

Lemma nth_vec_comb r (x y : seq F) : size x = size y -> Poly (vec_comb r x y) = Poly x + r *: Poly y.
Proof.
move=> es; apply/polyP=> i; rewrite coefD coefZ !coef_Poly.
have [lt|ge] := ltnP i (size x); first by rewrite nth_comb // -es.
by rewrite !nth_default ?mulr0 ?addr0 // ?size_comb ?es ?minnn // -es.
Qed.

Lemma Poly_eq (x y : seq F) : size x = size y -> Poly x = Poly y -> x = y.
Proof.
move=> es ep; apply: (@eq_from_nth _ 0) => // i _.
by have := congr1 (fun p : {poly F} => p`_i) ep; rewrite !coef_Poly.
Qed.

Lemma fold_gap R n s a b T r fw : fits_relation R a -> fits_relation R b ->
  fold_satisfied E R n s a b T r fw -> other_opening a b T r fw s \/ unlucky R a b T r.
Proof.
move=> [wa xa ea] [wb xb eb]; rewrite /fold_satisfied.
case Es: is_r1cs_satisfied => [[]||] // _; move/C29_satisfied_iff: Es.
move=> [[sw _] [se sAC sAB] rows _ [ce cw]].
have inj (x y : F) : x *: g1_gen E = y *: g1_gen E -> x = y.
  move/eqP; rewrite -subr_eq0 -scalerBl scaler_eq0 (negbTE (g1_gen_neq0 ok)) orbF subr_eq0.
  by move/eqP.
set W := Poly (fw_w fw) - (Poly (fw_w (op_wit a)) + r *: Poly (fw_w (op_wit b))).
set V := Poly (fw_e fw) - (Poly (fw_e (op_wit a)) + r *: T + r ^+ 2 *: Poly (fw_e (op_wit b))).
have W0 : W.[s] = 0.
  move: cw; rewrite /= /commitment_of scalerA -scalerDl => /inj e.
  by rewrite /W !hornerE -e subrr.
have V0 : V.[s] = 0.
  move: ce; rewrite /= /commitment_of !scalerA -!scalerDl => /inj e.
  by rewrite /V !hornerE -e expr2 subrr.
have [eW|nW] := eqVneq W 0; last by left; left.
have [eV|nV] := eqVneq V 0; last by left; right.
right; apply/allP => i; rewrite mem_iota add0n => /= lt; rewrite row_polyE.
have wE : fw_w fw = vec_comb r (fw_w (op_wit a)) (fw_w (op_wit b)).
  apply: Poly_eq; first by rewrite size_comb wa wb minnn.
  by rewrite nth_vec_comb ?wa ?wb //; apply/eqP; rewrite -subr_eq0 -/W eW.
have zE : fw_w fw ++ [seq p.1 + p.2 * r | p <- zip (op_x a) (op_x b)] ++ [:: op_u a + op_u b * r] =
    vec_comb r (vec a) (vec b).
  rewrite /vec_comb /vec !zip_cat ?wa ?wb ?xa ?xb // !map_cat /= wE /vec_comb.
  by congr (_ ++ (_ ++ [:: _])); [apply: eq_map => p; rewrite mulrC|rewrite mulrC].
have szv : size (vec a) = size (vec b) by rewrite /vec !size_cat wa wb xa xb.
have := rows i lt; rewrite /row_holds /= zE !dot_comb //.
have eE : (fw_e fw)`_i = (fw_e (op_wit a))`_i + r * T`_i + r ^+ 2 * (fw_e (op_wit b))`_i.
  have := congr1 (fun p : {poly F} => p`_i) eV; rewrite /V coefB !coefD !coefZ !coef_Poly coef0.
  by move/eqP; rewrite subr_eq0 => /eqP.
rewrite eE /row_gap /row_cross => h; apply/eqP.
transitivity ((dot (ra R i) (vec a) + r * dot (ra R i) (vec b)) *
   (dot (rb R i) (vec a) + r * dot (rb R i) (vec b)) -
   ((op_u a + op_u b * r) * (dot (rc R i) (vec a) + r * dot (rc R i) (vec b)) +
    ((fw_e (op_wit a))`_i + r * T`_i + r ^+ 2 * (fw_e (op_wit b))`_i))); first by ring.
by rewrite h subrr.
Qed.

End Gap.

(* ------------------------------------------------------------------ *)
(* Interaction: the vectors behind the instances and the cross term are fixed,
   the challenge is drawn, the prover answers with a witness. *)
Section Error.
Variables (F : finFieldType) (E : pairing_group F).
Hypothesis ok : pairing_ok E.

Theorem C82_folding_error (R : r1cs F) (n N : nat) (a b : opened F) (T : {poly F})
    (answer : F -> fwitness F) :
  fits_relation R a -> fits_relation R b ->
  (num_vars R <= N)%N -> (size (matrix_c R) <= N)%N -> (size T <= N)%N ->
  ~ (relation_holds R a /\ relation_holds R b) ->
  (#|[set rs : F * F | fold_satisfied E R n rs.2 a b T rs.1 (answer rs.1)]| <= (2 + 2 * N) * #|F|)%N.
Proof.
move=> fa fb vN cN tN nb; rewrite cardE; set xs := enum _.
have ux : uniq xs by apply: enum_uniq.
have acc x : x \in xs -> fold_satisfied E R n x.2 a b T x.1 (answer x.1) by rewrite mem_enum inE.
move: xs ux acc => xs ux acc.
pose sm r := size (fw_w (answer r)) = num_vars R /\ size (fw_e (answer r)) = size (matrix_c R).
have [x xi|ys [zs [pe Py Qz]]] := @PlonkErrorProps.split_or _ (fun x => unlucky R a b T x.1)
   (fun x => other_opening a b T x.1 (answer x.1) x.2 /\ sm x.1) xs.
  have [o|u] := fold_gap ok fa fb (acc x xi); [right; split=> //|by left].
  move: (acc x xi); rewrite /fold_satisfied; case Es: is_r1cs_satisfied => [[]||] // _.
  by move/C29_satisfied_iff: Es => [[? _] [? _ _] _ _ _].
move: ux; rewrite (perm_uniq pe) (perm_size pe) cat_uniq size_cat mulnDl => /and3P[uy _ uz].
apply: leq_add.
  apply: (PlonkErrorProps.few_fibers (f := snd) (g := fst) uy) => [[? ?] [? ?] /= -> -> //|s rs ur H].
  by apply: (few_unlucky nb ur (T := T)) => r /H[[r' s'] /Py /= u [_ <-]].
apply: (PlonkErrorProps.few_fibers (f := fst) (g := snd) uz) => [[? ?] [? ?] /= -> -> //|r ss us H].
have [/size0nil -> //|] := posnP (size ss); rewrite -has_predT => /hasP[s0 s0i _].
have [swr ser] : sm r by have [[r' s'] /Qz[_ h] [/= <- _]] := H s0 s0i.
have [s si|ps [qs [pe' Pp Qq]]] := @PlonkErrorProps.split_or _
    (fun s => let W := Poly (fw_w (answer r)) -
        (Poly (fw_w (op_wit a)) + r *: Poly (fw_w (op_wit b))) in W != 0 /\ W.[s] = 0)
    (fun s => let V := Poly (fw_e (answer r)) -
        (Poly (fw_e (op_wit a)) + r *: T + r ^+ 2 *: Poly (fw_e (op_wit b))) in V != 0 /\ V.[s] = 0) ss.
  by have [[r' s'] /Qz[h _] /= [er es]] := H s si; subst r' s'.
case: fa fb => wa _ ea [wb _ eb].
have le (c : seq F) m : size c = m -> (m <= N)%N -> (size (Poly c) <= N)%N.
  by move=> <- lm; apply: leq_trans (size_Poly _) lm.
have roots (p : {poly F}) (l : seq F) : uniq l -> (size p <= N)%N ->
    (forall s, s \in l -> p != 0 /\ p.[s] = 0) -> (size l <= N)%N.
  move=> ul sp Hl; have [/size0nil -> //|] := posnP (size l); rewrite -has_predT => /hasP[s1 s1i _].
  have [pn _] := Hl s1 s1i; apply: ltnW; apply: leq_trans sp; apply: max_poly_roots pn _ ul.
  by apply/allP => s /Hl[_ /eqP].
move: us; rewrite (perm_uniq pe') (perm_size pe') cat_uniq size_cat => /and3P[up _ uq].
have D (p q : {poly F}) : (size p <= N)%N -> (size q <= N)%N -> (size (p + q)%R <= N)%N.
  by move=> hp hq; apply: leq_trans (size_add _ _) _; rewrite geq_max hp hq.
have Z (p : {poly F}) (c : F) : (size p <= N)%N -> (size (c *: p)%R <= N)%N.
  by move=> hp; apply: leq_trans (size_scale_leq _ _) hp.
rewrite mul2n -addnn; apply: leq_add.
  by apply: roots up _ Pp; apply: (D); rewrite ?size_opp; [apply: le swr vN|apply: D; [apply: le wa vN|apply: Z; apply: le wb vN]].
apply: roots uq _ Qq; apply: (D); rewrite ?size_opp; first by apply: le ser cN.
by apply: (D); [apply: D; [apply: le ea cN|apply: Z]|apply: Z; apply: le eb cN].
Qed.

End Error.

(* ------------------------------------------------------------------ *)
(* Fiat-Shamir: the instances are fixed, the cross term may depend on earlier
   challenges. *)
Section Fs.
Variables (F : finFieldType) (B : fieldType) (E : pairing_group F) (X : nova_env B E).
Hypotheses (ok : pairing_ok E) (long : forall m, (8 <= size (digest X m))%N).
Variables (K : nat) (K0 : (0 < K)%N).
(* an entry of its own for every seed *)
Hypothesis seeds : (256 ^ 8 <= K)%N.
Variables (R : r1cs F) (n : nat) (s : F) (a b : opened F).
Variables (ops : seq (nt_op E)) (outs : seq (seq F)) (vt : ntranscript).
Hypothesis run : nt_run X nt_default ops = Ret (outs, vt).
Local Notation ms := (fed X ops).
Local Notation loc := (fold_entry K0 X s a b ms).

Lemma hash_chain_table t l : hash_chain (with_fr_table K0 X t) l = hash_chain X l.
Proof. by []. Qed.

Lemma loc_inj (T1 T2 : {poly F}) : loc T1 = loc T2 -> fold_seed X s a b ms T1 = fold_seed X s a b ms T2.
Proof.
have lt T : (N.to_nat (fold_seed X s a b ms T) < K)%N.
  apply: leq_trans (PlonkFsProps.le_decode_lt _) _.
  have -> : size (take 8 (hash_chain X (ms ++ [:: ser_fr X (op_u a); ser_fr X (op_u b);
      ser_g1 X (commitment_of E s T)]))) = 8%N; last exact: seeds.
  rewrite size_take_min; apply/minn_idPl.
  by rewrite /hash_chain foldl_cat /=; apply: long.
move=> /(congr1 val) /=; rewrite !modn_small ?lt // => e.
by rewrite -[LHS]Nnat.N2Nat.id e Nnat.N2Nat.id.
Qed.

(* the challenge inside an accepted proof is the table entry *)
Lemma accepted_challenge t pf fi3 (T : {poly F}) S :
  is_ret (nifs_verify (with_fr_table K0 X t) pf (instance_of E s a) (instance_of E s b) fi3
            (commitment_of E s T) S vt) -> np_r pf = t (loc T).
Proof.
have [[d _] _ _] := nt_run_state (tracks_default X) run; rewrite cat0s in d.
rewrite /nifs_verify /verify_challenge.
case Er: nt_challenge => [[r t1]||] //=; case: eqP => //= <- _.
move: Er; rewrite (@challenge_absorb _ _ _ (with_fr_table K0 X t)) // => -[<- _] /=.
by rewrite /fold_entry /fold_seed /hash_chain foldl_cat -/(hash_chain X ms) -d.
Qed.

Theorem C82_fiat_shamir (p : fold_prover E) (Q : nat) (tbls : seq (fr_table F K)) :
  fits_relation R a -> fits_relation R b ->
  ~ (relation_holds R a /\ relation_holds R b) ->
  (forall t, size (asked loc p t) <= Q)%N -> uniq tbls ->
  (forall t, t \in tbls -> folds K0 X s a b ms R n vt p t) ->
  (size tbls * #|F| <= (Q + 1) * 2 * #|{: fr_table F K}|)%N.
Proof.
move=> fa fb nb szQ ut H.
pose more (o : {poly F} * nifs_proof E * fwitness F) : seq [eqType of {poly F}] := [:: o.1.1].
pose bad (T : [eqType of {poly F}]) (t : fr_table F K) : Prop := unlucky R a b T (t (loc T)).
apply: (@unlucky_share _ _ _ _ loc (ask_more more p) bad 2 _ (Q + 1) tbls) => //.
- move=> T t ys uy Hy; apply: (few_unlucky nb uy (T := T)) => y /Hy.
  by rewrite /bad upd_same.
- by move=> t; rewrite asked_more size_cat leq_add.
move=> t /H; rewrite /folds asked_more.
case: (output loc p t) => [[T pf] fw] /= [acc sat no dist]; rewrite /more /=.
have un T' : T' \in asked loc p t ++ [:: T] -> loc T' = loc T -> T' = T.
  rewrite mem_cat mem_seq1 => h /loc_inj; apply: dist; rewrite ?mem_head //.
  by rewrite inE orbC.
exists T; first by rewrite mem_cat mem_seq1 eqxx orbT.
split; last exact: un.
have er := accepted_challenge acc.
rewrite /bad -er.
have [|/no //|//] := @fold_gap _ E ok R n s a b T (np_r pf) fw fa fb.
by rewrite /fold_satisfied -/(nifs_verifier _ _ _ _) sat.
Qed.

End Fs.

(* ------------------------------------------------------------------ *)
(* the field and the seeds of the code *)
Lemma share_bound (f cnt m c e : nat) : (cnt * f <= m * c)%N -> (2 ^ e <= f)%N -> (2 ^ e * cnt <= m * c)%N.
Proof. by move=> le lf; apply: leq_trans le; rewrite mulnC leq_mul2l lf orbT. Qed.

Lemma halve (x m c e : nat) : (2 ^ e.+1 * x <= m * 2 * c)%N -> (2 ^ e * x <= m * c)%N.
Proof. by rewrite expnS -mulnA mulnAC [X in (_ <= X)%N]mulnC leq_pmul2l. Qed.

Theorem C82_bls (F : finFieldType) (B : fieldType) (E : pairing_group F) (X : nova_env B E) (K : nat)
    (K0 : (0 < K)%N) (R : r1cs F) (n : nat) (s : F) (a b : opened F)
    (ops : seq (nt_op E)) (outs : seq (seq F)) (vt : ntranscript)
    (p : fold_prover E) (Q : nat) (tbls : seq (fr_table F K)) :
  #|F| = N.to_nat Concrete.bls_r -> pairing_ok E -> (forall m, (8 <= size (digest X m))%N) ->
  K = (2 ^ 64)%N -> nt_run X nt_default ops = Ret (outs, vt) ->
  fits_relation R a -> fits_relation R b -> ~ (relation_holds R a /\ relation_holds R b) ->
  (forall t, size (asked (fold_entry K0 X s a b (fed X ops)) p t) <= Q)%N -> uniq tbls ->
  (forall t, t \in tbls -> folds K0 X s a b (fed X ops) R n vt p t) ->
  (2 ^ 250 * size tbls <= (Q + 1) * #|{: fr_table F K}|)%N.
Proof.
move=> cF ok long eK run fa fb nb szQ ut H.
have le := C82_fiat_shamir ok long (PlonkFsProps.word_seeds eK) run fa fb nb szQ ut H.
have big : (2 ^ 251 <= #|F|)%N.
  rewrite cF; exact: (@PlonkErrorProps.to_nat_pow 251%num Concrete.bls_r PlonkErrorProps.bls_big).
exact: (@halve _ _ _ 250 (share_bound le big)).
Qed.
