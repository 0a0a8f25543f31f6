(* C96: what a FRI proof shows of the polynomial it was made from. *)
Set Warnings "-notation-overridden,-ambiguous-paths".
From mathcomp Require Import all_ssreflect all_algebra.
From mathcomp Require Import zify.
From Verif Require Import Base BaseLemmas ArkPoly ArkPolyLemmas ArkDomain ArkDomainLemmas.
From Verif Require Import FriModel FriMerkle FriSpec FriSpecLemmas FriProps MerkleSpec MerkleProps.

Set Implicit Arguments.
Unset Strict Implicit.
Unset Printing Implicit Defensive.

Import GRing.Theory.
Local Open Scope ring_scope.

Lemma flatten_nthP (T : Type) (U : eqType) (f : T -> seq U) d0 s x :
  reflect (exists2 k, (k < size s)%N & x \in f (nth d0 s k)) (x \in flatten (map f s)).
Proof.
apply: (iffP flattenP) => [[l /(nthP [::])[k]]|[k lk hx]].
  by rewrite size_map => lk <- hx; exists k => //; rewrite (nth_map d0) in hx.
by exists (f (nth d0 s k)) => //; rewrite -(nth_map _ [::]) // mem_nth // size_map.
Qed.

Lemma map_nthP (T : Type) (U : eqType) (f : T -> U) d0 s x :
  reflect (exists2 k, (k < size s)%N & x = f (nth d0 s k)) (x \in map f s).
Proof.
apply: (iffP (nthP x)) => [[k]|[k lk ->]]; rewrite ?size_map.
  by move=> lk <-; exists k => //; rewrite (nth_map d0).
by exists k => //; rewrite (nth_map d0).
Qed.

Section Reveal.
Variables (F : fieldType) (X : fri_env F) (H : bytes -> bytes).
Implicit Types (p g : seq F) (pf : fri_proof F) (d : decommitment F).

(* ---- what a reader of a proof can write down from the proof alone ---- *)
(* the position opened in the first layer *)
Definition position d : nat := mp_index (head (path0 F) (dc_auth_paths d)).
(* the point of that position *)
Definition point pf d : F :=
  omega X (up_log 2 (fp_domain_size pf)) ^+ position d * fp_coset pf.
(* the points and the values shown there *)
Definition shown pf : seq (F * F) :=
  flatten [seq [:: (point pf d, head 0 (dc_evaluations d)); (- point pf d, head 0 (dc_sym_evaluations d))]
          | d <- fp_decommitment_list pf].
(* positions up to half the domain: opposite points count once *)
Definition positions pf : seq nat :=
  undup [seq (position d %% (fp_domain_size pf %/ 2))%N | d <- fp_decommitment_list pf].

Hypotheses (ok : fft_consts_ok X) (H8 : digest_8_bytes H).

Lemma decoP p blowup nq pf k : fri_generate_proof X H p blowup nq = Ret pf ->
  (k < size (fp_decommitment_list pf))%N -> let d := nth (deco0 F) (fp_decommitment_list pf) k in
  [/\ (position d < fp_domain_size pf)%N, (Poly p).[point pf d] = head 0 (dc_evaluations d)
    & (Poly p).[- point pf d] = head 0 (dc_sym_evaluations d)].
Proof.
move=> E hd d; have [le [Ds Cs _] _ _ [Sd A]] := C09_proof_shape ok H8 E.
set n := up_log 2 _ in le Ds Sd A; have /andP[n0 _] := le.
rewrite Sd in hd; have [_ _ /(_ 0%N n0)] := A _ hd; rewrite -/d.
rewrite !nth0 subn0 expn0 expr1 => -[e s [ei _ _ _ _] _].
rewrite /point Ds up_expnK // Cs /position ei e s; split=> //.
by rewrite ltn_mod expn_gt0.
Qed.

(* every shown value is the value of the polynomial at its point *)
Theorem C96_openings_are_values p blowup nq pf x v :
  fri_generate_proof X H p blowup nq = Ret pf -> (x, v) \in shown pf -> (Poly p).[x] = v.
Proof.
move=> E /(flatten_nthP _ (deco0 F))[k hd]; have [_ a b] := decoP E hd.
by rewrite !inE => /orP[] /eqP[-> ->].
Qed.

Lemma enough (f g : {poly F}) (n : nat) (zs : seq F) : (size f <= n)%N -> (size g <= n)%N ->
  (n <= size (undup zs))%N -> (forall z, z \in zs -> f.[z] = g.[z]) -> f = g.
Proof.
move=> sf sg zn A; apply/eqP; rewrite -subr_eq0; apply: contraLR zn => d0; rewrite -ltnNge.
have sd : (size (f - g)%R <= n)%N by apply: leq_trans (size_add _ _) _; rewrite size_opp geq_max sf.
apply: leq_trans sd; apply: max_poly_roots (undup_uniq _) => //.
by apply/allP => z; rewrite mem_undup => /A e; rewrite -[root _ _]/(_ == 0) !hornerE e subrr.
Qed.

(* different positions show different points, two each *)
Theorem C96_points_for_positions p blowup nq pf : generator X != 0 ->
  fri_generate_proof X H p blowup nq = Ret pf ->
  (2 * size (positions pf) <= size (undup (unzip1 (shown pf))))%N.
Proof.
move=> c0 E; have [le [Ds Cs _] _ _ _] := C09_proof_shape ok H8 E.
move: le Ds; set n := up_log 2 _; case: n => [//|n] /andP[_ le] Ds.
pose w := omega X n.+1.
have wp : (2 ^ n.+1).-primitive_root w by rewrite /w omegaE; apply: root_of_unity_prim.
have wh : w ^+ (2 ^ n) = -1 by rewrite /w omegaE (root_of_unity_half ok).
have half : (fp_domain_size pf %/ 2)%N = (2 ^ n)%N by rewrite Ds expnS mulKn.
pose h i := w ^+ i * generator X.
have inj : {in [pred i | (i < 2 ^ n.+1)%N] &, injective h}.
  move=> i j; rewrite !inE => li lj /(mulIf c0)/eqP.
  by rewrite (eq_prim_root_expr wp) !modn_small // => /eqP.
have pl i : i \in positions pf -> (i < 2 ^ n)%N.
  by rewrite mem_undup => /(map_nthP _ (deco0 F))[k _ ->]; rewrite half ltn_mod expn_gt0.
pose s := positions pf ++ [seq (i + 2 ^ n)%N | i <- positions pf].
have sl i : i \in s -> (i < 2 ^ n.+1)%N.
  rewrite expnS mul2n -addnn mem_cat => /orP[/pl|/mapP[j /pl lj ->]]; first by move/leq_trans; apply; apply: leq_addr.
  by rewrite ltn_add2r.
have us : uniq s.
  rewrite cat_uniq undup_uniq map_inj_uniq ?undup_uniq ?andbT; last by move=> i j /addIn.
  by apply/hasPn => i /mapP[j _ ->]; apply/negP => /pl; rewrite ltnNge leq_addl.
have -> : (2 * size (positions pf))%N = size (map h s).
  by rewrite size_map size_cat size_map mul2n addnn.
apply: uniq_leq_size; first by rewrite map_inj_in_uniq // => i j /sl li /sl lj; apply: inj.
have hn i : h (i + 2 ^ n)%N = - h i by rewrite /h exprD wh mulrN1 mulNr.
have key i : i \in positions pf -> (h i \in unzip1 (shown pf)) && (- h i \in unzip1 (shown pf)).
  rewrite mem_undup => /(map_nthP _ (deco0 F))[k hd ->]; rewrite half; set d := nth _ _ k.
  have [lt _ _] := decoP E hd; rewrite Ds in lt.
  have Ep : point pf d = h (position d) by rewrite /point Ds Cs up_expnK.
  have in1 : point pf d \in unzip1 (shown pf).
    by apply/mapP; exists (point pf d, head 0 (dc_evaluations d)) => //; apply/(flatten_nthP _ (deco0 F)); exists k; rewrite // !inE eqxx.
  have in2 : - point pf d \in unzip1 (shown pf).
    by apply/mapP; exists (- point pf d, head 0 (dc_sym_evaluations d)) => //; apply/(flatten_nthP _ (deco0 F)); exists k; rewrite // !inE eqxx orbT.
  have [ls|ge] := ltnP (position d) (2 ^ n); first by rewrite modn_small // -Ep in1 in2.
  have Em : (position d %% 2 ^ n)%N = (position d - 2 ^ n)%N.
    rewrite -{1}(subnK ge) modnDr modn_small // ltn_subLR //.
    by rewrite addnn -mul2n -expnS.
  have Eq : point pf d = - h (position d %% 2 ^ n)%N by rewrite Em -hn subnK.
  by rewrite -(opprK (h _)) -Eq opprK in1 in2.
move=> x /mapP[i hi ->]; rewrite mem_undup; move: hi; rewrite mem_cat => /orP[/key/andP[] //|/mapP[j /key/andP[_ k] ->]].
by rewrite hn.
Qed.

(* half as many different positions as the polynomial has coefficients: only one
   polynomial of that size agrees with the proof *)
Theorem C96_enough_positions_determine p blowup nq pf (n : nat) (f : {poly F}) : generator X != 0 ->
  fri_generate_proof X H p blowup nq = Ret pf ->
  (size p <= n)%N -> (n <= 2 * size (positions pf))%N -> (size f <= n)%N ->
  (forall x v, (x, v) \in shown pf -> f.[x] = v) -> f = Poly p.
Proof.
move=> c0 E sp np sf A; apply: (@enough f (Poly p) n (unzip1 (shown pf))) => //.
- exact: leq_trans (size_Poly _) sp.
- exact: leq_trans np (C96_points_for_positions c0 E).
by move=> z /mapP[[x v] hx ->]; rewrite (A _ _ hx) (C96_openings_are_values E hx).
Qed.

Lemma first_root p blowup nq pf : fri_generate_proof X H p blowup nq = Ret pf ->
  exists l r, [/\ layer_from_poly X p (fp_coset pf) (fp_domain_size pf) = Ret l,
    mt_root (fl_merkle_tree l) = Ret r, ohead (fp_layers_root pf) = Some r
    & fl_merkle_tree l = mt_new X (coset_values X (Poly p) (fp_coset pf) (up_log 2 (fp_domain_size pf)))].
Proof.
move=> E; have [le [Ds Cs _] [Sr A] _ _] := C09_proof_shape ok H8 E.
move: le Ds Sr A; set n := up_log 2 _ => /andP[n0 le] Ds Sr A.
have un : up_log 2 (fp_domain_size pf) = n by rewrite Ds up_expnK.
have := @C06_layer_contents F X p (fp_coset pf) (fp_domain_size pf); cbv zeta; rewrite un le => -[l [El e r c D]].
exists l, (merkle_root X n (coset_values X (Poly p) (fp_coset pf) n)); split=> //.
- have := A 0%N n0; rewrite subn0 expn0 expr1 Cs /folded /= => <-.
  by case: (fp_layers_root pf) Sr n0 => //= <-.
move: El; rewrite /layer_from_poly; case: domain_new => //= dm [El]; move: e; rewrite -El /= => ->.
by [].
Qed.

(* whoever guesses the polynomial can check the guess against the first root... *)
Theorem C96_right_guess_confirmed p blowup nq pf : fri_generate_proof X H p blowup nq = Ret pf ->
  exists l r, [/\ layer_from_poly X p (fp_coset pf) (fp_domain_size pf) = Ret l,
    mt_root (fl_merkle_tree l) = Ret r & ohead (fp_layers_root pf) = Some r].
Proof. by move=> /first_root[l [r [? ? ? _]]]; exists l, r. Qed.

(* ... and a wrong guess that passes is a collision of the hash *)
Theorem C96_wrong_guess_collides p blowup nq pf g l r : generator X != 0 ->
  fri_generate_proof X H p blowup nq = Ret pf ->
  (size p <= fp_domain_size pf)%N -> (size g <= fp_domain_size pf)%N ->
  layer_from_poly X g (fp_coset pf) (fp_domain_size pf) = Ret l ->
  mt_root (fl_merkle_tree l) = Ret r -> ohead (fp_layers_root pf) = Some r ->
  let values q := coset_values X (Poly q) (fp_coset pf) (up_log 2 (fp_domain_size pf)) in
  Poly g = Poly p \/ collide X (tree_lists X (values g)) (tree_lists X (values p)).
Proof.
move=> c0 E sp sg Eg Er Hr values.
have [l0 [r0 [_ Er0 Hr0 T0]]] := first_root E.
have [le [Ds Cs _] _ _ _] := C09_proof_shape ok H8 E.
move: le Ds; set n := up_log 2 _ => /andP[n0 le] Ds.
have un : up_log 2 (fp_domain_size pf) = n by rewrite Ds up_expnK.
have Sz q : size (values q) = (2 ^ n)%N by rewrite size_mkseq un.
have T : fl_merkle_tree l = mt_new X (values g).
  have := @C06_layer_contents F X g (fp_coset pf) (fp_domain_size pf); cbv zeta; rewrite un le => -[l' [El' e _ _ _]].
  move: Eg; rewrite El' => -[El]; move: El' e; rewrite -?El /layer_from_poly /values un.
  by case: domain_new => //= dm [<-] /= ->.
have P0 : (0 < 2 ^ n)%N by rewrite expn_gt0.
have [||||Ev|] := @C92_vector_binding F X (values g) (values p); rewrite ?Sz //; last by right.
  by rewrite -T Er -T0 Er0; move: Hr; rewrite Hr0 => -[->].
left; pose w := omega X n; have wp : (2 ^ n).-primitive_root w by rewrite /w omegaE; apply: root_of_unity_prim.
pose zs := mkseq (fun i => w ^+ i * generator X) (2 ^ n).
have uz : uniq zs.
  rewrite map_inj_in_uniq ?iota_uniq // => i j; rewrite !mem_iota !add0n => /andP[_ li] /andP[_ lj] /(mulIf c0)/eqP.
  by rewrite (eq_prim_root_expr wp) !modn_small // => /eqP.
apply: (@enough _ _ (2 ^ n) zs).
- by rewrite -Ds; apply: leq_trans (size_Poly _) sg.
- by rewrite -Ds; apply: leq_trans (size_Poly _) sp.
- by rewrite undup_id // size_mkseq.
move=> z /mapP[i]; rewrite mem_iota add0n => /andP[_ li] ->.
have := congr1 (fun s => nth 0 s i) Ev.
by rewrite /values !nth_mkseq un // Cs.
Qed.

End Reveal.
