(* Lemmas about vectors, R1CS and folding. *)
From Coq Require Import String Ascii NArith.
Set Warnings "-notation-overridden,-ambiguous-paths".
From mathcomp Require Import all_ssreflect all_algebra.
From mathcomp Require Import zify ring.
From Verif Require Import Base BaseLemmas ArkPoly ArkPolyLemmas KzgModel KzgSpec KzgLemmas
  KzgProps NovaModel NovaSpec.

Set Implicit Arguments.
Unset Strict Implicit.
Unset Printing Implicit Defensive.

Import GRing.Theory.
Local Open Scope ring_scope.

Lemma InP (T : eqType) (a : T) (s : seq T) : List.In a s <-> a \in s.
Proof.
elim: s => //= b s IH; rewrite in_cons; split.
  by case=> [->|/IH ->]; rewrite ?eqxx ?orbT.
by case/orP => [/eqP ->|/IH]; [left|right].
Qed.

Section Vectors.
Variable F : fieldType.
Implicit Types (a b z : seq F) (m : seq (seq F)).

Lemma nth_map_zip (op : F -> F -> F) a b i : size a = size b -> (i < size a)%N ->
  [seq op p.1 p.2 | p <- zip a b]`_i = op a`_i b`_i.
Proof.
move=> es lt; rewrite (nth_map (0, 0)) ?size_zip -?es ?minnn //.
by rewrite nth_zip.
Qed.

Lemma index_loopE (op : F -> F -> F) a b :
  index_loop op a b =
  if (size a <= size b)%N then Ret [seq op p.1 p.2 | p <- zip a b] else Panic.
Proof.
rewrite /index_loop; case: leqP => le.
  rewrite (@omapM_total _ _ _ (fun i => op a`_i b`_i)); last first.
    move=> i /InP; rewrite mem_iota => /andP[_ lt]; rewrite !(index_at_Ret 0) //.
    exact: leq_trans lt le.
  congr Ret; apply: (@eq_from_nth _ 0).
    by rewrite !size_map size_iota size_zip; move/minn_idPl: le.
  rewrite size_map size_iota => i lt; rewrite (nth_map 0%N) ?size_iota // nth_iota // add0n.
  by rewrite (nth_map (0, 0)) ?size_zip ?(minn_idPl le) // nth_zip_cond size_zip (minn_idPl le) lt.
apply/omapM_Panic.
  move=> i /InP; rewrite mem_iota => /andP[_ lt]; rewrite (index_at_Ret 0) // bindRet.
  case: (ltnP i (size b)) => lb; first by left; rewrite (index_at_Ret 0).
  by right; rewrite index_at_Panic.
exists (size b); first by apply/InP; rewrite mem_iota.
by rewrite (index_at_Ret 0) // bindRet index_at_Panic.
Qed.

Lemma foldl_dot (c : F) (s : seq (F * F)) :
  foldl (fun acc (p : F * F) => acc + p.1 * p.2) c s = c + \sum_(p <- s) p.1 * p.2.
Proof.
by elim: s c => [|p s IH] c /=; rewrite ?big_nil ?addr0 // IH big_cons addrA.
Qed.

Lemma dotE row z : foldl (fun acc (p : F * F) => acc + p.1 * p.2) 0 (zip row z) = dot row z.
Proof.
rewrite foldl_dot add0r (big_nth (0, 0)) size_zip big_mkord; apply: eq_bigr => i _.
by rewrite nth_zip_cond size_zip ltn_ord.
Qed.

Lemma matrix_vectorE m z : matrix_vector_product m z = [seq dot row z | row <- m].
Proof. by apply: eq_map => row; exact: dotE. Qed.

Lemma vec_equalE a b : vec_equal a b = (a == b).
Proof.
rewrite /vec_equal; case: eqP => [es|ne] /=; last by apply/esym/eqP => e; rewrite e in ne.
apply/allP/eqP => [H|-> //]; apply: (@eq_from_nth _ 0) => // i lt.
by apply/eqP/H; rewrite mem_iota.
Qed.

Lemma vec_addE a b : vec_add a b =
  if size a == size b then Ret [seq p.1 + p.2 | p <- zip a b] else Panic.
Proof. by rewrite /vec_add /oassert; case: eqP => //= es; rewrite index_loopE es leqnn. Qed.

Lemma vec_subE a b : vec_sub a b =
  if size a == size b then Ret [seq p.1 - p.2 | p <- zip a b] else Panic.
Proof.
rewrite /vec_sub /oassert; case: eqP => //= es.
by rewrite (index_loopE (fun x y => x - y)) es leqnn.
Qed.

Lemma hadamardE a b : hadamard_product a b =
  if (size a <= size b)%N then Ret [seq p.1 * p.2 | p <- zip a b] else Panic.
Proof. exact: index_loopE. Qed.

(* linear combinations *)
Lemma size_comb r a b : size (vec_comb r a b) = minn (size a) (size b).
Proof. by rewrite size_map size_zip. Qed.

Lemma nth_comb r a b i : size a = size b -> (vec_comb r a b)`_i = a`_i + r * b`_i.
Proof.
move=> es; case: (ltnP i (size a)) => lt; first by rewrite (nth_map_zip (fun x y => x + r * y)).
by rewrite !nth_default ?size_comb -?es ?minnn //; ring.
Qed.

Lemma comb_cat r a b a' b' : size a = size b ->
  vec_comb r (a ++ a') (b ++ b') = vec_comb r a b ++ vec_comb r a' b'.
Proof. by move=> es; rewrite /vec_comb zip_cat // map_cat. Qed.

Lemma dot_comb r row z1 z2 : size z1 = size z2 ->
  dot row (vec_comb r z1 z2) = dot row z1 + r * dot row z2.
Proof.
move=> es; rewrite /dot size_comb -es minnn mulr_sumr -big_split /=.
by apply: eq_bigr => i _; rewrite nth_comb // mulrDr; congr (_ + _); rewrite mulrCA.
Qed.

Lemma Poly_comb r a b : size a = size b -> Poly (vec_comb r a b) = Poly a + r *: Poly b.
Proof.
move=> es; apply/polyP => i; rewrite coefD coefZ !coef_Poly.
exact: nth_comb.
Qed.

End Vectors.

Section R1CS.
Variables (F : fieldType) (E : pairing_group F).
Local Notation g1 := (g1_gen E).

Lemma satisfiedE (R : r1cs F) (fi : finstance E) (fw : fwitness F) (s : F) (n : nat) :
  is_r1cs_satisfied R fi fw (srs_new_from_secret E s n) =
  if num_vars R != size (fw_w fw) then Err "Witness does not match with matrices"%string
  else if num_io R != size (fi_x fi) then Err "Instance does not match with matrices"%string
  else
    let z := assignment fw fi in
    if (size (matrix_a R) <= size (matrix_b R))%N && (size (matrix_c R) == size (fw_e fw)) then
      if (size (Poly (fw_w fw)) <= n + 3)%N then
        if fi_com_w fi == (Poly (fw_w fw)).[s] *: g1 then
          if (size (Poly (fw_e fw)) <= n + 3)%N then
            if (fi_com_e fi == (Poly (fw_e fw)).[s] *: g1) &&
               ((size (matrix_a R) == size (matrix_c R)) &&
                all (fun i => dot (nth [::] (matrix_a R) i) z * dot (nth [::] (matrix_b R) i) z ==
                       fi_u fi * dot (nth [::] (matrix_c R) i) z + (fw_e fw)`_i)
                  (iota 0 (size (matrix_a R))))
            then Ret tt else Err "Instance does not satisfy the Witness."%string
          else Panic
        else Err "Instance does not satisfy the Witness."%string
      else Panic
    else Panic.
Proof.
rewrite /is_r1cs_satisfied; case: eqP => //= _; case: eqP => //= _.
rewrite -/(assignment fw fi) !matrix_vectorE hadamardE !size_map.
case: leqP => //= leAB; rewrite vec_addE /vector_elem_product !size_map.
case: eqP => //= eCe; rewrite !commit_vectorE /commitment_of.
case: ifP => //= _; case: ifP => //= _; case: ifP => //= _.
rewrite vec_equalE; congr (if _ && _ then _ else _).
set z := assignment fw fi.
apply/eqP/andP => [e|[/eqP eAC /allP H]].
  have eAC : size (matrix_a R) = size (matrix_c R).
    move: (congr1 (@size F) e); rewrite !(size_map, size_zip) -eCe minnn.
    by move/minn_idPl: leAB => ->.
  split; first by rewrite eAC.
  apply/allP => i; rewrite mem_iota => /andP[_ lt].
  have := congr1 (fun l => nth 0 l i) e => /=.
  rewrite (nth_map (0, 0)) ?size_zip ?size_map ?(minn_idPl leAB) //.
  rewrite nth_zip_cond size_zip !size_map (minn_idPl leAB) lt /=.
  rewrite (nth_map [::]) // (nth_map [::]) ?(leq_trans lt) //.
  rewrite (nth_map_zip +%R) ?size_map -?eAC -?eCe -?eAC //.
  rewrite -map_comp (nth_map [::]) -?eAC //= => ->.
  by rewrite mulrC.
have sz : size [seq p.1 * p.2 | p <- zip [seq dot row z | row <- matrix_a R]
                                         [seq dot row z | row <- matrix_b R]] = size (matrix_a R).
  by rewrite size_map size_zip !size_map (minn_idPl leAB).
apply: (@eq_from_nth _ 0).
  by rewrite sz !size_map size_zip !size_map -eCe minnn.
rewrite sz => i lt.
rewrite (nth_map (0, 0)) ?size_zip ?size_map ?(minn_idPl leAB) //.
rewrite nth_zip_cond size_zip !size_map (minn_idPl leAB) lt /=.
rewrite (nth_map [::]) // (nth_map [::]) ?(leq_trans lt) //.
rewrite (nth_map_zip +%R) ?size_map -?eAC -?eCe -?eAC //.
rewrite -map_comp (nth_map [::]) -?eAC //=.
by have := H i; rewrite mem_iota add0n lt /= => /(_ isT)/eqP ->; rewrite mulrC.
Qed.

Record satisfies (R : r1cs F) (fi : finstance E) (fw : fwitness F) (s : F) (n : nat) : Prop := {
  sat_w : size (fw_w fw) = num_vars R;
  sat_x : size (fi_x fi) = num_io R;
  sat_e : size (fw_e fw) = size (matrix_c R);
  sat_ac : size (matrix_a R) = size (matrix_c R);
  sat_ab : (size (matrix_a R) <= size (matrix_b R))%N;
  sat_rows : forall i, (i < size (matrix_a R))%N ->
    row_holds R (assignment fw fi) (fw_e fw) (fi_u fi) i;
  sat_fit_w : (size (Poly (fw_w fw)) <= n + 3)%N;
  sat_fit_e : (size (Poly (fw_e fw)) <= n + 3)%N;
  sat_commits : commits s fw fi;
}.

Lemma satisfiedP R fi fw s n :
  is_r1cs_satisfied R fi fw (srs_new_from_secret E s n) = Ret tt <-> satisfies R fi fw s n.
Proof.
rewrite satisfiedE; split.
  case: eqP => //= ew; case: eqP => //= ex; case: andP => //= -[leAB /eqP eCe].
  case: ifP => // fw_; case: eqP => // ecw; case: ifP => // fe.
  case: ifP => // /andP[/eqP ece /andP[/eqP eAC /allP H]] _; split=> //.
  by move=> i lt; apply/eqP; have := H i; rewrite mem_iota => ->.
case=> ew ex ee eAC leAB H fw_ fe [ece ecw].
rewrite ew ex ee !eqxx /= leAB fw_ ecw eqxx fe ece eqxx eAC eqxx /=.
have -> : all (fun i => dot (nth [::] (matrix_a R) i) (assignment fw fi) *
    dot (nth [::] (matrix_b R) i) (assignment fw fi) ==
    fi_u fi * dot (nth [::] (matrix_c R) i) (assignment fw fi) + (fw_e fw)`_i)
   (iota 0 (size (matrix_c R))) = true; last by [].
by apply/allP => i; rewrite mem_iota -eAC => /andP[_ lt]; apply/eqP; exact: H.
Qed.

(* the cross term *)
Definition cross_row (R : r1cs F) (u1 u2 : F) (z1 z2 : seq F) (i : nat) : F :=
  let a := nth [::] (matrix_a R) i in
  let b := nth [::] (matrix_b R) i in
  let c := nth [::] (matrix_c R) i in
  dot a z1 * dot b z2 + dot a z2 * dot b z1 - u1 * dot c z2 - u2 * dot c z1.

Lemma compute_tE R u1 u2 z1 z2 :
  compute_t R u1 u2 z1 z2 =
  if (size (matrix_a R) <= size (matrix_b R))%N && (size (matrix_a R) == size (matrix_c R)) then
    Ret (mkseq (cross_row R u1 u2 z1 z2) (size (matrix_a R)))
  else Panic.
Proof.
rewrite /compute_t !matrix_vectorE !hadamardE !size_map.
case: leqP => //= leAB.
rewrite vec_addE !(size_map, size_zip) (minn_idPl leAB) eqxx bindRet.
rewrite vec_subE /vector_elem_product !(size_map, size_zip) (minn_idPl leAB) minnn.
case: eqP => //= eAC; rewrite vec_subE !(size_map, size_zip) (minn_idPl leAB) -eAC !minnn eqxx.
congr Ret.
set L1 := [seq p.1 * p.2 | p <- zip [seq dot row z1 | row <- matrix_a R] _].
set L2 := [seq p.1 * p.2 | p <- zip [seq dot row z2 | row <- matrix_a R] _].
set C1 := [seq x * u1 | x <- _]; set C2 := [seq x * u2 | x <- _].
have s1 : size L1 = size (matrix_a R) by rewrite size_map size_zip !size_map (minn_idPl leAB).
have s2 : size L2 = size (matrix_a R) by rewrite size_map size_zip !size_map (minn_idPl leAB).
have c1 : size C1 = size (matrix_a R) by rewrite !size_map.
have c2 : size C2 = size (matrix_a R) by rewrite !size_map.
have nL (z z' : seq F) i : (i < size (matrix_a R))%N ->
    [seq p.1 * p.2 | p <- zip [seq dot row z | row <- matrix_a R]
                              [seq dot row z' | row <- matrix_b R]]`_i =
    dot (nth [::] (matrix_a R) i) z * dot (nth [::] (matrix_b R) i) z'.
  move=> lt; rewrite (nth_map (0, 0)) ?size_zip ?size_map ?(minn_idPl leAB) //.
  rewrite nth_zip_cond size_zip !size_map (minn_idPl leAB) lt /=.
  by rewrite (nth_map [::]) // (nth_map [::]) ?(leq_trans lt).
have nC (z : seq F) (u : F) i : (i < size (matrix_a R))%N ->
    [seq x * u | x <- [seq dot row z | row <- matrix_c R]]`_i =
    u * dot (nth [::] (matrix_c R) i) z.
  by move=> lt; rewrite (nth_map 0) ?size_map -?eAC // (nth_map [::]) -?eAC // mulrC.
have := (nL z1 z2, nL z2 z1, nC z2 u1, nC z1 u2).
rewrite -/L1 -/L2 -/C1 -/C2 => -[[[n1 n2] n3] n4] {nL nC}.
move: L1 L2 C1 C2 s1 s2 c1 c2 n1 n2 n3 n4 => L1 L2 C1 C2 s1 s2 c1 c2 n1 n2 n3 n4.
have szA : size [seq p.1 + p.2 | p <- zip L1 L2] = size (matrix_a R).
  by rewrite size_map size_zip s1 s2 minnn.
have szB : size [seq p.1 - p.2 | p <- zip [seq p.1 + p.2 | p <- zip L1 L2] C1] = size (matrix_a R).
  by rewrite size_map size_zip szA c1 minnn.
apply: (@eq_from_nth _ 0).
  by rewrite size_mkseq size_map size_zip szB c2 minnn.
move=> i; rewrite size_map size_zip szB c2 minnn => lt.
rewrite nth_mkseq // (nth_map_zip (fun x y => x - y)) ?szB //.
rewrite (nth_map_zip (fun x y => x - y)) ?szA //.
by rewrite (nth_map_zip +%R) ?s1 ?s2 // n1 // n2 // n3 // n4.
Qed.

(* folding, in terms of vec_comb *)
Lemma fold_witness_w r (fw1 fw2 : fwitness F) t :
  fw_w (fold_witness r fw1 fw2 t) = vec_comb r (fw_w fw1) (fw_w fw2).
Proof. by apply: eq_map => p; rewrite mulrC. Qed.

Lemma fold_witness_e r (fw1 fw2 : fwitness F) t :
  fw_e (fold_witness r fw1 fw2 t) = vec_comb (r * r) (vec_comb r (fw_e fw1) t) (fw_e fw2).
Proof.
rewrite /fold_witness /vec_comb /=; elim: (fw_e fw1) t (fw_e fw2) => [|a e1 IH] [|b t] [|c e2] //=.
by rewrite IH.
Qed.

Lemma fold_instance_x r (fi1 fi2 : finstance E) ct :
  fi_x (fold_instance r fi1 fi2 ct) = vec_comb r (fi_x fi1) (fi_x fi2).
Proof. by apply: eq_map => p; rewrite mulrC. Qed.

Lemma fold_assignment r (fw1 fw2 : fwitness F) (fi1 fi2 : finstance E) t ct :
  size (fw_w fw1) = size (fw_w fw2) -> size (fi_x fi1) = size (fi_x fi2) ->
  assignment (fold_witness r fw1 fw2 t) (fold_instance r fi1 fi2 ct) =
  vec_comb r (assignment fw1 fi1) (assignment fw2 fi2).
Proof.
move=> ew ex; rewrite /assignment !comb_cat // fold_witness_w fold_instance_x /=.
by rewrite /vec_comb /= mulrC.
Qed.

Lemma fold_commits (s r : F) (fw1 fw2 : fwitness F) (fi1 fi2 : finstance E) t :
  size (fw_w fw1) = size (fw_w fw2) ->
  size (fw_e fw1) = size (fw_e fw2) -> size t = size (fw_e fw1) ->
  commits s fw1 fi1 -> commits s fw2 fi2 ->
  commits s (fold_witness r fw1 fw2 t) (fold_instance r fi1 fi2 ((Poly t).[s] *: g1)).
Proof.
move=> ew ee et [e1 w1] [e2 w2]; split.
  rewrite [LHS]/= e1 e2 fold_witness_e Poly_comb ?size_comb ?et ?minnn // Poly_comb //.
  by rewrite !hornerE /= !scalerA -!scalerDl.
rewrite [LHS]/= w1 w2 fold_witness_w Poly_comb //.
by rewrite !hornerE /= !scalerA -!scalerDl.
Qed.

End R1CS.
