(* C92: Merkle roots bind whole vectors. *)
From Coq Require Import String Ascii NArith.
Set Warnings "-notation-overridden,-ambiguous-paths".
From mathcomp Require Import all_ssreflect all_algebra.
From mathcomp Require Import zify.
From Verif Require Import Base BaseLemmas ArkPoly ArkDomain FriModel FriSpec FriMerkle MerkleSpec.

Set Implicit Arguments.
Unset Strict Implicit.
Unset Printing Implicit Defensive.

Import GRing.Theory.
Local Open Scope ring_scope.

Section Binding.
Variables (F : fieldType) (X : fri_env F).
Implicit Types (l : seq F) (p : merkle_proof F).

Lemma in_pairsE (T : Type) (s : seq T) : in_pairs s = chunks2 s.
Proof. by elim/seq2_ind: s => //= a b s ->. Qed.

Lemma chunks2_inj (T : Type) (s s' : seq T) : chunks2 s = chunks2 s' -> s = s'.
Proof.
elim/seq2_ind: s s' => [|a|a b s IH] [|a' [|b' s']] //=; first by case=> ->.
by case=> -> -> /IH ->.
Qed.

Lemma hash1 x : hash_slice X [:: x] = hash X x.
Proof. by rewrite /hash_slice /hash /= cats0. Qed.

Lemma map_collide (c c' : seq (seq F)) : map (hash_slice X) c = map (hash_slice X) c' ->
  c = c' \/ collide X c c'.
Proof.
elim: c c' => [|a c IH] [|b c'] //=; first by left.
case=> E /IH H; case: (a =P b) => [<-|ne]; last first.
  by right; exists a, b; rewrite !mem_head.
case: H => [->|[u [v [hu hv n e]]]]; [by left|right].
by exists u, v; rewrite !inE hu hv !orbT.
Qed.

Lemma levels_bind d l l' : iter d (next_level X) l = iter d (next_level X) l' ->
  l = l' \/ collide X (node_lists X d l) (node_lists X d l').
Proof.
elim: d l l' => [|d IH] l l' /=; first by left.
rewrite -!iterS !iterSr => /IH; rewrite !in_pairsE.
case=> [/map_collide[/chunks2_inj ->|[a [b [ha hb n e]]]]|[a [b [ha hb n e]]]]; [by left| |]; right;
  exists a, b; by rewrite !mem_cat ?ha ?hb ?orbT.
Qed.

Lemma trunc_next n : (0 < n)%N -> trunc_log 2 (next_power_of_two n) = up_log 2 n.
Proof. by move=> h; rewrite /next_power_of_two trunc_expnK. Qed.

Lemma size_iter_up d l : (0 < size l <= 2 ^ d)%N -> size (iter d (next_level X) l) = 1%N.
Proof.
elim: d l => [|d IH] l; first by rewrite expn0 /=; lia.
rewrite iterSr expnS => h; apply: IH; rewrite size_next_level; lia.
Qed.

Lemma rootE l : (0 < size l)%N ->
  exists2 r, mt_root (mt_new X l) = Ret r &
    iter (up_log 2 (size l)) (next_level X) [seq hash X x | x <- l] = [:: r].
Proof.
move=> l0; rewrite /mt_new mt_rootE trunc_next //.
have : size (iter (up_log 2 (size l)) (next_level X) [seq hash X x | x <- l]) = 1%N.
  by apply: size_iter_up; rewrite size_map l0 /=; exact: up_logP.
by case: (iter _ _ _) => // r [|//] _; exists r.
Qed.

(* Trees of the same depth with the same root are built from the same vector, or two
   different lists hashed for them have the same hash. *)
Theorem C92_vector_binding l l' : (0 < size l)%N -> (0 < size l')%N ->
  up_log 2 (size l) = up_log 2 (size l') ->
  mt_root (mt_new X l) = mt_root (mt_new X l') ->
  l = l' \/ collide X (tree_lists X l) (tree_lists X l').
Proof.
move=> l0 l0' Ed; have [r -> E] := rootE l0; have [r' -> E'] := rootE l0'; case=> Er.
rewrite /tree_lists; have hE l1 : [seq hash_slice X [:: x] | x <- l1] = [seq hash X x | x <- l1].
  by apply: eq_map => x; apply: hash1.
rewrite !hE Ed in E *; rewrite Er -E' in E.
have [El|[a [b [ha hb n e]]]] := levels_bind E; last first.
  by right; exists a, b; rewrite !mem_cat ha hb !orbT.
have [|Es|[a [b [ha hb n e]]]] := @map_collide [seq [:: x] | x <- l] [seq [:: x] | x <- l'].
- by rewrite -!map_comp; move: El; rewrite -!hE.
- by left; apply: (inj_map _ Es) => x y [].
by right; exists a, b; rewrite !mem_cat ha hb.
Qed.

Lemma pair_in l i : (i.*2.+1 < size l)%N -> [:: nth 0 l i.*2; nth 0 l i.*2.+1] \in in_pairs l.
Proof.
move=> lt; rewrite in_pairsE -(nth_chunks2 0 lt); apply: mem_nth.
by rewrite size_chunks2 uphalf_half; move: lt; rewrite -{1}(odd_double_half (size l)); case: odd => /=; rewrite ?add1n ?add0n; lia.
Qed.

Lemma climb_binds d l i h path : size l = (2 ^ d)%N -> (i < 2 ^ d)%N -> size path = d ->
  climb X i h path = nth 0 (iter d (next_level X) l) 0 ->
  h = nth 0 l i \/ collide X (node_lists X d l) (path_lists X i h path).
Proof.
elim: d l i h path => [|d IH] l i h path Es lt; first by move/size0nil=> -> /= ->; left; case: i lt.
case: path => // nb path [Sp] /=.
have Es' : size (next_level X l) = (2 ^ d)%N.
  by rewrite size_next_level Es expnS mul2n uphalf_half odd_double half_double.
have lt' : (i./2 < 2 ^ d)%N by move: lt; rewrite expnS; have := odd_double_half i; lia.
rewrite -iterS iterSr modn2 eqb0 divn2.
have -> : (if ~~ odd i then hash_slice X [:: h; nb] else hash_slice X [:: nb; h]) =
  hash_slice X (if odd i then [:: nb; h] else [:: h; nb]) by case: odd.
set c := if odd i then _ else _ => /(IH _ _ _ _ Es' lt' Sp)[E|[a [b [ha hb n e]]]]; last first.
  right; exists a, b; rewrite in_pairsE mem_cat inE hb orbT; split=> //.
  by rewrite -[map _ _]/(next_level X l) ha orbT.
have l2 : (i./2.*2.+1 < size l)%N by move: lt; rewrite Es expnS; have := odd_double_half i; lia.
move: E; rewrite nth_next_level // => E.
case: (c =P [:: nth 0 l i./2.*2; nth 0 l i./2.*2.+1]) => [Ec|ne]; last first.
  right; exists [:: nth 0 l i./2.*2; nth 0 l i./2.*2.+1], c.
  by rewrite mem_cat pair_in // mem_head; split=> //; apply/nesym.
left; have Ei := odd_double_half i; move: Ec; rewrite /c.
case: (odd i) Ei => Ei [E1 E2]; first by rewrite E2; congr (nth _ _ _); lia.
by rewrite E1; congr (nth _ _ _); lia.
Qed.

(* An opening with a path of the tree's depth that verifies against the root of a vector
   opens to the vector's entry, or gives such a collision. *)
Theorem C92_openings_bind l k p : size l = (2 ^ k)%N ->
  mt_root (mt_new X l) = Ret (mp_root p) -> size (mp_hash_proof p) = k -> (mp_index p < size l)%N ->
  verify_merkle_proof X p ->
  mp_leaf_val p = nth 0 l (mp_index p) \/ collide X (tree_lists X l) (proof_lists X p).
Proof.
move=> Es Er Sp lt /eqP V.
have l0 : (0 < size l)%N by rewrite Es expn_gt0.
have [r Er' E] := rootE l0; move: Er; rewrite Er' => -[Er]; rewrite Er in E.
have Ek : up_log 2 (size l) = k by rewrite Es up_expnK.
have hE : [seq hash_slice X [:: x] | x <- l] = [seq hash X x | x <- l].
  by apply: eq_map => x; apply: hash1.
rewrite /tree_lists /proof_lists hE Ek hash1; rewrite Ek in E.
have [||||Eh|[a [b [ha hb n e]]]] := @climb_binds k [seq hash X x | x <- l] (mp_index p) (hash X (mp_leaf_val p)) (mp_hash_proof p).
- by rewrite size_map.
- by rewrite -Es.
- by [].
- by rewrite V E.
- move: Eh; rewrite (nth_map 0) // -!hash1 => Eh.
  case: (mp_leaf_val p =P nth 0 l (mp_index p)) => [|ne]; [by left|right].
  exists [:: nth 0 l (mp_index p)], [:: mp_leaf_val p]; rewrite mem_head mem_cat.
  rewrite (map_f (fun x => [:: x])) ?mem_nth //; split=> //.
  by case=> E2; apply: ne.
right; exists a, b; by rewrite mem_cat inE ha hb !orbT.
Qed.

End Binding.

(* Such collisions always exist: the root is one field element. *)
Theorem C92_collisions_exist (F : finFieldType) (X : fri_env F) (n : nat) : (1 < n)%N ->
  exists l l', [/\ size l = n, size l' = n, l <> l', mt_root (mt_new X l) = mt_root (mt_new X l')
    & collide X (tree_lists X l) (tree_lists X l')].
Proof.
move=> n1; pose root (t : n.-tuple F) : F := odflt 0 (if mt_root (mt_new X t) is Ret r then Some r else None).
have : ~~ injectiveb root.
  apply/negP => /injectiveP/leq_card; rewrite card_tuple leqNgt => /negP; apply.
  have F1 : (1 < #|F|)%N by apply/card_gt1P; exists 0, 1; rewrite ?inE // eq_sym oner_eq0.
  by rewrite -{1}[#|F|]expn1 ltn_exp2l.
case/injectivePn => t [t' ne E]; exists t, t'.
have S (u : n.-tuple F) : (0 < size u)%N by rewrite size_tuple; apply: ltnW.
have Er : mt_root (mt_new X t) = mt_root (mt_new X t').
  by move: E; rewrite /root; have [r -> _] := rootE X (S t); have [r' -> _] := rootE X (S t') => /= ->.
have nt : val t <> val t' by move/val_inj => Et; rewrite Et eqxx in ne.
rewrite !size_tuple; split=> //.
by have [||//] := C92_vector_binding (S t) (S t') _ Er; rewrite ?size_tuple.
Qed.
