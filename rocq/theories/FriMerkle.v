(* Lemmas about the Merkle tree of the fri crate. *)
From Coq Require Import String Ascii NArith.
Set Warnings "-notation-overridden,-ambiguous-paths".
From mathcomp Require Import all_ssreflect all_algebra.
From mathcomp Require Import zify.
From Verif Require Import Base BaseLemmas ArkPoly ArkDomain FriModel FriSpec.

Set Implicit Arguments.
Unset Strict Implicit.
Unset Printing Implicit Defensive.

Import GRing.Theory.
Local Open Scope ring_scope.

Section MerkleLemmas.
Variables (F : fieldType) (X : fri_env F).
Implicit Types (l : seq F) (t : merkle_tree F) (p q : merkle_proof F).

Lemma seq2_ind (T : Type) (P : seq T -> Prop) :
  P [::] -> (forall a, P [:: a]) -> (forall a b s, P s -> P (a :: b :: s)) ->
  forall s, P s.
Proof.
move=> H0 H1 H2 s; have [n le] := ubnP (size s).
elim: n s le => [|n IH] [|a [|b s]] //= le; apply: H2; apply: IH; lia.
Qed.

Lemma size_chunks2 (T : Type) (s : seq T) : size (chunks2 s) = uphalf (size s).
Proof. by elim/seq2_ind: s => //= a b s ->. Qed.

Lemma size_next_level l : size (next_level X l) = uphalf (size l).
Proof. by rewrite size_map size_chunks2. Qed.

Lemma nth_chunks2 (T : Type) (x0 : T) (s : seq T) (i : nat) :
  (i.*2.+1 < size s)%N ->
  nth [::] (chunks2 s) i = [:: nth x0 s i.*2; nth x0 s i.*2.+1].
Proof.
elim/seq2_ind: s i => [|a|a b s IH] i //.
by case: i => [|i] //= lt; apply: IH.
Qed.

Lemma nth_next_level l (i : nat) :
  (i.*2.+1 < size l)%N ->
  nth 0 (next_level X l) i = hash_slice X [:: nth 0 l i.*2; nth 0 l i.*2.+1].
Proof.
move=> lt; rewrite (nth_map [::]) ?size_chunks2 ?(nth_chunks2 0) //.
by move: lt; lia.
Qed.

Lemma last_levels d l : last [::] (levels X d l) = iter d (next_level X) l.
Proof.
elim: d l => [|d IH] l //=.
rewrite -iterS iterSr -IH.
by case: d {IH} => [|d].
Qed.

Lemma size_levels d l : size (levels X d l) = d.+1.
Proof. by elim: d l => [|d IH] l //=; rewrite IH. Qed.

Lemma ohead_rev (T : Type) (x0 : T) (s : seq T) :
  s <> [::] -> ohead (rev s) = Some (last x0 s).
Proof. by case/lastP: s => // s x _; rewrite rev_rcons last_rcons. Qed.

Lemma mt_rootE l leaves d :
  mt_root (MerkleTree (levels X d l) leaves d) = index_at (iter d (next_level X) l) 0.
Proof.
rewrite /mt_root /= (ohead_rev [::]) /=; first by rewrite last_levels.
by case: d.
Qed.

Lemma size_iter_next_level d l k :
  size l = (2 ^ (d + k))%N -> size (iter d (next_level X) l) = (2 ^ k)%N.
Proof.
elim: d l => [|d IH] l //= Es.
rewrite -iterS iterSr; apply: IH.
rewrite size_next_level Es addSn expnS mul2n uphalf_half odd_double half_double.
by [].
Qed.

(* Path generation and climbing agree in a full level of size 2^d. *)
Lemma auth_path_climb d l i :
  size l = (2 ^ d)%N -> (i < 2 ^ d)%N ->
  exists path,
    [/\ auth_path (levels X d l) d i = Ret path, size path = d
      & climb X i (nth 0 l i) path = nth 0 (iter d (next_level X) l) 0].
Proof.
elim: d l i => [|d IH] l i Es lt /=.
  by exists [::]; split=> //=; move: lt; rewrite expn0 ltnS leqn0 => /eqP ->.
have Es' : size (next_level X l) = (2 ^ d)%N.
  by rewrite size_next_level Es expnS mul2n uphalf_half odd_double half_double.
have lt' : (i %/ 2 < 2 ^ d)%N by rewrite ltn_divLR // mulnC -expnS.
have [path [Ep Sp Cp]] := IH _ _ Es' lt'.
have Es2 : size l = (2 ^ d).*2 by rewrite Es expnS mul2n.
rewrite -iterS iterSr.
have Hi := divn_eq i 2.
have Hm : (i %% 2 < 2)%N by rewrite ltn_mod.
have Hn : nth 0 (next_level X l) (i %/ 2) =
  hash_slice X [:: nth 0 l (i %/ 2).*2; nth 0 l (i %/ 2).*2.+1].
  by apply: nth_next_level; lia.
case: eqP => [E0|E0].
- rewrite (index_at_Ret 0) /=; last by lia.
  rewrite Ep /=; exists (nth 0 l (i + 1)%N :: path); split=> //=; first by rewrite Sp.
  rewrite E0 eqxx -Cp Hn.
  have -> : (i %/ 2).*2 = i by lia.
  by rewrite addn1.
- have E1 : (i %% 2 = 1)%N by lia.
  rewrite (index_at_Ret 0) /=; last by lia.
  rewrite Ep /=; exists (nth 0 l (i - 1)%N :: path); split=> //=; first by rewrite Sp.
  rewrite E1 /= -Cp Hn.
  have -> : (i %/ 2).*2 = (i - 1)%N by lia.
  by have -> : (i - 1).+1 = i by lia.
Qed.

Lemma mt_root_pow2 l k : size l = (2 ^ k)%N ->
  mt_root (mt_new X l) = Ret (nth 0 (iter k (next_level X) [seq hash X x | x <- l]) 0).
Proof.
move=> Es; rewrite /mt_new trunc_next_pow2 Es up_expnK // mt_rootE.
by rewrite (index_at_Ret 0) // (@size_iter_next_level k _ 0) // size_map Es addn0.
Qed.

(* C01 *)
Lemma merkle_complete l k i : size l = (2 ^ k)%N -> (i < size l)%N ->
  exists p,
    [/\ mt_generate_proof (mt_new X l) i = Ret p,
        mp_index p = i, mp_leaf_val p = nth 0 l i,
        mt_root (mt_new X l) = Ret (mp_root p)
      & verify_merkle_proof X p] /\ size (mp_hash_proof p) = k.
Proof.
move=> Es lt.
have lt' : (i < 2 ^ k)%N by rewrite -Es.
have Es' : size [seq hash X x | x <- l] = (2 ^ k)%N by rewrite size_map.
have [path [Ep Sp Cp]] := auth_path_climb Es' lt'.
have Er := mt_root_pow2 Es.
set root := nth 0 _ 0 in Er.
exists (MerkleProof i (nth 0 l i) path root); split=> //; split=> //.
- rewrite /mt_generate_proof Er /= /next_power_of_two Es up_expnK // trunc_expnK //.
  rewrite subnn cats0 (index_at_Ret 0) //= Ep /=.
  by [].
- rewrite /verify_merkle_proof /= -/root; apply/eqP.
  by rewrite /root -Cp (nth_map 0).
Qed.

(* ---- C02 ---- *)
(* length of level j, and the position of the last committed leaf in it *)
Lemma auth_path_last_panic d l :
  (0 < size l)%N -> auth_path (levels X d l) d (size l).-1 <> Panic ->
  (2 ^ d %| size l)%N.
Proof.
elim: d l => [|d IH] l gt0; first by rewrite dvd1n.
rewrite [levels _ _ _]/= [auth_path _ _ _]/=.
have [E|E] := boolP (odd (size l)).
  have -> : ((size l).-1 %% 2 = 0)%N by rewrite modn2; lia.
  by rewrite /= index_at_Panic //; lia.
have -> : ((size l).-1 %% 2 = 1)%N by rewrite modn2; lia.
rewrite /= (index_at_Ret 0) /=; last by lia.
move=> Hp.
have Esz : ((size l).-1 %/ 2 = (size (next_level X l)).-1)%N.
  by rewrite size_next_level; lia.
have : (2 ^ d %| size (next_level X l))%N.
  apply: IH; first by rewrite size_next_level; lia.
  rewrite -Esz => Ep; apply: Hp.
  by move: Ep; case: (auth_path _ _ _).
rewrite size_next_level => H.
have -> : size l = (uphalf (size l)).*2 by lia.
by rewrite expnS -mul2n dvdn_pmul2l.
Qed.

Lemma no_err_auth_path (ls : seq (seq F)) d i : no_err (auth_path ls d i).
Proof.
elim: d ls i => [|d IH] ls i //=.
apply: no_err_bind => [|lv _]; first exact: no_err_index.
apply: no_err_bind => [|nb _]; first by case: ifP => _; exact: no_err_index.
by apply: no_err_bind.
Qed.

Lemma no_err_generate_proof t i : no_err (mt_generate_proof t i).
Proof.
apply: no_err_bind => [|leaf _]; first exact: no_err_index.
apply: no_err_bind => [|path _]; first exact: no_err_auth_path.
apply: no_err_bind => // .
by apply: no_err_bind => [|lv _]; [exact: no_err_unwrap|exact: no_err_index].
Qed.

Lemma merkle_last_panics l : (0 < size l)%N -> ~~ is_pow2 (size l) ->
  mt_generate_proof (mt_new X l) (size l).-1 = Panic.
Proof.
move=> gt0 np; rewrite /mt_generate_proof /mt_new /= trunc_next_pow2.
have le := next_pow2_ge (size l).
rewrite (index_at_Ret 0) /=; last first.
  by rewrite size_cat size_nseq subnKC //; lia.
have -> // : auth_path (levels X (up_log 2 (size l)) [seq hash X x | x <- l])
                (up_log 2 (size l)) (size l).-1 = Panic.
have := @auth_path_last_panic (up_log 2 (size l)) [seq hash X x | x <- l].
rewrite size_map => /(_ gt0) H.
have [[a E]|//] := no_err_cases (no_err_auth_path (levels X (up_log 2 (size l)) [seq hash X x | x <- l])
                (up_log 2 (size l)) (size l).-1).
exfalso; move: H; rewrite E => H'.
have /(dvdn_leq gt0) le2 := H' ltac:(discriminate).
move/negP: np; apply; rewrite /is_pow2 eqn_leq le /next_power_of_two.
by [].
Qed.

(* C02 *)
Lemma merkle_open_all_iff l : (0 < size l)%N ->
  (forall i, (i < size l)%N -> exists p, mt_generate_proof (mt_new X l) i = Ret p)
  <-> is_pow2 (size l).
Proof.
move=> gt0; split=> [H|/is_pow2P[k Es] i lt].
- apply/negPn/negP => np; have := H (size l).-1.
  by rewrite prednK // (merkle_last_panics gt0 np) => /(_ (leqnn _))[p].
- by have [p [[E _ _ _ _] _]] := merkle_complete Es lt; exists p.
Qed.

Lemma merkle_oob_panics l i : (next_power_of_two (size l) <= i)%N ->
  mt_generate_proof (mt_new X l) i = Panic.
Proof.
move=> le; rewrite /mt_generate_proof index_at_Panic //=.
by rewrite size_cat size_nseq subnKC // next_pow2_ge.
Qed.

Lemma merkle_empty_root_panics : mt_root (mt_new X [::]) = Panic.
Proof. by []. Qed.

(* ---- C03 ---- *)
Lemma climb_binding i path1 path2 h1 h2 :
  size path1 = size path2 -> climb X i h1 path1 = climb X i h2 path2 ->
  (h1 = h2 /\ path1 = path2) \/
  exists2 j, (j < size path1)%N &
    let a := nth (0, 0) (node_inputs X i h1 path1) j in
    let b := nth (0, 0) (node_inputs X i h2 path2) j in
    a <> b /\ hash_slice X [:: a.1; a.2] = hash_slice X [:: b.1; b.2].
Proof.
elim: path1 path2 i h1 h2 => [|n1 p1 IH] [|n2 p2] i h1 h2 //=; first by left.
case=> Es; case: ifP => Ei /(IH _ _ _ _ Es).
- case=> [[Eh Ep]|[j lt Hj]]; last by right; exists j.+1.
  case: (altP ((h1, n1) =P (h2, n2))) => [[-> ->]|/eqP ne]; first by left; rewrite Ep.
  by right; exists 0%N.
- case=> [[Eh Ep]|[j lt Hj]]; last by right; exists j.+1.
  case: (altP ((n1, h1) =P (n2, h2))) => [[-> ->]|/eqP ne]; first by left; rewrite Ep.
  by right; exists 0%N.
Qed.

Lemma merkle_binding p q :
  verify_merkle_proof X p -> verify_merkle_proof X q ->
  mp_root p = mp_root q -> mp_index p = mp_index q ->
  size (mp_hash_proof p) = size (mp_hash_proof q) ->
  p = q \/
  (mp_leaf_val p <> mp_leaf_val q /\ hash X (mp_leaf_val p) = hash X (mp_leaf_val q)) \/
  exists2 j, (j < size (mp_hash_proof p))%N &
    let a := nth (0, 0) (node_inputs X (mp_index p) (hash X (mp_leaf_val p)) (mp_hash_proof p)) j in
    let b := nth (0, 0) (node_inputs X (mp_index q) (hash X (mp_leaf_val q)) (mp_hash_proof q)) j in
    a <> b /\ hash_slice X [:: a.1; a.2] = hash_slice X [:: b.1; b.2].
Proof.
case: p => i v1 p1 r1; case: q => i2 v2 p2 r2.
rewrite /verify_merkle_proof /= => /eqP E1 /eqP E2 Er Ei Es.
rewrite -Ei -Er in E2 *.
case: (@climb_binding i p1 p2 (hash X v1) (hash X v2)) => //.
- by rewrite E1.
- case=> Eh ->; case: (altP (v1 =P v2)) => [->|/eqP ne]; first by left.
  by right; left.
- by move=> H; right; right.
Qed.

Lemma climb_high_bits path i m h :
  climb X (i + m * 2 ^ size path)%N h path = climb X i h path.
Proof.
elim: path i h => [|n p IH] i h //=.
have -> : ((i + m * 2 ^ (size p).+1) %% 2 = i %% 2)%N.
  by rewrite expnS mulnCA -modnDmr modnMr addn0.
have -> : ((i + m * 2 ^ (size p).+1) %/ 2 = i %/ 2 + m * 2 ^ size p)%N.
  by rewrite expnS mulnCA addnC mulnC divnMDl // addnC.
by rewrite IH.
Qed.

End MerkleLemmas.
