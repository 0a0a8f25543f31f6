(* Bridging the FRI model to the vocabulary of FriSpec.v, and the FRI property
   theorems in that vocabulary. *)
From Coq Require Import String Ascii NArith.
Set Warnings "-notation-overridden,-ambiguous-paths".
From mathcomp Require Import all_ssreflect all_algebra.
From mathcomp Require Import zify ring.
From Verif Require Import Base BaseLemmas ArkPoly ArkPolyLemmas ArkDomain ArkDomainLemmas.
From Verif Require Import FriModel FriSpec FriMerkle FriTranscript FriFold FriComplete FriSound.

Set Implicit Arguments.
Unset Strict Implicit.
Unset Printing Implicit Defensive.

Import GRing.Theory.
Local Open Scope ring_scope.
Local Opaque le_bytes.

Section FoldBridge.
Variable F : fieldType.
(* ---- folding ---- *)
Lemma fold_spec (p : seq F) r : Poly (fold_polynomial p r) = fold_poly (Poly p) r.
Proof.
apply/polyP => i; rewrite coef_Poly fold_coef /fold_poly coefD coefZ !coef_poly !coef_Poly.
case: ltnP => // le.
have E j : (i <= j)%N -> nth 0 p j = 0.
  move=> lj; rewrite -coef_Poly nth_default //; exact: leq_trans lj.
by rewrite !E ?mulr0 ?addr0 //; lia.
Qed.

Lemma fold_all_spec (p rs : seq F) : Poly (fold_all p rs) = foldl (@fold_poly F) (Poly p) rs.
Proof. by elim: rs p => //= r rs IH p; rewrite IH fold_spec. Qed.

End FoldBridge.

Section Bridge.
Variables (F : fieldType) (X : fri_env F) (H : bytes -> bytes).

Lemma omegaE n : omega X n = root_of_unity (fft X) n.
Proof. by rewrite root_of_unityE. Qed.

(* ---- Merkle ---- *)
Lemma next_level_cat (a b : seq F) : ~~ odd (size a) ->
  next_level X (a ++ b) = next_level X a ++ next_level X b.
Proof.
by rewrite /next_level; elim/seq2_ind: a => //= x y s IH; rewrite negbK => /IH ->.
Qed.

Lemma iter_next_level_cat d (a b : seq F) : (2 ^ d %| size a)%N ->
  iter d (next_level X) (a ++ b) = iter d (next_level X) a ++ iter d (next_level X) b.
Proof.
elim: d a b => [|d IH] a b dv; first by [].
rewrite !iterSr next_level_cat; last first.
  by rewrite -dvdn2; apply: dvdn_trans dv; rewrite expnS dvdn_mulr.
apply: IH; rewrite size_next_level; move: dv; rewrite expnS => /dvdnP[k ->].
apply/dvdnP; exists k; have : (k * (2 * 2 ^ d) = (k * 2 ^ d).*2)%N by rewrite -mul2n; lia.
by move=> ->; rewrite uphalf_double.
Qed.

Fixpoint tree_of (k : nat) (l : seq F) : F :=
  if k is k'.+1 then
    hash_slice X [:: tree_of k' (take (2 ^ k') l); tree_of k' (drop (2 ^ k') l)]
  else head 0 l.

Lemma tree_of_iter k (l : seq F) : size l = (2 ^ k)%N ->
  iter k (next_level X) l = [:: tree_of k l].
Proof.
elim: k l => [|k IH] l; first by case: l => [|a [|b l]].
move=> Sl; have S1 : size (take (2 ^ k) l) = (2 ^ k)%N.
  by rewrite size_take_min Sl expnS; apply/minn_idPl; lia.
have S2 : size (drop (2 ^ k) l) = (2 ^ k)%N by rewrite size_drop Sl expnS; lia.
rewrite /= -{1}(cat_take_drop (2 ^ k) l) iter_next_level_cat ?S1 //.
by rewrite !IH.
Qed.

Lemma tree_of_hash k (l : seq F) : size l = (2 ^ k)%N ->
  tree_of k [seq hash X x | x <- l] = merkle_root X k l.
Proof.
elim: k l => [|k IH] l; first by case: l => [|a [|b l]].
move=> Sl; rewrite /= -map_take -map_drop !IH //.
  by rewrite size_drop Sl expnS; lia.
by rewrite size_take_min Sl expnS; apply/minn_idPl; lia.
Qed.

Lemma mt_root_spec k (l : seq F) : size l = (2 ^ k)%N ->
  mt_root (mt_new X l) = Ret (merkle_root X k l).
Proof.
by move=> Sl; rewrite (mt_root_pow2 X Sl) tree_of_iter ?size_map // tree_of_hash.
Qed.

(* ---- transcript ---- *)
Lemma chain_from_rcons i d (ms : seq F) m :
  chain_from X H i d (rcons ms m) =
  H (chain_from X H i d ms ++ le_bytes 8 (i + size ms) ++ to_string X m).
Proof.
elim: ms i d => [|a ms IH] i d /=; first by rewrite addn0.
by rewrite IH addSnnS.
Qed.

Lemma chain_rcons (ms : seq F) m :
  chain X H (rcons ms m) = H (chain X H ms ++ le_bytes 8 (size ms) ++ to_string X m).
Proof. exact: chain_from_rcons. Qed.

(* a transcript that has digested exactly ms *)
Definition holds (t : transcript) (ms : seq F) : Prop :=
  tr_data t = Some (chain X H ms) /\ tr_index t = size ms.

Lemma holds_new m : holds (tr_new X H m) [:: m].
Proof. by []. Qed.

Lemma holds_digest t ms m : holds t ms -> holds (tr_digest X H t m) (rcons ms m).
Proof.
by case=> Ed Ei; split; rewrite /= ?size_rcons ?chain_rcons ?Ed ?Ei.
Qed.

Lemma challenge_spec t ms m : digest_long H -> holds t ms ->
  tr_challenge X (tr_digest X H t m) =
  Ret (fs_value X H (rcons ms m) 0,
       Transcript (Some (chain X H (rcons ms m))) (size (rcons ms m)) true).
Proof.
move=> Hl /(holds_digest m)[Ed Ei]; rewrite /tr_challenge /tr_seed Ed Ei /=.
by rewrite chain_rcons ltnNge Hl /= /fs_value chain_rcons.
Qed.

Lemma regen_spec t ms roots rs t' : digest_long H -> holds t ms ->
  regen_challenges X H t roots = Ret (rs, t') ->
  rs = mkseq (fun j => fs_value X H (ms ++ take j.+1 roots) 0) (size roots) /\
  holds t' (ms ++ roots).
Proof.
move=> Hl; elim: roots t ms rs t' => [|r roots IH] t ms rs t' ht.
  by case=> <- <-; rewrite cats0.
rewrite [regen_challenges _ _ _ _]/= (challenge_spec r Hl ht) bindRet.
inv_bind=> -[rs1 t1] E1 [<- <-].
have [|-> h1] := IH _ (rcons ms r) _ _ _ E1; first by [].
split; last by rewrite -cat_rcons.
rewrite /mkseq /= take0 cats1; congr (_ :: _).
rewrite -[1%N]addn0 iotaDl -map_comp; apply: eq_map => j /=.
by rewrite cat_rcons add1n.
Qed.

Lemma regen0_spec roots rs t' : digest_long H ->
  regen_challenges X H (tr_new X H 0) roots = Ret (rs, t') ->
  rs = mkseq (fri_challenge X H roots) (size roots) /\ holds t' (0 :: roots).
Proof.
move=> Hl /(regen_spec Hl (holds_new 0))[-> ht]; split=> //.
Qed.

Lemma usize_spec t ms m n raw t' : digest_long H -> holds t ms ->
  tr_challenges_usize X (tr_digest X H t m) n = Ret (raw, t') ->
  raw = mkseq (fun k => low_limb X (fs_value X H (rcons ms m) k)) n.
Proof.
move=> Hl /(holds_digest m)[Ed Ei].
rewrite /tr_challenges_usize /tr_challenges /tr_seed Ed Ei [tr_generated _]/= /=.
rewrite chain_rcons ltnNge Hl /= => -[<- _].
rewrite /mkseq -map_comp; apply: eq_map => k /=.
by rewrite /fs_value chain_rcons.
Qed.

Lemma coset_evals_spec p c n : coset_evals X p c n = coset_values X (Poly p) c n.
Proof.
by rewrite /coset_evals /coset_values /mkseq; apply: eq_map => i; rewrite pevalE omegaE.
Qed.

Lemma layer_root_spec p c n : layer_root X p c n = merkle_root X n (coset_values X (Poly p) c n).
Proof.
have := layer_rootE X p c n; rewrite /layer_of /= (mt_root_spec (size_coset_evals X p c n)).
by case=> <-; rewrite coset_evals_spec.
Qed.

Lemma honest_spec p c n rs t' : digest_long H -> size rs = n ->
  honest_challenges X H p c n rs t' ->
  let roots := honest_roots X p c n rs in
  [/\ honest_root_list X H (Poly p) c n roots, rs = mkseq (fri_challenge X H roots) n,
      holds t' (0 :: roots)
    & forall j, (j <= n)%N -> Poly (fold_all p (take j rs)) = folded X H (Poly p) roots j].
Proof.
move=> Hl Sr Eh roots.
have Sroots : size roots = n by rewrite size_honest_roots.
have [Ers Ht] := regen0_spec Hl Eh; rewrite Sroots in Ers.
have Hf j : (j <= n)%N -> Poly (fold_all p (take j rs)) = folded X H (Poly p) roots j.
  move=> le; rewrite fold_all_spec /folded; congr foldl.
  by rewrite Ers /mkseq -map_take take_iota (minn_idPl le).
split=> //; split=> // j lt.
rewrite nth_honest_roots ?Sr // layer_root_spec Hf //; exact: ltnW.
Qed.

Lemma entries_ok_nth e ch p c n rs es : entries_ok X ch p c n rs es ->
  forall j, (j < size rs)%N ->
  entry_ok X ch (fold_all p (take j rs)) (c ^+ (2 ^ j)) (n - j) (nth e es j).
Proof.
elim: rs es p c n => [|r rs IH] [|e1 es] p c n //= [H1 H2] [|j] lt.
  by rewrite expr1 subn0.
have := IH _ _ _ _ H2 j lt; rewrite -exprM -expnS /= .
by rewrite -subn1 -subnDA add1n.
Qed.

Lemma tr_run_spec t ms ops outs t' : digest_long H -> holds t ms -> 
  tr_run X H t ops = Ret (outs, t') -> outs = tr_spec X H ms ops.
Proof.
move=> Hl; elim: ops t ms outs t' => [|o ops IH] t ms outs t' Ht; first by case=> <-.
have Hg (t1 : transcript) : tr_data t1 = tr_data t -> tr_index t1 = tr_index t -> holds t1 ms.
  by case: Ht => A B C D; rewrite /holds C D.
rewrite [tr_run _ _ _ _]/=; inv_bind=> -[out t1] Eo; inv_bind=> -[outs1 t2] E2 [<- _].
case: o Eo => [m|| n|n] /=.
- by case=> <- E1; rewrite -E1 in E2; rewrite (IH _ _ _ _ (holds_digest m Ht) E2).
- rewrite /tr_challenge /tr_seed; case: ifP => // _; case: ifP => // _ /= [<- E1].
  rewrite (IH _ ms _ _ _ E2); last by rewrite -E1; apply: Hg.
  by case: Ht => -> _.
- rewrite /tr_challenges /tr_seed; case: ifP => // _; case: ifP => // _ /= [<- E1].
  rewrite (IH _ ms _ _ _ E2); last by rewrite -E1; apply: Hg.
  by case: Ht => -> _.
- rewrite /tr_challenges_usize /tr_challenges /tr_seed.
  case: ifP => // _; case: ifP => // _ /= [<- E1].
  rewrite (IH _ ms _ _ _ E2); last by rewrite -E1; apply: Hg.
  by case: Ht => -> _; rewrite /mkseq -map_comp.
Qed.

Lemma no_err_tr_run t ops : no_err (tr_run X H t ops).
Proof.
elim: ops t => [|o ops IH] t //=.
apply: no_err_bind => [|[out t1] _].
  by case: o => [m||n|n] //=;
    rewrite /tr_challenges_usize /tr_challenges /tr_challenge /tr_seed;
    case: ifP => //= _; case: ifP.
by apply: no_err_bind => // -[].
Qed.

Lemma hash_inputs_chain (ms : seq F) : hash_inputs X H tr0 ms = chain_inputs X H ms.
Proof.
rewrite /chain_inputs /tr0; set t0 := Transcript _ _ _.
suff E (t : transcript) i d : tr_index t = i -> odflt [::] (tr_data t) = d ->
  hash_inputs X H t ms = chain_inputs_from X H i d ms by exact: E.
elim: ms t i d => [|m ms IH] t i d //= Ei Ed.
rewrite (IH _ i.+1 (H (d ++ le_bytes 8 i ++ to_string X m))) /= ?Ei ?Ed //.
Qed.

(* the honest root list is unique *)
Lemma fri_challenge_take roots j : fri_challenge X H roots j = fri_challenge X H (take j.+1 roots) j.
Proof. by rewrite /fri_challenge take_take. Qed.

Lemma folded_take f roots j : folded X H f roots j = folded X H f (take j roots) j.
Proof.
rewrite /folded; congr foldl; apply/eq_in_map => i; rewrite mem_iota add0n => /andP[_ lt].
by rewrite fri_challenge_take [RHS]fri_challenge_take take_take.
Qed.

Lemma honest_root_list_uniq f c n r1 r2 :
  honest_root_list X H f c n r1 -> honest_root_list X H f c n r2 -> r1 = r2.
Proof.
move=> [S1 H1] [S2 H2].
suff E j : (j <= n)%N -> take j r1 = take j r2.
  by have := E n (leqnn n); rewrite -{1}S1 -{1}S2 !take_size.
elim: j => [|j IH] lt; first by rewrite !take0.
rewrite !(take_nth 0) ?S1 ?S2 // IH; last exact: ltnW.
by rewrite H1 // H2 // folded_take IH 1?ltnW // -folded_take.
Qed.

End Bridge.
