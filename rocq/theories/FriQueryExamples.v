(* A concrete case for C84 over F_17: four values, a second layer with one wrong
   value; positions 1 and 3 are spoiled, draws at positions 0 and 2 are accepted. *)
From Coq Require Import String Ascii NArith.
Set Warnings "-notation-overridden,-ambiguous-paths".
From mathcomp Require Import all_ssreflect all_algebra.
From mathcomp Require Import zify.
From Verif Require Import Base BaseLemmas ArkPoly ArkDomain ArkDomainLemmas FriModel FriSpec FriProps
  FriAuthSpec FriAuthProps FriExamples FriQuerySpec FriQueryProps.

Set Implicit Arguments.
Unset Strict Implicit.
Unset Printing Implicit Defensive.

Import GRing.Theory.
Local Open Scope ring_scope.

Definition K17 := [finFieldType of 'F_17].
Definition Y17 : fri_env K17 :=
  FriEnv toy_digest (fun x : K17 => decimal x) toy_sum (fun x : K17 => nat_of_ord x)
    (fun seed k => (N.to_nat (seed mod 17)%num)%:R * 3%:R + (k * k + 1)%:R)
    (3%:R) (FftField 4 (3%:R : K17)).

Lemma Y17_card : #|K17| = 17%N.
Proof. by rewrite card_Fp. Qed.
Lemma Y17_low : low_limb_of Y17 17.
Proof.
move=> m lm; rewrite -[low_limb _ _]/(nat_of_ord (m%:R : 'F_17)) val_Fp_nat //.
have lt : (m < 2 ^ 64)%N by apply: leq_trans lm _; rewrite (_ : 64 = 5 + 59)%N // expnD leq_pmulr // expn_gt0.
by rewrite (modn_small lt) modn_small.
Qed.

Definition l0 : seq K17 := [:: 1%:R; 2%:R; 3%:R; 5%:R].
Definition r0 : K17 := merkle_root Y17 2 l0.
Definition c17 : K17 := 3%:R.
Definition a0 : K17 := fri_challenge Y17 toy_digest [:: r0] 0.
Definition fold0 (i : nat) : K17 :=
  fold_value a0 (omega Y17 2 ^+ i * c17) (nth 0 l0 i) (nth 0 l0 ((i + 2) %% 4)%N).
(* the value at position 1 is wrong *)
Definition l1 : seq K17 := [:: fold0 0; fold0 1 + 1].
Definition r1 : K17 := merkle_root Y17 1 l1.
Definition a1 : K17 := fri_challenge Y17 toy_digest [:: r0; r1] 1.
Definition v17 : K17 := fold_value a1 (c17 ^+ 2) (nth 0 l1 0) (nth 0 l1 1).
Definition roots17 : seq K17 := [:: r0; r1].
Definition layer17 (j : nat) : seq K17 := nth [::] [:: l0; l1] j.

Definition opened (l : seq K17) (i : nat) : merkle_proof K17 :=
  if mt_generate_proof (mt_new Y17 l) i is Ret p then p else path0 _.
Definition deco17 (x : K17) : decommitment K17 :=
  let q := nat_of_ord x in
  Decommitment [:: nth 0 l0 (q %% 4)%N; nth 0 l1 (q %% 2)%N]
    [:: opened l0 (q %% 4); opened l1 (q %% 2)]
    [:: nth 0 l0 ((q + 2) %% 4)%N; nth 0 l1 ((q + 1) %% 2)%N]
    [:: opened l0 ((q + 2) %% 4); opened l1 ((q + 1) %% 2)].
Definition answer17 (ch : seq K17) : seq (decommitment K17) := map deco17 ch.
Definition draws17 : 2.-tuple K17 := [tuple 4%:R; 2%:R].

Example layers17 : layers_of Y17 2 roots17 layer17.
Proof. by split=> // -[|[|j]]. Qed.
Example fresh17 : query_seed_fresh Y17 toy_digest roots17 v17.
Proof.
have D j : (j < 2)%N -> N.eqb (fri_seed Y17 toy_digest (0 :: take j.+1 roots17))
    (fri_seed Y17 toy_digest (0 :: rcons roots17 v17)) = false.
  by case: j => [|[|j lj]]; [move=> _; vm_compute; reflexivity|move=> _; vm_compute; reflexivity|exfalso; move: lj].
by move=> j lj /N.eqb_eq; rewrite (D j lj).
Qed.
Example accepted_draws17 :
  fri_verify (with_draws Y17 (fri_seed Y17 toy_digest (0 :: rcons roots17 v17)) draws17) toy_digest
    (FriProof (2 ^ 2) c17 2 roots17 v17 (answer17 draws17)) = Ret tt.
Proof. by vm_compute. Qed.
(* the same answers at a spoiled position are refused *)
Example refused_draws17 :
  (if fri_verify (with_draws Y17 (fri_seed Y17 toy_digest (0 :: rcons roots17 v17)) [:: 4%:R; 3%:R]) toy_digest
    (FriProof (2 ^ 2) c17 2 roots17 v17 (answer17 [:: 4%:R; 3%:R])) is Err _ then true else false) = true.
Proof. by vm_compute. Qed.
Example spoiled17 q : q \in [:: 1; 3]%N ->
  (q < 2 ^ 2)%N /\ spoiled_at Y17 toy_digest 2 roots17 layer17 c17 v17 q.
Proof.
have B q' : q' \in [:: 1; 3]%N ->
    fold_value (fri_challenge Y17 toy_digest roots17 0) (omega Y17 (2 - 0) ^+ (q' %% 2 ^ (2 - 0)) * c17 ^+ (2 ^ 0))
      (nth 0 (layer17 0) (q' %% 2 ^ (2 - 0))) (nth 0 (layer17 0) ((q' %% 2 ^ (2 - 0) + 2 ^ (2 - 1)) %% 2 ^ (2 - 0)))
    != nth 0 (layer17 1) (q' %% 2 ^ (2 - 1)).
  by rewrite !inE => /orP[] /eqP ->; vm_compute; reflexivity.
move=> Hq; split; first by move: Hq; rewrite !inE => /orP[] /eqP ->.
by exists 0%N => // E; move/negP: (B q Hq); apply; apply/eqP; exact: E.
Qed.

(* every path of an opening is the one generated from the layer at its index *)
Definition self_opened (l : seq K17) (p : merkle_proof K17) : bool :=
  if mt_generate_proof (mt_new Y17 l) (mp_index p) is Ret p' then
    [&& mp_leaf_val p == mp_leaf_val p', mp_index p == mp_index p' & mp_hash_proof p == mp_hash_proof p']
  else false.
Lemma self_opened_no l p p' : self_opened l p -> mt_generate_proof (mt_new Y17 l) (mp_index p) = Ret p' ->
  ~ collision_between Y17 p p'.
Proof.
rewrite /self_opened => S E; move: S; rewrite E => /and3P[/eqP e1 /eqP e2 /eqP e3].
by rewrite /collision_between e1 e2 e3 => -[[]|[l' _ []]].
Qed.
Definition self_auth (q : K17) (j : nat) : bool :=
  let p := nth (path0 _) (dc_auth_paths (deco17 q)) j in
  let s := nth (path0 _) (dc_sym_auth_paths (deco17 q)) j in
  [&& mp_root p == nth 0 roots17 j, mp_root s == nth 0 roots17 j,
      size (mp_hash_proof p) == (2 - j)%N & size (mp_hash_proof s) == (2 - j)%N].
Definition self_paths (q : K17) (j : nat) : bool :=
  self_opened (layer17 j) (nth (path0 _) (dc_auth_paths (deco17 q)) j) &&
  self_opened (layer17 j) (nth (path0 _) (dc_sym_auth_paths (deco17 q)) j).
Lemma self17 : all (fun q => all (fun j => self_auth q j && self_paths q j) (iota 0 2)) [:: 4%:R; 2%:R].
Proof. by vm_compute; reflexivity. Qed.
Lemma deco_self q : (q \in [:: 4%:R; 2%:R]) ->
  authenticated 2 roots17 (deco17 q) /\ ~ collides_with_layers Y17 2 layer17 (deco17 q).
Proof.
move=> Hq; have A j : (j < 2)%N -> self_auth q j && self_paths q j.
  by move=> lj; move/allP: self17 => /(_ q Hq)/allP; apply; rewrite mem_iota add0n.
split.
  split; [by []..|] => j lj p s; have /andP[/and4P[/eqP e1 /eqP e2 /eqP e3 /eqP e4] _] := A j lj.
  by split; assumption.
case=> j [p [p' [lj Ep Eg]]]; have /andP[_ /andP[s1 s2]] := A j lj.
by apply: (self_opened_no _ Eg); case: Ep => ->.
Qed.
Example openings17 : honest_openings Y17 2 2 roots17 layer17 (answer17 draws17).
Proof. by split=> // -[|[|k]] // _; apply: deco_self; rewrite !inE eqxx ?orbT. Qed.

(* all the hypotheses of C84_query_error are met, and a list of draws is accepted:
   of the 17^2 lists at most (17 - 2 * 4)^2 = 81 can be *)
Example error17 (chs : seq (2.-tuple K17)) : uniq chs ->
  (forall ch : 2.-tuple K17, ch \in chs ->
     fri_verify (with_draws Y17 (fri_seed Y17 toy_digest (0 :: rcons roots17 v17)) ch) toy_digest
       (FriProof (2 ^ 2) c17 2 roots17 v17 (answer17 ch)) = Ret tt /\
     honest_openings Y17 2 2 roots17 layer17 (answer17 ch)) -> (size chs <= 81)%N.
Proof.
move=> uq acc.
exact: (@C84_query_error K17 17 isT Y17_card Y17 toy_digest X17_digest 2 2 roots17 layer17 c17 v17 [:: 1; 3]%N
  answer17 chs Y17_low isT layers17 fresh17 isT spoiled17 uq acc).
Qed.
Example error17_met : forall ch : 2.-tuple K17, ch \in [:: draws17] ->
     fri_verify (with_draws Y17 (fri_seed Y17 toy_digest (0 :: rcons roots17 v17)) ch) toy_digest
       (FriProof (2 ^ 2) c17 2 roots17 v17 (answer17 ch)) = Ret tt /\
     honest_openings Y17 2 2 roots17 layer17 (answer17 ch).
Proof. by move=> ch; rewrite inE => /eqP ->; split; [exact: accepted_draws17|exact: openings17]. Qed.
