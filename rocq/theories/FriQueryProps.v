(* C84: how query positions are distributed, and the share of draws that miss all
   the positions where committed layers are inconsistent. *)
From Coq Require Import String Ascii NArith.
Set Warnings "-notation-overridden,-ambiguous-paths".
From mathcomp Require Import all_ssreflect all_algebra finfield.
From mathcomp Require Import zify.
From Verif Require Import Base BaseLemmas ArkPoly ArkPolyLemmas ArkDomain ArkDomainLemmas.
From Verif Require Import FriModel FriMerkle FriSound FriTranscript FriSpec FriSpecLemmas FriProps FriAuthSpec
  FriAuthProps FriQuerySpec Concrete ConcreteProps.

Set Implicit Arguments.
Unset Strict Implicit.
Unset Printing Implicit Defensive.

Import GRing.Theory.
Local Open Scope ring_scope.
Local Opaque le_bytes.

Lemma count_residue M i p : (i < M)%N ->
  count (fun m => m %% M == i)%N (iota 0 p) = (p %/ M + (i < p %% M))%N.
Proof.
move=> lt; have M0 : (0 < M)%N by apply: leq_ltn_trans lt.
rewrite {1}(divn_eq p M) mulnC iotaD count_cat count_mod //; congr (_ + _)%N.
rewrite add0n -[(M * (p %/ M))%N]addn0 iotaDl count_map.
rewrite (@eq_in_count _ _ (pred1 i)); last first.
  move=> m; rewrite mem_iota add0n /= => lm.
  by rewrite mulnC modnMDl modn_small //; apply: ltn_trans lm _; rewrite ltn_mod.
by rewrite count_uniq_mem ?iota_uniq // mem_iota.
Qed.

Section Field.
Variables (F : finFieldType) (p : nat).
Hypotheses (pp : prime p) (cF : #|F| = p).

Lemma card_by_residue (P : pred F) : #|P| = count (fun m => P m%:R) (iota 0 p).
Proof.
have char : p \in [char F] by apply: (@finfield.card_finCharP F p 1) => //; rewrite expn1.
pose g (m : nat) : F := m%:R.
have inj : {in iota 0 p &, injective g}.
  move=> a b; rewrite !mem_iota !add0n /= => la lb; rewrite /g => e.
  wlog le : a b la lb e / (a <= b)%N.
    by move=> W; case/orP: (leq_total a b) => l; [|apply/esym]; apply: W => //; rewrite e.
  have : (b - a)%:R == 0 :> F by rewrite natrB // e subrr.
  rewrite -(dvdn_charf char) => /dvdn_leq; case: (posnP (b - a)%N) => [|pos /(_ isT)]; move: la lb le; clear; lia.
have uq : uniq (map g (iota 0 p)) by rewrite map_inj_in_uniq ?iota_uniq.
rewrite -[RHS](count_map g P) cardE.
have pe : perm_eq (map g (iota 0 p)) (enum F).
  apply: uniq_perm => //; first exact: enum_uniq.
  have sub : {subset map g (iota 0 p) <= enum F} by move=> x _; rewrite mem_enum.
  have sz : (size (enum F) <= size (map g (iota 0 p)))%N by rewrite size_map size_iota -cardE cF.
  by have [_ e] := uniq_min_size uq sub sz.
by rewrite (permP pe) -size_filter [enum F]enumT; congr size; apply: eq_filter => x; rewrite unfold_in.
Qed.

(* Query positions: in a field with p elements (p prime) and for domains of 2^n
   points, n <= 64, position i is the position of p / 2^n field elements, and of
   one more when i < p mod 2^n. *)
Theorem C84_query_distribution (X : fri_env F) n i : low_limb_of X p -> (n <= 64)%N -> (i < 2 ^ n)%N ->
  #|[pred x : F | low_limb X x %% 2 ^ n == i]%N| = (p %/ 2 ^ n + (i < p %% 2 ^ n))%N.
Proof.
move=> low n64 li; rewrite card_by_residue -count_residue //.
apply: eq_in_count => m; rewrite mem_iota add0n /= => lm; rewrite low //.
by rewrite modn_dvdm // dvdn_exp2l.
Qed.

Lemma card_spoiled (X : fri_env F) n (s : seq nat) : low_limb_of X p -> (n <= 64)%N ->
  uniq s -> (forall q, q \in s -> (q < 2 ^ n)%N) ->
  (#|[pred x : F | low_limb X x %% 2 ^ n \notin s]%N| <= p - size s * (p %/ 2 ^ n))%N.
Proof.
move=> low n64 us bd; rewrite -cF.
have -> : #|[pred x : F | low_limb X x %% 2 ^ n \notin s]%N| =
  (#|F| - #|[pred x : F | low_limb X x %% 2 ^ n \in s]%N|)%N.
  rewrite -(cardC [pred x : F | low_limb X x %% 2 ^ n \in s]%N) addKn.
  by apply: eq_card => x; rewrite !inE.
apply: leq_sub2l; rewrite cF.
elim: s us bd => [|q s IH] //= /andP[qs us] bd.
rewrite mulSn; set A := [pred x | _]; rewrite (card_by_residue A).
have -> : count (fun m => A m%:R) (iota 0 p) =
  (count (fun m => (low_limb X m%:R %% 2 ^ n == q)%N) (iota 0 p) +
   count (fun m => (low_limb X m%:R %% 2 ^ n \in s)%N) (iota 0 p))%N.
  rewrite -count_predUI [X in (_ + X)%N](_ : _ = 0%N) ?addn0.
    by apply: eq_count => m; rewrite /= inE.
  apply/eqP; rewrite -leqn0 leqNgt -has_count; apply/hasP => -[m _ /= /andP[/eqP -> ]].
  by rewrite (negbTE qs).
apply: leq_add.
  rewrite -(card_by_residue [pred x | low_limb X x %% 2 ^ n == q]%N).
  by rewrite C84_query_distribution ?leq_addr // bd ?mem_head.
rewrite -(card_by_residue [pred x | low_limb X x %% 2 ^ n \in s]%N); apply: IH => // r rs.
by apply: bd; rewrite inE rs orbT.
Qed.

Lemma card_tuples (G : pred F) k (chs : seq (k.-tuple F)) : uniq chs ->
  (forall ch, ch \in chs -> forall i, (i < k)%N -> G (nth 0 ch i)) -> (size chs <= #|G| ^ k)%N.
Proof.
move=> uq all_G; pose h (ch : k.-tuple F) : {ffun 'I_k -> F} := [ffun i => tnth ch i].
have inj : injective h.
  by move=> a b /ffunP e; apply: eq_from_tnth => i; have := e i; rewrite !ffunE.
rewrite -(size_map h) -[k in (_ ^ k)%N]card_ord -card_ffun_on cardE; apply: uniq_leq_size.
  by rewrite map_inj_uniq.
move=> f /mapP[ch Hch ->]; rewrite mem_enum; apply/ffun_onP => i; rewrite ffunE.
by rewrite (tnth_nth 0); apply: all_G.
Qed.

Variables (X : fri_env F) (H : bytes -> bytes).
Hypothesis long : digest_8_bytes H.

Lemma challenge_draws roots v ch j : query_seed_fresh X H roots v -> (j < size roots)%N ->
  fri_challenge (with_draws X (fri_seed X H (0 :: rcons roots v)) ch) H roots j =
  fri_challenge X H roots j.
Proof.
move=> fresh lj; rewrite /fri_challenge /fs_value.
have ch_same ms : chain (with_draws X (fri_seed X H (0 :: rcons roots v)) ch) H ms = chain X H ms.
  by rewrite /chain; elim: ms 0%N [::] => //= m ms IH i d; rewrite IH.
rewrite ch_same /with_draws /= ifF //; apply/negbTE/negP => /N.eqb_eq; exact: fresh.
Qed.

Lemma query_draws roots v ch k :
  fri_query (with_draws X (fri_seed X H (0 :: rcons roots v)) ch) H roots v k =
  low_limb X (nth 0 ch k).
Proof.
rewrite /fri_query /fs_value.
have ch_same ms : chain (with_draws X (fri_seed X H (0 :: rcons roots v)) ch) H ms = chain X H ms.
  by rewrite /chain; elim: ms 0%N [::] => //= m ms IH i d; rewrite IH.
by rewrite ch_same /with_draws /= N.eqb_refl.
Qed.

(* Roots, layers, coset and constant are fixed; the decommitments may depend on the
   draws.  Out of the p^nq lists of draws, at most (p - B (p / 2^n))^nq are accepted
   when B positions are spoiled. *)
Theorem C84_query_error n nq (roots : seq F) (layer : nat -> seq F) (c v : F) (spoiled : seq nat)
    (answer : seq F -> seq (decommitment F)) (chs : seq (nq.-tuple F)) :
  low_limb_of X p -> (0 < n <= 64)%N -> layers_of X n roots layer ->
  query_seed_fresh X H roots v ->
  uniq spoiled -> (forall q, q \in spoiled -> (q < 2 ^ n)%N /\ spoiled_at X H n roots layer c v q) ->
  uniq chs ->
  (forall ch : nq.-tuple F, ch \in chs ->
     fri_verify (with_draws X (fri_seed X H (0 :: rcons roots v)) ch) H
       (FriProof (2 ^ n) c nq roots v (answer ch)) = Ret tt /\
     honest_openings X n nq roots layer (answer ch)) ->
  (size chs <= (p - size spoiled * (p %/ 2 ^ n)) ^ nq)%N.
Proof.
move=> low /andP[n0 n64] Lr fresh us sp uq acc.
apply: leq_trans (card_tuples (G := [pred x : F | low_limb X x %% 2 ^ n \notin spoiled]%N) uq _) _.
  move=> ch Hch k lk; have [V [szd A]] := acc ch Hch; have [au nc] := A k lk.
  set X' := with_draws _ _ _ in V; set pf := FriProof _ _ _ _ _ _ in V.
  have Lr' : layers_of X' n roots layer := Lr.
  have := @C70_authenticated_query F X' H pf n k layer long V erefl lk (leq_trans lk szd) Lr' au.
  case=> [con|]; last by move/nc.
  rewrite inE; apply/negP => /sp[_ [j lj]]; apply.
  have := con j lj; rewrite [fp_layers_root pf]/= [fp_const_val pf]/= [fp_coset pf]/=.
  rewrite /X' query_draws /fold_consistent challenge_draws //.
  by case: Lr => ->.
have mono : forall a b e, (a <= b)%N -> (a ^ e <= b ^ e)%N.
  by move=> a b e le; elim: e => // e IH; rewrite !expnS leq_mul.
by apply: mono; apply: card_spoiled => // q /sp[].
Qed.

(* Layers that are not those of a polynomial whose complete fold is the constant:
   at least two positions are spoiled, so at most (p - 2 (p / 2^n))^nq lists of
   draws are accepted. *)
Theorem C84_wrong_layers n nq (roots : seq F) (layer : nat -> seq F) (c v : F)
    (answer : seq F -> seq (decommitment F)) (chs : seq (nq.-tuple F)) :
  fft_consts_ok X -> low_limb_of X p -> (0 < n <= two_adicity (fft X))%N -> (n <= 64)%N -> c != 0 ->
  layers_of X n roots layer -> query_seed_fresh X H roots v ->
  ~ (exists f : {poly F},
      [/\ (size f <= 2 ^ n)%N,
          forall j, (j < n)%N ->
            layer j = coset_values X (folded X H f roots j) (c ^+ (2 ^ j)) (n - j)
        & folded X H f roots n = v%:P]) ->
  uniq chs ->
  (forall ch : nq.-tuple F, ch \in chs ->
     fri_verify (with_draws X (fri_seed X H (0 :: rcons roots v)) ch) H
       (FriProof (2 ^ n) c nq roots v (answer ch)) = Ret tt /\
     honest_openings X n nq roots layer (answer ch)) ->
  (size chs <= (p - 2 * (p %/ 2 ^ n)) ^ nq)%N.
Proof.
move=> ok low nS n64 c0 Lr fresh nex uq acc; have /andP[n0 le] := nS.
have Ss j : (j < n)%N -> size (layer j) = (2 ^ (n - j))%N by move=> lt; have [_ /(_ j lt)[]] := Lr.
pose okb q j := let i := (q %% 2 ^ (n - j))%N in
  let si := ((i + 2 ^ (n - j.+1)) %% 2 ^ (n - j))%N in
  fold_value (fri_challenge X H roots j) (omega X (n - j) ^+ i * c ^+ (2 ^ j))
    (nth 0 (layer j) i) (nth 0 (layer j) si) ==
  if j.+1 == n then v else nth 0 (layer j.+1) (q %% 2 ^ (n - j.+1)).
have okP q j : reflect (fold_consistent X H n roots layer c v q j) (okb q j) by exact: eqP.
have [|[q [j [lq lj bad]]]] : (forall q j, (q < 2 ^ n)%N -> (j < n)%N -> fold_consistent X H n roots layer c v q j)
  \/ exists q j, [/\ (q < 2 ^ n)%N, (j < n)%N & ~ fold_consistent X H n roots layer c v q j].
- case A: (all (fun q => all (okb q) (iota 0 n)) (iota 0 (2 ^ n))).
    left=> q j lq lj; apply/okP.
    have /allP/(_ q) := A; rewrite mem_iota add0n leq0n lq => /(_ isT)/allP/(_ j).
    by rewrite mem_iota add0n leq0n lj => /(_ isT).
  right; move/negbT: A; rewrite -has_predC => /hasP[q]; rewrite mem_iota add0n => /andP[_ lq] /=.
  rewrite -has_predC => /hasP[j]; rewrite mem_iota add0n => /andP[_ lj] /= nb.
  by exists q, j; split=> //; apply/okP.
- by move/(C70_consistent_everywhere H ok roots v nS c0 Ss)/nex.
have [allbad cnt] := C70_inconsistent_positions ok le lj bad.
pose sp := [seq q' <- iota 0 (2 ^ n) | (q' %% 2 ^ (n - j.+1) == q %% 2 ^ (n - j.+1))%N].
have szs : size sp = (2 ^ j.+1)%N by rewrite size_filter.
apply: leq_trans (@C84_query_error n nq roots layer c v sp answer chs low _ Lr fresh _ _ uq acc) _.
- by rewrite n0.
- by rewrite filter_uniq // iota_uniq.
- move=> q'; rewrite mem_filter mem_iota add0n => /andP[/eqP e /andP[_ lq']]; split=> //.
  by exists j => //; apply: allbad.
have mono : forall a b e, (a <= b)%N -> (a ^ e <= b ^ e)%N.
  by move=> a b e l; elim: e => // e IH; rewrite !expnS leq_mul.
apply: mono; apply: leq_sub2l; rewrite leq_mul2r szs; apply/orP; right.
by rewrite -{1}(expn1 2) leq_exp2l.
Qed.

End Field.

Lemma to_nat_square_less (a q : N) (k : nat) : q = (2 ^ a * (2 ^ a - 1) + 1)%num -> N.to_nat a = k ->
  exists2 m, N.to_nat q = (2 ^ k * m).+1 & (0 < k -> 0 < m)%N.
Proof.
move=> -> <-; exists (N.to_nat (2 ^ a - 1)).
  have pw : N.to_nat (2 ^ a) = (2 ^ N.to_nat a)%N.
    rewrite N2Nat.inj_pow; elim: (N.to_nat a) => // e IH.
    by rewrite expnS -IH.
  rewrite N2Nat.inj_add N2Nat.inj_mul pw; set x := N.to_nat _; set y := (2 ^ _)%N; clearbody x y.
  by clear; lia.
move=> a0; have : (2 <= 2 ^ a)%num.
  by rewrite -{1}(N.pow_1_r 2); apply: N.pow_le_mono_r => //; lia.
lia.
Qed.

Lemma fiber_share p k m n i c : p = (2 ^ k * m).+1 -> (n <= k)%N -> (i < 2 ^ n)%N ->
  c = (p %/ 2 ^ n + (i < p %% 2 ^ n))%N -> (c * 2 ^ n = p - 1 + (i == 0) * 2 ^ n)%N.
Proof.
move=> -> nk li ->.
have -> : (2 ^ k * m = 2 ^ (k - n) * m * 2 ^ n)%N by rewrite mulnAC -expnD subnK.
set M := (_ * m)%N; have p0 : (0 < 2 ^ n)%N by rewrite expn_gt0.
clearbody M; rewrite subn1 /= -addn1 divnMDl // modnMDl mulnDl.
case: n nk li p0 => [|n] nk li p0.
  by move: li; rewrite !expn0 ltnS leqn0 => /eqP ->; rewrite !modn1 !divn1 /= !muln1; clear; lia.
have lt1 : (1 < 2 ^ n.+1)%N by rewrite -{1}(expn0 2) ltn_exp2l.
by rewrite divn_small // modn_small // addn0 ltnS leqn0.
Qed.

(* Over the Goldilocks field and domains of up to 2^32 points every position comes
   from (p - 1) / 2^n field elements, position 0 from one more. *)
Theorem C84_goldilocks (F : finFieldType) (X : fri_env F) n i :
  #|F| = N.to_nat goldilocks_p -> low_limb_of X #|F| -> (n <= 32)%N -> (i < 2 ^ n)%N ->
  (#|[pred x : F | low_limb X x %% 2 ^ n == i]%N| * 2 ^ n = #|F| - 1 + (i == 0) * 2 ^ n)%N.
Proof.
move=> cF low n32 li; have [_ gp] := C63_goldilocks_prime.
have [m Em _] := @to_nat_square_less 32%num goldilocks_p 32 erefl erefl.
have Em' := etrans cF Em.
have n64 : (n <= 64)%N := leq_trans n32 (isT : (32 <= 64)%N).
have pp : prime #|F| := eq_ind_r (fun q => prime q) gp cF.
exact: (fiber_share Em' n32 li (C84_query_distribution pp erefl low n64 li)).
Qed.
