(* C78: non-interactive PLONK, with the challenges the code derives from its
   transcript, when the generator behind them is a random table. *)
From Coq Require Import String Ascii NArith.
Set Warnings "-notation-overridden,-ambiguous-paths".
From mathcomp Require Import all_ssreflect all_algebra.
From mathcomp Require Import zify ring.
From Verif Require Import Base BaseLemmas ArkPoly ArkPolyLemmas ArkDomain ArkDomainLemmas
  ArkPolyFft ArkPolyFftLemmas KzgModel KzgSpec PlonkModel PlonkSpec PlonkLemmas PlonkRefine
  PlonkCompile PlonkProps PlonkSoundSpec PlonkSoundProps Concrete ConcreteProps PlonkErrorProps
  OracleProver PlonkFsSpec.

Set Implicit Arguments.
Unset Strict Implicit.
Unset Printing Implicit Defensive.

Import GRing.Theory.
Local Open Scope ring_scope.

(* ------------------------------------------------------------------ *)
(* the table has an entry of its own for every seed of the code *)
Lemma le_decode_lt b : (N.to_nat (le_decode b) < 256 ^ size b)%N.
Proof.
elim: b => [|c b IH] //.
have lc : (N_of_ascii c < 256)%num by apply: N_ascii_bounded.
have -> : (256 ^ size (c :: b) = 256 * 256 ^ size b)%N by rewrite -expnS.
have -> : le_decode (c :: b) = (N_of_ascii c + 256 * le_decode b)%num by [].
move: IH lc; move: (le_decode b) (N_of_ascii c) (256 ^ size b)%N; clear; lia.
Qed.

Lemma few_union (D : nat) (Y : eqType) (P : 'I_D -> Y -> Prop) (m : nat) (ys : seq Y) : uniq ys ->
  (forall y, y \in ys -> exists d, P d y) ->
  (forall d zs, uniq zs -> (forall z, z \in zs -> P d z) -> (size zs <= m)%N) ->
  (size ys <= D * m)%N.
Proof.
move=> uy H few; have [ps E Hp] := choose_fst H.
rewrite -E size_map (count_fibers (fun x => x.1)) -[X in (_ <= X * _)%N]card_ord -sum_nat_const.
apply: leq_sum => d _; rewrite -size_filter -(size_map (fun x => x.2)); apply: (few d).
  have : uniq [seq x.2 | x <- ps] by rewrite E.
  by apply: subseq_uniq; apply: map_subseq; apply: filter_subseq.
by move=> z /mapP[x]; rewrite mem_filter => /andP[/eqP <- xi] ->; apply: Hp.
Qed.

Lemma few_first (F : finFieldType) (P : F -> Prop) (m : nat) (ys : seq (F * F)) : uniq ys ->
  (forall y, y \in ys -> P y.1) ->
  (forall xs, uniq xs -> (forall x, x \in xs -> P x) -> (size xs <= m)%N) ->
  (size ys <= m * #|F|)%N.
Proof.
move=> uy H few; apply: (few_fibers (f := snd) (g := fst)) => // [[x y] [x' y'] /= -> -> //|a bs ub Hb].
by apply: few => // b /Hb[y /H Py [_ <-]].
Qed.

Section Fs.
Variables (F : finFieldType) (E : pairing_group F) (X : plonk_env E).
Hypotheses (okE : pairing_ok E) (ok : fft_ok (pk_fft X)).
Variables (calls : seq (gate_call F)) (cc : compiled_circuit F).
Hypothesis compiled : compile (pk_fft X) (build calls) = Ret cc.
Local Notation n := (cc_size cc).
Local Notation w := (omega_of (pk_fft X) cc).
Variables (s : F) (m N D : nat).
Hypotheses (nm : (n <= m)%N) (nN : (n <= N)%N).
Hypotheses (n21 : 2%:R ^+ n != 1 :> F) (n31 : 3%:R ^+ n != 1 :> F) (n23 : 2%:R ^+ n != 3%:R ^+ n :> F)
  (nz3 : 3%:R != 0 :> F).
Variables (K : nat) (K0 : (0 < K)%N) (T : bytes -> bytes).
Hypotheses (long : digest_long T) (K64 : (256 ^ 8 <= K)%N).
Local Notation loc := (seed_entry K0 X T s).
Local Notation table := (rand_table F K).
Implicit Types (q : seq {poly F}) (t : table).

Lemma loc_inj q q' : loc q = loc q' -> transcript_seed X T s q = transcript_seed X T s q'.
Proof.
move/(congr1 val) => /=; rewrite !modn_small; first by move/N2Nat.inj.
all: apply: leq_trans K64; apply: leq_trans (le_decode_lt _) _; rewrite leq_exp2l // size_take; case: ltnP; lia.
Qed.

(* the messages of a transcript *)
Definition msgs q : messages F :=
  Messages (nth 0 q 0) (nth 0 q 1) (nth 0 q 2) (nth 0 q 3) (nth 0 q 4) (nth 0 q 5) (nth 0 q 6)
    (nth 0 q 13) (nth 0 q 14).
Definition small q : bool :=
  let M := msgs q in
  all (fun f : {poly F} => (size f <= N)%N)
    [:: ms_A M; ms_B M; ms_C M; ms_Z M; ms_Tlo M; ms_Tmid M; ms_Thi M; ms_W M; ms_Ww M].

Definition unlucky q (t : table) (d : nat) : Prop :=
  let M := msgs q in
  let ans k := t (loc (take k q)) in
  let beta := (ans 3%N).1 in let gamma := (ans 3%N).2 in let alpha := (ans 4%N).1 in
  let zeta := (ans 7%N).1 in let v := (ans 13%N).1 in
  let a := (nth 0 q 7)`_0 in let b := (nth 0 q 8)`_0 in let c := (nth 0 q 9)`_0 in
  let e1 := (nth 0 q 10)`_0 in let e2 := (nth 0 q 11)`_0 in let zw := (nth 0 q 12)`_0 in
  let y := t (loc q) in
  if size q == 3%N then bad_beta_gamma n w M calls y.1 y.2
  else if size q == 4%N then bad_alpha n w cc M beta gamma y.1
  else if size q == 7%N then bad_zeta n w cc M beta gamma alpha d.+1 y.1
  else if size q == 13%N then bad_v n w cc M beta gamma alpha zeta a b c e1 e2 zw d.+1 y.1
  else if size q == 15%N then bad_u n w cc M beta gamma alpha zeta a b c e1 e2 zw d.+1 v y.1
  else False.

(* a question with an unlucky answer; its prefixes have entries of their own *)
Definition bad_question q (t : table) : Prop :=
  [/\ small q, (forall k, (k < size q)%N -> k \in challenge_points -> loc (take k q) <> loc q)
    & exists d : 'I_D, unlucky q t d].

Lemma ans_upd q t y k : (k < size q)%N -> k \in challenge_points ->
  (forall k, (k < size q)%N -> k \in challenge_points -> loc (take k q) <> loc q) ->
  upd t (loc q) y (loc (take k q)) = t (loc (take k q)).
Proof. by move=> lk ik H; rewrite ffunE; case: eqP => // /H; case. Qed.

Lemma few_beta_gamma M (ys : seq (F * F)) : uniq ys ->
  (forall y, y \in ys -> bad_beta_gamma n w M calls y.1 y.2) ->
  (size ys <= ((3 * n) ^ 2 + 3 * n) * #|F|)%N.
Proof.
move=> uy H; have [bad szb few] := C67_few_bad_beta_gamma ok compiled M n21 n31 n23 nz3.
have [y|z1 [z2 [pe P1 Q2]]] := @split_or _ (fun y => y.1 \in bad)
    (fun y => y.1 \notin bad /\ bad_beta_gamma n w M calls y.1 y.2) ys.
  by move=> yi; have [|] := boolP (y.1 \in bad); [left|right; split=> //; apply: H].
move: uy; rewrite (perm_uniq pe) (perm_size pe) cat_uniq size_cat mulnDl => /and3P[u1 _ u2].
apply: leq_add.
  apply: leq_trans (_ : size bad * #|F| <= _)%N; last by rewrite leq_mul2r szb orbT.
  apply: (few_first (P := fun x => x \in bad)) => // xs ux Hx; exact: uniq_leq_size.
apply: (few_fibers (f := fst) (g := snd)) => // [[x y] [x' y'] /= -> -> //|a bs ub Hb].
case: bs ub Hb => [|b0 bs] // ub Hb.
have nb : a \notin bad by have [y /Q2[nb _] [<- _]] := Hb b0 (mem_head _ _).
by apply: (few a nb) => // gamma /Hb[y /Q2[_ b] [<- <-]].
Qed.

Lemma N2 : (2 <= N)%N.
Proof.
have [Ecc gt1 _ _] := compile_inv compiled; apply: leq_trans nN; rewrite Ecc.
exact: leq_trans gt1 (csize_ge calls).
Qed.

Lemma unlucky_ge x : [\/ x = ((3 * n) ^ 2 + 3 * n)%N, x = 2%N, x = (D * maxn (4 * N) (n + N + 2 * D))%N
    | x = (D * 5)%N \/ x = (D * 1)%N] -> (x * #|F| <= unlucky_values n N D * #|F|)%N.
Proof.
move=> h; apply: leq_mul => //; rewrite /unlucky_values.
by case: h => [->|->|->|[->|->]]; move: (D * maxn _ _)%N ((3 * n) ^ 2)%N; clear; lia.
Qed.

Lemma few_unlucky q t (ys : seq (F * F)) : uniq ys ->
  (forall y, y \in ys -> bad_question q (upd t (loc q) y)) ->
  (size ys <= unlucky_values n N D * #|F|)%N.
Proof.
move=> uy H; case: ys uy H => [|y0 ys0] // uy; set ys := y0 :: ys0 => H.
have [sm pre _] := H y0 (mem_head _ _).
have {}H y : y \in ys -> exists d : 'I_D, unlucky q (upd t (loc q) y) d by case/H.
have au y k : (k < size q)%N -> k \in challenge_points ->
  upd t (loc q) y (loc (take k q)) = t (loc (take k q)) by move=> h1 h2; apply: ans_upd.
move: H; rewrite /unlucky; case: eqP => [s3 H|_].
  have le : (((3 * n) ^ 2 + 3 * n) * #|F| <= unlucky_values n N D * #|F|)%N by apply: unlucky_ge; constructor 1.
  by apply: leq_trans le; apply: (@few_beta_gamma (msgs q)) => // y /H[d]; rewrite upd_same.
case: eqP => [s4 H|_].
  have le : (2 * #|F| <= unlucky_values n N D * #|F|)%N by apply: unlucky_ge; constructor 2.
  apply: leq_trans le.
  apply: (few_first uy (P := fun x => bad_alpha n w cc (msgs q) (t (loc (take 3 q))).1 (t (loc (take 3 q))).2 x)).
    by move=> y /H[d]; rewrite upd_same !au ?s4.
  by move=> xs ux Hx; apply: (C67_few_bad_alpha ux Hx).
case: eqP => [s7 H|_].
  have le : (D * maxn (4 * N) (n + N + 2 * D) * #|F| <= unlucky_values n N D * #|F|)%N by apply: unlucky_ge; constructor 3.
  apply: leq_trans le.
  rewrite -mulnA; apply: (few_union uy H) => d zs uz Hz.
  apply: (few_first uz (P := fun x => bad_zeta n w cc (msgs q) (t (loc (take 3 q))).1 (t (loc (take 3 q))).2
    (t (loc (take 4 q))).1 d.+1 x)).
    by move=> y /Hz; rewrite upd_same !au ?s7.
  move=> xs ux Hx.
  have le : (maxn (4 * N) (n + N + 2 * d.+1) <= maxn (4 * N) (n + N + 2 * D))%N.
    by rewrite geq_max leq_maxl /= leq_max leq_add2l leq_mul2l ltn_ord !orbT.
  apply: leq_trans le; apply: ltnW.
  exact: (few_bad_zeta ok (compiled_wf compiled) nN N2 sm ux Hx).
case: eqP => [s13 H|_].
  have le : (D * 5 * #|F| <= unlucky_values n N D * #|F|)%N by apply: unlucky_ge; constructor 4; left.
  apply: leq_trans le.
  rewrite -mulnA; apply: (few_union uy H) => d zs uz Hz.
  apply: (few_first uz (P := fun x => bad_v n w cc (msgs q) (t (loc (take 3 q))).1 (t (loc (take 3 q))).2
    (t (loc (take 4 q))).1 (t (loc (take 7 q))).1 (nth 0 q 7)`_0 (nth 0 q 8)`_0 (nth 0 q 9)`_0
    (nth 0 q 10)`_0 (nth 0 q 11)`_0 (nth 0 q 12)`_0 d.+1 x)).
    by move=> y /Hz; rewrite upd_same !au ?s13.
  by move=> xs ux Hx; apply: (C67_few_bad_v ux Hx).
case: eqP => [s15 H|_ H]; last by have [d []] := H y0 (mem_head _ _).
have le : (D * 1 * #|F| <= unlucky_values n N D * #|F|)%N by apply: unlucky_ge; constructor 4; right.
apply: leq_trans le.
rewrite -mulnA; apply: (few_union uy H) => d zs uz Hz.
apply: (few_first uz (P := fun x => bad_u n w cc (msgs q) (t (loc (take 3 q))).1 (t (loc (take 3 q))).2
  (t (loc (take 4 q))).1 (t (loc (take 7 q))).1 (nth 0 q 7)`_0 (nth 0 q 8)`_0 (nth 0 q 9)`_0
  (nth 0 q 10)`_0 (nth 0 q 11)`_0 (nth 0 q 12)`_0 d.+1 (t (loc (take 13 q))).1 x)).
  by move=> y /Hz; rewrite upd_same !au ?s15.
by move=> xs ux Hx; apply: (C67_few_bad_u ux Hx).
Qed.

(* the code's challenges are the table's answers to the prefixes of the transcript *)
Lemma fed_transcript M (pf : proof E) : explains s N M pf ->
  let L := [seq commitment_of E s f | f <- full_transcript M pf] in
  [/\ fed1 pf = take 3 L, fed2 pf = take 4 L, fed3 pf = take 7 L, fed4 pf = take 13 L & fed5 pf = take 15 L].
Proof.
case=> -[ea eb ec] ez [el em eh] [eW eWw] _ /=.
by rewrite /fed5 /fed4 /fed3 /fed2 /fed1 /= ea eb ec ez el em eh eW eWw /commitment_of !hornerC.
Qed.

Lemma challenge_answer t M (pf : proof E) k cs i : explains s N M pf ->
  cs = take k [seq commitment_of E s f | f <- full_transcript M pf] ->
  fs_challenge (with_table K0 X t) T cs i =
    nth 0 [:: (t (loc (take k (full_transcript M pf)))).1; (t (loc (take k (full_transcript M pf)))).2] i.
Proof. by move=> _ ->; rewrite -map_take. Qed.


Variable p : fs_prover E.
Local Notation more := (fun o : messages F * proof E => prefixes (full_transcript o.1 o.2)).

Lemma small_prefix M (pf : proof E) k : explains s N M pf -> k \in challenge_points ->
  small (take k (full_transcript M pf)).
Proof.
case=> _ _ _ _ /= /andP[h1 /andP[h2 /andP[h3 /andP[h4 /andP[h5 /andP[h6 /andP[h7 /andP[h8 /andP[h9 _]]]]]]]]].
by rewrite !inE => /or4P[/eqP->|/eqP->|/eqP->|/orP[/eqP->|/eqP->]];
  rewrite /small /= ?size_poly0 ?h1 ?h2 ?h3 ?h4 ?h5 ?h6 ?h7 ?h8 ?h9.
Qed.

Lemma forgery_unlucky t : forges K0 X T s calls cc m N D p t ->
  exists2 q, q \in asked loc (ask_more more p) t &
    bad_question q t /\
    forall q', q' \in asked loc (ask_more more p) t -> loc q' = loc q -> q' = q.
Proof.
rewrite /forges asked_more; case: (output loc p t) => M pf [[ex ltD] acc unsat nosecret dist] /=.
set L := full_transcript M pf in dist *.
have [E1 E2 E3 E4 E5] := fed_transcript ex.
have inall q : q \in asked loc p t ++ prefixes L ->
    q \in rcons (asked loc p t) L ++ flatten [seq prefixes q | q <- rcons (asked loc p t) L].
  rewrite !mem_cat mem_rcons [_ \in _ :: _]inE => /orP[-> | qi]; first by rewrite orbT.
  apply/orP; right; apply/flattenP; exists (prefixes L); last by [].
  by apply: map_f; rewrite mem_rcons mem_head.
have un q q' : q \in asked loc p t ++ prefixes L -> q' \in asked loc p t ++ prefixes L ->
    loc q' = loc q -> q' = q.
  by move=> /inall qi /inall qi' /loc_inj; apply: dist.
have pin k : k \in challenge_points -> take k L \in asked loc p t ++ prefixes L.
  move=> ki; rewrite mem_cat; apply/orP; right.
  exact: (map_f (fun k => take k L) ki).
have szk k : k \in challenge_points -> size (take k L) = k.
  by rewrite !inE => /or4P[/eqP->|/eqP->|/eqP->|/orP[/eqP->|/eqP->]].
have pack k : k \in challenge_points -> unlucky (take k L) t (pf_degree pf) ->
    exists2 q, q \in asked loc p t ++ prefixes L & bad_question q t /\
      forall q', q' \in asked loc p t ++ prefixes L -> loc q' = loc q -> q' = q.
  move=> ki un_k; exists (take k L); first exact: pin.
  split; last by move=> q' qi'; apply: un => //; apply: pin.
  split; first exact: small_prefix ex ki.
    rewrite szk // => k' lt k'i /(un _ _ (pin _ ki)); rewrite take_take ?(ltnW lt) // => h.
    by have := congr1 size (h (pin _ k'i)); rewrite !szk // => e; move: lt; rewrite e ltnn.
  by exists (Ordinal ltD).
have := C67_soundness okE (X := with_table K0 X t) ok compiled nm long ex acc.
move: nosecret; rewrite /secret_found /ch_beta /ch_gamma /ch_alpha /ch_zeta /ch_v /ch_u.
rewrite !(challenge_answer _ _ ex E1) !(challenge_answer _ _ ex E2) !(challenge_answer _ _ ex E3)
  !(challenge_answer _ _ ex E4) !(challenge_answer _ _ ex E5) -/L.
move=> nosecret.
case=> [sat|]; first by case: unsat; exact: sat.
case=> [b1|]; first by apply: (pack 3%N).
case=> [b2|]; first by apply: (pack 4%N).
case=> [b3|]; first by apply: (pack 7%N).
case=> [b4|]; first by apply: (pack 13%N) => //; rewrite /unlucky /= !coefC.
case=> [b5|]; first by apply: (pack 15%N) => //; rewrite /unlucky /= !coefC.
by move=> b6; case: nosecret.
Qed.

(* C78: a prover that asks at most Q questions forges for at most a share of
   (Q + 5) * unlucky_values / card F of all tables. *)
Theorem C78_fiat_shamir (Q : nat) (tbls : seq table) :
  (forall t, size (asked loc p t) <= Q)%N -> uniq tbls ->
  (forall t, t \in tbls -> forges K0 X T s calls cc m N D p t) ->
  (size tbls * #|F| <= (Q + 5) * unlucky_values n N D * #|{: table}|)%N.
Proof.
move=> szQ ut H.
have szQ' t : (size (asked loc (ask_more more p) t) <= Q + 5)%N.
  by rewrite asked_more size_cat leq_add // /prefixes size_map.
have := unlucky_share few_unlucky szQ' ut (fun t ti => forgery_unlucky (H t ti)).
have F0 : (0 < #|F|)%N by apply/card_gt0P; exists 0.
rewrite card_prod !mulnA [X in (_ <= X)%N]mulnAC leq_mul2r eqn0Ngt F0 /=; exact.
Qed.

End Fs.

Lemma unlucky_error n N D : (unlucky_values n N D <= error_values n N D)%N.
Proof. by rewrite /unlucky_values /error_values; move: ((3 * n) ^ 2)%N (D * maxn _ _)%N; clear; lia. Qed.

Lemma fs_share (f cnt q u tb a b : nat) : (cnt * f <= q * u * tb)%N -> (u <= 2 ^ b)%N ->
  (2 ^ (a + b) <= f)%N -> (2 ^ a * cnt <= q * tb)%N.
Proof.
move=> le lu lf; have b0 : (0 < 2 ^ b)%N by rewrite expn_gt0.
rewrite -(leq_pmul2r b0).
apply: leq_trans (_ : cnt * f <= _)%N.
  rewrite mulnAC -expnD mulnC; exact: leq_mul.
apply: leq_trans le _; rewrite mulnAC; exact: leq_mul.
Qed.

Lemma word_seeds (K : nat) : K = (2 ^ 64)%N -> (256 ^ 8 <= K)%N.
Proof. move=> ->; have -> : (256 ^ 8 = (2 ^ 8) ^ 8)%N by []. rewrite -expnM; exact: leqnn. Qed.

(* For the BLS12-381 scalar field and the code's 64-bit seeds: circuits of up to
   2^28 rows, reference strings of up to 2^32 points, any 64-bit degree field.  A
   prover that asks at most Q questions forges for at most (Q + 5) / 2^120 of the
   tables. *)
Theorem C78_bls (F : finFieldType) (E : pairing_group F) (X : plonk_env E)
  (calls : seq (gate_call F)) (cc : compiled_circuit F) (s : F) (m N K : nat) (K0 : (0 < K)%N)
  (T : bytes -> bytes) (p : fs_prover E) (Q : nat) (tbls : seq (rand_table F K)) :
  #|F| = N.to_nat bls_r -> pk_fft X = bls_fft F -> pairing_ok E -> K = (2 ^ 64)%N -> digest_long T ->
  compile (pk_fft X) (build calls) = Ret cc ->
  (cc_size cc <= 2 ^ 28)%N -> (cc_size cc <= m)%N -> (cc_size cc <= N)%N -> (N <= 2 ^ 32)%N ->
  (forall t, size (asked (seed_entry K0 X T s) p t) <= Q)%N -> uniq tbls ->
  (forall t, t \in tbls -> forges K0 X T s calls cc m N (2 ^ 64) p t) ->
  (2 ^ 120 * size tbls <= (Q + 5) * #|{: rand_table F K}|)%N.
Proof.
move=> cF Ef okE eK long comp n28 nm nN N32 szQ ut H.
have char : N.to_nat bls_r \in [char F].
  exact: (char_of_card cF C63_bls_prime).
have ok : fft_ok (pk_fft X) by rewrite Ef; exact: (C63_bls char).
have [n21 n31 n23 nz3] := coset_facts char Ef comp.
have le := C78_fiat_shamir okE ok comp nm nN n21 n31 n23 nz3 long (word_seeds eK) szQ ut H.
have err : (unlucky_values (cc_size cc) N (2 ^ 64) <= 2 ^ 131)%N.
  apply: leq_trans (unlucky_error _ _ _) _.
  exact: (@error_pow (cc_size cc) N 28 64 131 n28 (N32 : (N <= 2 ^ (4 + 28))%N) isT isT isT).
have big : (2 ^ (120 + 131) <= #|F|)%N by rewrite cF; exact: (@to_nat_pow 251%num bls_r bls_big).
exact: (fs_share le err big).
Qed.
