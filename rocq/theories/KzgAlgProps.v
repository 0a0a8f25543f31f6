(* C79: KZG openings made by provers that compute from the reference string. *)
From Coq Require Import NArith.
Set Warnings "-notation-overridden,-ambiguous-paths".
From mathcomp Require Import all_ssreflect all_algebra.
From mathcomp Require Import zify ring.
From Verif Require Import Base BaseLemmas ArkPoly ArkPolyLemmas KzgModel KzgSpec KzgLemmas KzgProps
  Concrete ConcreteProps PlonkErrorProps KzgAlgSpec.

Set Implicit Arguments.
Unset Strict Implicit.
Unset Printing Implicit Defensive.

Import GRing.Theory.
Local Open Scope ring_scope.

Definition claim_gap (F : fieldType) (c : claim F) : {poly F} :=
  ('X - (cl_z c)%:P) * cl_q c - (cl_f c - (cl_y c)%:P).

Section Alg.
Variables (F : fieldType) (E : pairing_group F).
Hypothesis okE : pairing_ok E.

Lemma claim_gapE n s (c : claim F) : claim_accepted E n s c = ((claim_gap c).[s] == 0).
Proof.
rewrite /claim_accepted (C24_verify_equation okE) /commitment_of scalerA -scalerBl (scale_g1_inj okE).
rewrite /claim_gap !(hornerD, hornerN, hornerM, hornerX, hornerC) subr_eq0 //.
Qed.

Lemma claim_gap_neq0 (c : claim F) : ~~ claim_true c -> claim_gap c != 0.
Proof.
apply: contraNneq => /(congr1 (fun f : {poly F} => f.[cl_z c])) /eqP.
rewrite horner0 /claim_gap !(hornerD, hornerN, hornerM, hornerX, hornerC) subrr mul0r sub0r.
by rewrite oppr_eq0 subr_eq0.
Qed.

Lemma claim_gap_size N (c : claim F) : claim_small N c -> (size (claim_gap c) <= N.+1)%N.
Proof.
case/andP=> sf sq; apply: leq_trans (size_add _ _) _; rewrite geq_max size_opp; apply/andP; split.
  by apply: leq_trans (size_mul_leq _ _) _; rewrite size_XsubC add2n ltnS.
apply: leq_trans (size_add _ _) _; rewrite geq_max size_opp (leq_trans sf) //=.
exact: leq_trans (size_polyC_leq1 _) _.
Qed.

(* An accepted claim is true, or the prover holds a non-zero polynomial, computed
   from what it sent, with the secret as a root. *)
Theorem C79_opening n s (c : claim F) : claim_accepted E n s c ->
  (cl_f c).[cl_z c] = cl_y c \/
  exists g : {poly F}, [/\ g = ('X - (cl_z c)%:P) * cl_q c - (cl_f c - (cl_y c)%:P), g <> 0 & g.[s] = 0].
Proof.
move=> acc; have [/eqP|ne] := boolP (claim_true c); [by left|right].
exists (claim_gap c); split=> //; first by apply/eqP; apply: claim_gap_neq0.
by move: acc; rewrite claim_gapE => /eqP.
Qed.

Lemma few_secrets n N (c : claim F) (ss : seq F) : claim_small N c -> ~~ claim_true c -> uniq ss ->
  (forall s, s \in ss -> claim_accepted E n s c) -> (size ss <= N)%N.
Proof.
move=> sm fl us acc; rewrite -ltnS; apply: leq_trans (claim_gap_size sm).
apply: max_poly_roots (claim_gap_neq0 fl) _ us.
by apply/allP => s /acc; rewrite claim_gapE /root.
Qed.

End Alg.

Section Error.
Variables (F : finFieldType) (E : pairing_group F).
Hypothesis okE : pairing_ok E.

(* A prover commits to f, is given the point z and answers with a witness and a
   value: the share of points and secrets for which a false value is accepted is at
   most N / card F. *)
Theorem C79_opening_error (n N : nat) (f : {poly F}) (q : F -> {poly F}) (y : F -> F) :
  (size f <= N)%N -> (forall z, size (q z) <= N)%N ->
  (#|[set zs : F * F | claim_accepted E n zs.2 (Claim f (q zs.1) (y zs.1) zs.1) &&
                       (f.[zs.1] != y zs.1)]| <= N * #|F|)%N.
Proof.
move=> sf sq; rewrite cardE; set xs := enum _.
have ux : uniq xs by apply: enum_uniq.
apply: (few_fibers (f := fst) (g := snd) ux) => [[a b] [a' b'] /= -> -> //|z ss us Hs].
case: ss us Hs => [|s0 ss] // us Hs.
have H s : s \in s0 :: ss -> claim_accepted E n s (Claim f (q z) (y z) z) && (f.[z] != y z).
  by move/Hs=> [[a b]]; rewrite mem_enum inE /= => h [<- <-].
have /andP[_ ne] := H s0 (mem_head _ _).
apply: (few_secrets okE (n := n) (c := Claim f (q z) (y z) z)) => //; last by move=> s /H/andP[].
by rewrite /claim_small /= sf sq.
Qed.

Variables (p : nat) (B : nat).
Hypotheses (char : p \in [char F]) (Bp : (B <= p)%N).

Lemma natr_inj (a b : 'I_B) : (a : nat)%:R = (b : nat)%:R :> F -> a = b.
Proof.
have main (i j : nat) : (i <= j)%N -> (j < B)%N -> i%:R = j%:R :> F -> i = j.
  move=> le lt /eqP; rewrite eq_sym -subr_eq0 -natrB // -(dvdn_charf char) => /dvdnP[k e].
  case: k e => [|k] e; first by lia.
  have : (p <= j - i)%N by rewrite e mulSn leq_addr.
  lia.
move=> e; apply: val_inj; case: (leqP a b) => h; first exact: (main a b h (ltn_ord b) e).
by apply/esym; exact: (main b a (ltnW h) (ltn_ord a) (esym e)).
Qed.

(* A batch with a false claim: the share of draws and secrets for which it is
   accepted is at most 1/B + N / card F. *)
Theorem C79_batch_error (n N : nat) (cs : seq (claim F)) :
  all (claim_small N) cs -> ~~ all (@claim_true F) cs ->
  (B * #|[set ds : {ffun 'I_(size cs) -> 'I_B} * F | batch_accepted E n ds.2 cs (drawn F ds.1)]|
   <= (#|F| + B * N) * B ^ size cs)%N.
Proof.
set m := size cs => sm; rewrite -has_predC => /(has_nthP (Claim 0 0 0 0))[i im fl].
set c := nth _ cs i in fl.
rewrite cardE; set xs := enum _.
have ux : uniq xs by apply: enum_uniq.
have acc x : x \in xs -> batch_accepted E n x.2 cs (drawn F x.1) by rewrite mem_enum inE.
move: xs ux acc => xs ux acc.
have smc : claim_small N c by exact: (all_nthP (Claim 0 0 0 0) sm i im).
have [x xi|ys [zs [pe Py Qz]]] := @split_or _ (fun x => claim_accepted E n x.2 c)
   (fun x => ~~ claim_accepted E n x.2 c /\ batch_accepted E n x.2 cs (drawn F x.1)) xs.
  by have [|] := boolP (claim_accepted E n x.2 c); [left|right; split=> //; apply: acc].
move: ux; rewrite (perm_uniq pe) (perm_size pe) cat_uniq size_cat => /and3P[uy _ uz].
rewrite mulnDr mulnDl addnC; apply: leq_add.
  (* the claim i is refused: at most one value of its draw *)
  pose change (x : {ffun 'I_m -> 'I_B} * F * 'I_B) : {ffun 'I_m -> 'I_B} * F :=
    ([ffun j => if j == Ordinal im then x.2 else x.1.1 j], x.1.2).
  have inj : {in [seq (z, b) | z <- zs, b <- enum 'I_B] &, injective change}.
    move=> [[d s] b] [[d' s'] b'] /allpairsP[[z1 b1] /= [z1i _ [e1 e2]]] /allpairsP[[z2 b2] /= [z2i _ [e3 e4]]].
    subst z1 z2 b1 b2; rewrite /change /= => -[ed es]; subst s'.
    have eb : b = b' by have := congr1 (fun f : {ffun 'I_m -> 'I_B} => f (Ordinal im)) ed; rewrite !ffunE eqxx.
    subst b'; congr (_, _, _).
    have off j : j != Ordinal im -> d j = d' j.
      by move=> ne; have := congr1 (fun f : {ffun 'I_m -> 'I_B} => f j) ed; rewrite !ffunE (negbTE ne).
    apply/ffunP => j; have [->|/off //] := eqVneq j (Ordinal im).
    have [nc a1] := Qz _ z1i; have [_ a2] := Qz _ z2i; rewrite /= in nc a1 a2.
    have ret r : batch_accepted E n s cs r -> batch_verify (srs_new_from_secret E s n)
        [seq commitment_of E s (cl_f c) | c <- cs] [seq cl_z c | c <- cs]
        [seq (commitment_of E s (cl_q c), cl_y c) | c <- cs] r = Ret true.
      by rewrite /batch_accepted; case: batch_verify => // -[].
    have drawnE (d0 : {ffun 'I_m -> 'I_B}) (k : 'I_m) : drawn F d0 k = (d0 k : nat)%:R.
      by rewrite /drawn valK.
    apply: natr_inj; rewrite -!drawnE /=.
    apply: (C26_batch_sound okE (i := i) _ _ _ (ret _ a1) (ret _ a2)).
    - by rewrite size_map.
    - rewrite /batch_item_ok !(nth_map (Claim 0 0 0 0)) //.
    - move=> k ne; rewrite /drawn; case: insubP => // u _ uk.
      by rewrite off //; apply: contraNneq ne => e; rewrite -uk e.
  have : uniq [seq change x | x <- [seq (z, b) | z <- zs, b <- enum 'I_B]].
    rewrite map_inj_in_uniq //; apply: allpairs_uniq; rewrite ?enum_uniq //.
    by move=> [? ?] [? ?].
  move/card_uniqP => e; have := max_card (mem [seq change x | x <- [seq (z, b) | z <- zs, b <- enum 'I_B]]).
  rewrite e size_map size_allpairs -cardE card_ord card_prod card_ffun !card_ord.
  by rewrite [(B ^ m * _)%N]mulnC [(size zs * _)%N]mulnC.
(* the claim i is accepted: few secrets *)
rewrite -mulnA leq_mul2l; apply/orP; right.
have := few_fibers (k := N) (f := fst) (g := snd) uy.
rewrite card_ffun !card_ord; apply; first by move=> [a b] [a' b'] /= -> ->.
move=> d ss us Hs; apply: (few_secrets okE smc fl us) => s /Hs[x /Py acc_c [_ <-]].
exact: acc_c.
Qed.

End Error.

Lemma batch_share (f cnt N Bm a b c : nat) : (2 ^ a * cnt <= (f + 2 ^ a * N) * Bm)%N ->
  (N <= 2 ^ b)%N -> (a = c.+1)%N -> (2 ^ (a + b) <= f)%N -> (2 ^ c * cnt <= f * Bm)%N.
Proof.
move=> le lN ea lf; rewrite -(@leq_pmul2l 2) // mulnA -expnS -ea.
apply: leq_trans le _; rewrite mulnA; apply: leq_mul => //.
rewrite mul2n -addnn leq_add2l; apply: leq_trans lf; rewrite expnD; exact: leq_mul.
Qed.

Lemma pow_le_trans (x y a b : nat) : x = (2 ^ a)%N -> (2 ^ (a + b) <= y)%N -> (x <= y)%N.
Proof. by move=> ->; apply: leq_trans; rewrite leq_exp2l // leq_addr. Qed.
Lemma bls_160 : (2 ^ 160 <= bls_r)%num.
Proof. by vm_compute. Qed.

(* The BLS12-381 scalar field and 128-bit draws, reference strings of up to 2^32
   points: a batch with a false claim is accepted for at most a 2^-127th of the
   draws and secrets. *)
Theorem C79_bls_batch (F : finFieldType) (E : pairing_group F) (n N : nat) (cs : seq (claim F)) (B : nat) :
  #|F| = N.to_nat bls_r -> pairing_ok E -> B = (2 ^ 128)%N -> (N <= 2 ^ 32)%N ->
  all (claim_small N) cs -> ~~ all (@claim_true F) cs ->
  (2 ^ 127 * #|[set ds : {ffun 'I_(size cs) -> 'I_B} * F | batch_accepted E n ds.2 cs (drawn F ds.1)]|
   <= #|F| * B ^ size cs)%N.
Proof.
move=> cF okE eB N32 sm fl.
have char : N.to_nat bls_r \in [char F].
  exact: (char_of_card cF C63_bls_prime).
have big : (2 ^ (128 + 32) <= #|F|)%N by rewrite cF; exact: (@to_nat_pow 160%num bls_r bls_160).
have Bp : (B <= N.to_nat bls_r)%N.
  rewrite -cF; exact: (pow_le_trans eB big).
have := C79_batch_error okE char Bp n sm fl; move: #|[set _ | _]| => cnt le.
rewrite {1}eB {1}eB in le.
exact: (@batch_share #|F| cnt N (B ^ size cs) 128 32 127 le N32 erefl big).
Qed.
