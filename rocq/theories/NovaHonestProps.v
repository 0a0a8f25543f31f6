(* C87: how often folding and the IVC driver fail for honest inputs. *)
From Coq Require Import String Ascii NArith.
Set Warnings "-notation-overridden,-ambiguous-paths".
From mathcomp Require Import all_ssreflect all_algebra.
From mathcomp Require Import zify ring.
From Verif Require Import Base BaseLemmas ArkPoly ArkPolyLemmas KzgModel KzgSpec KzgLemmas
  KzgProps NovaModel NovaSpec NovaHonestSpec NovaLemmas NovaTranscript NovaProps NovaIvcProps
  NovaDriverProps OracleProver NovaErrorSpec.
From Verif Require PlonkErrorProps PlonkFsProps SeedProps HonestErrorProps Concrete.

Set Implicit Arguments.
Unset Strict Implicit.
Unset Printing Implicit Defensive.

Import GRing.Theory.
Local Open Scope ring_scope.

Section Few.
Variable F : fieldType.
Implicit Types (a b c r : F) (rs : seq F).

Lemma zero_vecP (v : seq F) i : zero_vec v -> v`_i = 0.
Proof.
move=> /allP z; case: (ltnP i (size v)) => l; last by rewrite nth_default.
by apply/eqP/z/mem_nth.
Qed.

Lemma nonzero_entry (v : seq F) : ~~ zero_vec v -> exists2 i, (i < size v)%N & v`_i != 0.
Proof. by case/allPn=> x /(nthP 0)[i li <-] ne; exists i. Qed.

Lemma few_quadratic a b c rs : (a, b, c) != (0, 0, 0) -> uniq rs ->
  (forall r, r \in rs -> a + r * b + r ^+ 2 * c = 0) -> (size rs <= 2)%N.
Proof.
move=> ne us H; pose p : {poly F} := a%:P + b%:P * 'X + c%:P * 'X ^+ 2.
have pE k : p`_k = if k is k'.+1 then if k' is k''.+1 then if k'' is _.+1 then 0 else c else b else a.
  rewrite /p !coefD !coefCM coefC coefX coefXn.
  by case: k => [|[|[|k]]] /=; rewrite ?mulr0 ?mulr1 ?addr0 ?add0r.
apply: (@HonestErrorProps.few_roots F p 2 rs) => //.
- apply: contraNneq ne => e; apply/eqP.
  by have := pE 0%N; have := pE 1%N; have := pE 2%N; rewrite e !coef0 => <- <- <-.
- by apply/leq_sizeP => -[|[|[|k]]] // _; rewrite pE.
move=> r /H e; rewrite /p !hornerD !hornerCM hornerXn hornerX hornerC -[RHS]e.
by rewrite [b * r]mulrC [c * _]mulrC.
Qed.

Lemma few_linear a b rs : (a, b) != (0, 0) -> uniq rs ->
  (forall r, r \in rs -> a + r * b = 0) -> (size rs <= 1)%N.
Proof.
move=> ne; case: rs => [|r [|r' rs]] // /=; rewrite inE negb_or => /andP[/andP[nr _] _] H.
have e := H r (mem_head _ _); have e' : a + r' * b = 0 by apply: H; rewrite !inE eqxx orbT.
have : (r - r') * b = 0 by rewrite mulrBl -[RHS](subrr 0) -{1}e -e'; ring.
move/eqP; rewrite mulf_eq0 subr_eq0 (negbTE nr) /= => /eqP b0.
by move: e ne; rewrite b0 mulr0 addr0 => ->; rewrite eqxx.
Qed.

Lemma few_either (P Q : F -> Prop) (m m' : nat) rs : uniq rs -> (forall r, r \in rs -> P r \/ Q r) ->
  (forall zs, uniq zs -> (forall z, z \in zs -> P z) -> (size zs <= m)%N) ->
  (forall zs, uniq zs -> (forall z, z \in zs -> Q z) -> (size zs <= m')%N) ->
  (size rs <= m + m')%N.
Proof.
move=> ur H fP fQ.
suff [ps [qs [pr up uq HP HQ]]] : exists ps qs, [/\ size rs = (size ps + size qs)%N, uniq ps /\ {subset ps <= rs},
    uniq qs /\ {subset qs <= rs}, forall z, z \in ps -> P z & forall z, z \in qs -> Q z].
  by rewrite pr leq_add //; [apply: fP (proj1 up) HP|apply: fQ (proj1 uq) HQ].
elim: rs ur H => [|r rs IH] /= => [_ _|/andP[nr ur] H]; first by exists [::], [::].
have [|ps [qs [sz [up sp] [uq sq] HP HQ]]] := IH ur; first by move=> z zi; apply: H; rewrite inE zi orbT.
have inr (zs : seq F) : {subset zs <= rs} -> r \notin zs by move=> sub; apply: contra nr; exact: sub.
have subr (zs : seq F) : {subset zs <= rs} -> {subset zs <= r :: rs}.
  by move=> sub z /sub zi; rewrite inE zi orbT.
have subc (zs : seq F) : {subset zs <= rs} -> {subset r :: zs <= r :: rs}.
  by move=> sub z; rewrite !inE => /predU1P[->|/sub ->]; rewrite ?eqxx ?orbT.
case: (H r (mem_head _ _)) => h.
  exists (r :: ps), qs; split=> //=; rewrite ?sz ?inr //; [by split=> //; exact: subc|by split=> //; exact: subr|].
  by move=> z; rewrite inE => /predU1P[->|/HP].
exists ps, (r :: qs); split=> //=; rewrite ?sz ?addnS ?inr //; [by split=> //; exact: subr|by split=> //; exact: subc|].
by move=> z; rewrite inE => /predU1P[->|/HQ].
Qed.

End Few.

Lemma foldl_counter (A Y : Type) (g : nat -> A -> Y -> A) (a : A) (rs : seq Y) r :
  (foldl (fun (kp : nat * A) y => (kp.1.+1, g kp.1.+1 kp.2 y)) (0%N, a) (rcons rs r)).2 =
  g (size rs).+1 (foldl (fun (kp : nat * A) y => (kp.1.+1, g kp.1.+1 kp.2 y)) (0%N, a) rs).2 r.
Proof.
rewrite foldl_rcons /=.
suff -> : (foldl (fun (kp : nat * A) y => (kp.1.+1, g kp.1.+1 kp.2 y)) (0%N, a) rs).1 = size rs by [].
suff gen k p : (foldl (fun (kp : nat * A) y => (kp.1.+1, g kp.1.+1 kp.2 y)) (k, p) rs).1 = (k + size rs)%N.
  by rewrite gen.
by elim: rs k p => [|x rs IH] k p /=; rewrite ?addn0 // IH addSnnS.
Qed.

(* The driver panics exactly when one of the running pairs it makes has a zero vector. *)
Section Exact.
Variables (F B : fieldType) (E : pairing_group F) (X : nova_env B E).
Hypothesis ok : pairing_ok E.
Hypothesis Hl : forall b, (8 <= size (digest X b))%N.
Variables (s : F) (n : nat) (R : r1cs F) (f : B -> fwitness F -> B) (z0 : B).
Variables (wits xs : seq (seq F)) (wl : nat).
Local Notation S := (srs_new_from_secret E s n).
Local Notation rows := (size (matrix_a R)).
Hypothesis lt0 : (0 < size wits)%N.
Hypothesis sx : size xs = size wits.
Hypothesis hw : all (fun w => size w == wl) wits.
Hypothesis fit : (wl <= n + 3)%N.
Hypothesis rwl : (rows <= wl)%N.
Hypothesis rab : (rows <= size (matrix_b R))%N.
Hypothesis rac : rows = size (matrix_c R).
Hypothesis cnt : forall k, (0 < k < size wits)%N -> k%:R <> 0 :> B.
Local Notation pair := (running_pair X s R f z0 wits xs).
Local Notation zero_pair k := (zero_vec (fw_e (pair k).1) || zero_vec (fw_w (pair k).1)).

Lemma loop_exact m : (m < size wits)%N ->
  if has (fun k => zero_pair k.+1) (iota 0 m)
  then driver_loop X S R (zip (us E s wits xs) (ws R wits)) (driver_states f z0 (ws R wits)) 0 m
         (driver_init f (tw F wl) (ti E xs) z0) = Panic
  else exists ds, driver_loop X S R (zip (us E s wits xs) (ws R wits)) (driver_states f z0 (ws R wits)) 0 m
         (driver_init f (tw F wl) (ti E xs) z0) = Ret ds /\ after_check X s R f z0 wits xs wl m ds.
Proof.
elim: m => [|m IH] lt.
  have [ds [Ec J]] := init_check X s n f z0 xs hw rwl lt; exists ds; split=> //.
  by rewrite [driver_loop _ _ _ _ _ _ _ _]/= (index_uws E s R sx) // bindRet Ec.
have -> : iota 0 m.+1 = rcons (iota 0 m) m by rewrite -addn1 iotaD cats1.
rewrite has_rcons driver_loopS orbC; case: ifP (IH (ltnW lt)) => [_ -> //|_ [ds [-> J]]].
have [ds2 [W [U [T [r [t' [Ea Ep EW]]]]]]] := tail_step ok Hl sx hw fit rwl rab rac cnt J lt.
rewrite bindRet add0n -EW orFb; case: ifP => [zz [-> _]|_ [ds' [-> J']]] //.
by exists ds'.
Qed.

Theorem C87_driver_panics_iff :
  (driver_main X S R f z0 wits xs = Panic <->
   exists2 k, (0 < k < size wits)%N & zero_pair k) /\
  (driver_main X S R f z0 wits xs <> Panic -> exists ds, driver_main X S R f z0 wits xs = Ret ds).
Proof.
rewrite (@driver_mainE F B E X s n R f z0 wits xs wl) //.
have ltp : ((size wits).-1 < size wits)%N by rewrite ltn_predL.
have := loop_exact ltp; case: hasP => [[k ki zk] P|no [ds [Er J]]].
  split=> //; split=> // _; exists k.+1 => //.
  by move: ki; rewrite mem_iota add0n => /andP[_ lk]; rewrite ltn0Sn -(prednK lt0) ltnS.
split; last by exists ds.
split=> [|[k /andP[k0 kl] zk]]; first by rewrite Er.
case: no; exists k.-1; last by rewrite prednK.
by rewrite mem_iota add0n /=; case: (k) k0 kl => // k' _; rewrite -(prednK lt0) ltnS.
Qed.

End Exact.

(* ------------------------------------------------------------------ *)
(* Counting: the generator is a random table. *)
Section Table.
Variables (F : finFieldType) (B : fieldType) (E : pairing_group F) (X : nova_env B E).
Variables (K : nat) (K0 : (0 < K)%N).
Hypothesis ok : pairing_ok E.
Hypothesis Hl : forall b, (8 <= size (digest X b))%N.
Local Notation table := (fr_table F K).
Local Notation Xt t := (with_fr_table K0 X t).
Implicit Types (t : table).

Section Ivc.
Variables (s : F) (n : nat) (R : r1cs F) (f : B -> fwitness F -> B) (z0 : B).
Variables (wits xs : seq (seq F)) (wl : nat).
Local Notation rows := (size (matrix_a R)).
Local Notation fold_k := (step_fold X s R f z0 wits).
Local Notation cross := (step_cross X s R f z0 wits).
Local Notation start := (first_pair E wits xs).
Local Notation messages := (step_messages X s R f z0 wits).
Implicit Types (rs : seq F).

(* the running pair after folds with the challenges rs *)
Definition pair_of rs : fwitness F * finstance E :=
  (foldl (fun (kp : nat * (fwitness F * finstance E)) r => (kp.1.+1, fold_k kp.1.+1 kp.2 r)) (0%N, start) rs).2.

Lemma pair_of_rcons rs r : pair_of (rcons rs r) = fold_k (size rs).+1 (pair_of rs) r.
Proof. exact: foldl_counter. Qed.

Definition loc rs : 'I_K :=
  fr_entry K0 (le_decode (take 8 (hash_chain X (messages (size rs).+1 (pair_of rs))))).

Fixpoint asker (m : nat) rs : oracle_prover (seq F) F unit :=
  if m is m'.+1 then Ask rs (fun r => asker m' (rcons rs r)) else Answer tt.

(* the challenges of the run with table t *)
Fixpoint chs t (k : nat) : seq F :=
  if k is k'.+1 then rcons (chs t k') (t (loc (chs t k'))) else [::].

Lemma size_chs t k : size (chs t k) = k.
Proof. by elim: k => //= k IH; rewrite size_rcons IH. Qed.

Lemma chs_inj t k k' : chs t k = chs t k' -> k = k'.
Proof. by move/(congr1 size); rewrite !size_chs. Qed.

Lemma pair_chs t k : running_pair (Xt t) s R f z0 wits xs k = pair_of (chs t k).
Proof.
elim: k => [|k IH] //; rewrite [chs t k.+1]/= pair_of_rcons size_chs /loc size_chs -IH.
by [].
Qed.

Lemma seed_chs t k : fr_entry K0 (step_seed (Xt t) s R f z0 wits xs k) = loc (chs t k).
Proof. by rewrite /step_seed pair_chs /loc size_chs. Qed.

Lemma asked_chs t m : asked loc (asker m [::]) t = [seq chs t k | k <- iota 0 m].
Proof.
suff gen j : asked loc (asker m (chs t j)) t = [seq chs t k | k <- iota j m] by exact: (gen 0%N).
by elim: m j => //= m IH j; rewrite -IH.
Qed.

(* fold size rs + 1 has something to fold, and makes a zero vector *)
Definition bad_step rs t : Prop :=
  let k := (size rs).+1 in
  [/\ ~~ zero_vec (step_wit wits k),
      [\/ ~~ zero_vec (cross k (pair_of rs)) | exists2 i, (i < rows)%N & (fw_e (pair_of rs).1)`_i != 0]
    & let p := fold_k k (pair_of rs) (t (loc rs)) in zero_vec (fw_e p.1) || zero_vec (fw_w p.1)].

Lemma few_bad_step rs t (ys : seq F) : uniq ys -> (forall y, y \in ys -> bad_step rs (upd t (loc rs) y)) ->
  (size ys <= 3)%N.
Proof.
move=> uy Hy; case Ey: ys => [|y0 ys'] //; rewrite -Ey; set k := (size rs).+1.
have [nw ne _] : bad_step rs (upd t (loc rs) y0) by apply: Hy; rewrite Ey mem_head.
have {}Hy y : y \in ys -> zero_vec (fw_e (fold_k k (pair_of rs) y).1) \/ zero_vec (fw_w (fold_k k (pair_of rs) y).1).
  by case/Hy=> _ _; rewrite upd_same => /orP.
have -> : (3 = 2 + 1)%N by [].
apply: (few_either uy Hy) => zs uz Hz.
  have [i li nei] : exists2 i, (i < rows)%N & (0 : F, (cross k (pair_of rs))`_i, (fw_e (pair_of rs).1)`_i) != (0, 0, 0).
    case: ne => [/nonzero_entry[i]|[i li ne]].
      by rewrite size_mkseq => li ne; exists i => //; rewrite !xpair_eqE (negbTE ne) andbF.
    by exists i => //; rewrite !xpair_eqE (negbTE ne) andbF.
  apply: (few_quadratic nei uz) => r /Hz/(@zero_vecP _ _ i).
  by rewrite add0r nth_mkseq.
have [i li nei] := nonzero_entry nw.
apply: (@few_linear F (step_wit wits k)`_i (fw_w (pair_of rs).1)`_i zs) => //.
  by rewrite xpair_eqE (negbTE nei).
by move=> r /Hz/(@zero_vecP _ _ i); rewrite nth_mkseq.
Qed.

Hypothesis lt0 : (0 < size wits)%N.
Hypothesis sx : size xs = size wits.
Hypothesis hw : all (fun w => size w == wl) wits.
Hypothesis fit : (wl <= n + 3)%N.
Hypothesis rwl : (rows <= wl)%N.
Hypothesis rab : (rows <= size (matrix_b R))%N.
Hypothesis rac : rows = size (matrix_c R).
Hypothesis cnt : forall k, (0 < k < size wits)%N -> k%:R <> 0 :> B.

(* If the witness vectors of the later steps are not zero and the first step has a
   non-zero cross term with the trivial pair, then the driver - proving, running the
   augmented circuit and verifying at each step - fails for at most a share
   3 (number of folds) / card F of the tables, counting the runs that draw their
   folding challenges from different seeds. *)
Theorem C87_ivc_honest_failures (tbls : seq table) :
  (256 ^ 8 <= K)%N ->
  (forall k, (0 < k < size wits)%N -> ~~ zero_vec (nth [::] wits k)) ->
  ~~ zero_vec (cross 1 start) -> uniq tbls ->
  (forall t, t \in tbls ->
     step_seeds_differ (Xt t) s R f z0 wits xs (size wits).-1 /\
     ~ (exists ds, driver_main (Xt t) (srs_new_from_secret E s n) R f z0 wits xs = Ret ds)) ->
  (size tbls * #|F| <= (size wits).-1 * 3 * #|{: table}|)%N.
Proof.
move=> K64 nzw nzc ut Ht; set m := (size wits).-1.
have szm t : (size (asked loc (asker m [::]) t) <= m)%N by rewrite asked_chs size_map size_iota.
have := unlucky_share few_bad_step szm ut; apply=> t ti.
have [dif nf] := Ht t ti.
have Hlt b : (8 <= size (digest (Xt t) b))%N by exact: Hl.
have [pan ret] := @C87_driver_panics_iff F B E (Xt t) ok Hlt s n R f z0 wits xs wl lt0 sx hw fit rwl rab rac cnt.
have : driver_main (Xt t) (srs_new_from_secret E s n) R f z0 wits xs = Panic.
  case Eg: (driver_main _ _ _ _ _ _ _) => [ds|e|] //; first by case: nf; exists ds.
  by have [|ds] := ret; rewrite Eg.
pose zp k := zero_vec (fw_e (pair_of (chs t k)).1) || zero_vec (fw_w (pair_of (chs t k)).1).
case/pan=> k1 /andP[k10 k1l]; rewrite pair_chs -/(zp k1) => z1.
have [k [km zk nk]] : exists k, [/\ (k < m)%N, zp k.+1 & (0 < k)%N -> ~~ zp k].
  have ex : exists k, (0 < k)%N && zp k by exists k1; rewrite k10.
  case: (ex_minnP ex) => k0 /andP[k00 z0'] mn; exists k0.-1; rewrite prednK //; split=> //.
    have le : (k0 <= k1)%N by apply: mn; rewrite k10.
    by rewrite /m -ltnS prednK //; apply: leq_ltn_trans le k1l.
  move=> kp; apply/negP => zk; have := mn k0.-1; rewrite kp zk => /(_ isT).
  by rewrite leqNgt prednK // leqnn.
have loc_inj i j : (i < m)%N -> (j < m)%N -> loc (chs t i) = loc (chs t j) -> i = j.
  move=> li lj; rewrite -!seed_chs => /(HonestErrorProps.entry_inj K64) e; apply/eqP.
  rewrite -(nth_uniq 0%num _ _ dif) ?size_map ?size_iota //.
  by rewrite !(nth_map 0%N) ?size_iota // !nth_iota // !add0n; apply/eqP.
exists (chs t k); first by rewrite asked_chs; apply/mapP; exists k; rewrite ?mem_iota ?add0n.
split.
  have kw : (0 < k.+1 < size wits)%N by rewrite /= -(prednK lt0) ltnS.
  rewrite /bad_step size_chs; split; first exact: nzw kw.
    case: (posnP k) => [k0|kp]; first by left; rewrite k0.
    right; have /norP[/nonzero_entry[i li ne] _] := nk kp.
    exists i => //; move: li; case: (k) kp => // k' _; rewrite [chs _ _]/= pair_of_rcons size_mkseq; exact.
  by move: zk; rewrite /zp [chs t k.+1]/= pair_of_rcons size_chs.
move=> q'; rewrite asked_chs => /mapP[j]; rewrite mem_iota add0n => /andP[_ lj] -> /loc_inj -> //.
Qed.

End Ivc.

(* One fold of committed pairs, satisfied or not: the two prover calls and the
   verifier fail for at most a share 3 / card F of the tables, unless both witness
   vectors, or both error vectors and the cross term, are zero. *)
Theorem C87_fold_honest_failures (s : F) (n : nat) (R : r1cs F) (fw1 fw2 : fwitness F)
  (fi1 fi2 : finstance E) (tr : ntranscript) (tbls : seq table) :
  let S := srs_new_from_secret E s n in
  let rows := size (matrix_a R) in
  (rows <= size (matrix_b R))%N -> rows = size (matrix_c R) -> (rows <= n + 3)%N ->
  size (fw_w fw1) = size (fw_w fw2) -> (size (fw_w fw1) <= n + 4)%N ->
  size (fw_e fw1) = rows -> size (fw_e fw2) = rows ->
  commits s fw1 fi1 -> commits s fw2 fi2 ->
  ~~ (zero_vec (fw_w fw1) && zero_vec (fw_w fw2)) ->
  ~~ [&& zero_vec (fw_e fw1), zero_vec (fw_e fw2)
       & zero_vec (cross_term R (fi_u fi1) (fi_u fi2) (assignment fw1 fi1) (assignment fw2 fi2))] ->
  uniq tbls ->
  (forall t, t \in tbls ->
     ~ (exists fw fi com_t r tr1 pf tr2,
          [/\ nifs_prover (Xt t) R fw1 fw2 fi1 fi2 S tr = Ret (fw, fi, com_t, r, tr1),
              nifs_prove (Xt t) r fw fi S tr1 = Ret (pf, tr2)
            & nifs_verify (Xt t) pf fi1 fi2 (nifs_verifier r fi1 fi2 com_t) com_t S tr = Ret tr2])) ->
  (size tbls * #|F| <= 3 * #|{: table}|)%N.
Proof.
move=> S rows rab rac fr ew fw e1 e2 c1 c2 nw ne ut Ht.
set tv := cross_term _ _ _ _ _ in ne.
have st : size tv = rows by rewrite size_mkseq.
pose seed : N := le_decode (take 8 (digest X (ntd (nt_feed_scalar X (nt_feed_scalar X tr (fi_u fi1)) (fi_u fi2)) ++
  ser_g1 X (commitment_of E s (Poly tv))))).
pose bad (q : unit_eqType) (t : table) : Prop :=
  let W := fold_witness (t (fr_entry K0 seed)) fw1 fw2 tv in zero_vec (fw_e W) \/ zero_vec (fw_w W).
pose P1 : oracle_prover unit_eqType F unit := Ask tt (fun=> Answer tt).
have few q (t : table) ys : uniq ys -> (forall y, y \in ys -> bad q (upd t (fr_entry K0 seed) y)) -> (size ys <= 3)%N.
  move=> uy Hy; have -> : (3 = 2 + 1)%N by [].
  have {}Hy y : y \in ys -> zero_vec (fw_e (fold_witness y fw1 fw2 tv)) \/ zero_vec (fw_w (fold_witness y fw1 fw2 tv)).
    by move/Hy; rewrite /bad upd_same.
  apply: (few_either uy Hy) => zs uz Hz.
    have [i nei] : exists i, ((fw_e fw1)`_i, tv`_i, (fw_e fw2)`_i) != (0, 0, 0).
      case/nandP: ne => [/nonzero_entry[i _ nz]|/nandP[] /nonzero_entry[i _ nz]]; exists i;
        by rewrite !xpair_eqE (negbTE nz) ?andbF.
    apply: (few_quadratic nei uz) => r /Hz/(@zero_vecP _ _ i).
    by rewrite fold_witness_e !nth_comb ?size_comb ?e1 ?e2 ?st ?minnn // expr2.
  have [i nei] : exists i, ((fw_w fw1)`_i, (fw_w fw2)`_i) != (0, 0).
    by case/nandP: nw => /nonzero_entry[i _ nz]; exists i; rewrite xpair_eqE (negbTE nz) ?andbF.
  apply: (few_linear nei uz) => r /Hz/(@zero_vecP _ _ i).
  by rewrite fold_witness_w nth_comb.
have := @unlucky_share _ _ _ _ (fun=> fr_entry K0 seed) P1 bad 3 few 1 tbls (fun=> leqnn 1) ut.
rewrite mul1n; apply=> t ti; exists tt; first exact: mem_head.
split; last by case.
apply/orP; apply: contra_notT (Ht t ti) => /norP[nze nzw].
set r := t (fr_entry K0 seed) in nze nzw.
have Hlt b : (8 <= size (digest (Xt t) b))%N by exact: Hl.
have Et : compute_t R (fi_u fi1) (fi_u fi2) (assignment fw1 fi1) (assignment fw2 fi2) = Ret tv.
  by rewrite compute_tE rab -rac eqxx.
have [tr1 Ep] : exists tr1, nifs_prover (Xt t) R fw1 fw2 fi1 fi2 S tr =
   Ret (fold_witness r fw1 fw2 tv, fold_instance r fi1 fi2 (commitment_of E s (Poly tv)), commitment_of E s (Poly tv), r, tr1).
  rewrite /nifs_prover -/(assignment fw1 fi1) -/(assignment fw2 fi2) Et bindRet.
  rewrite C19_commit_vector (leq_trans (size_Poly _)) ?st // bindRet.
  by rewrite challenge_absorb // bindRet; eexists.
set fwr := fold_witness r fw1 fw2 tv in Ep nze nzw; set fir := fold_instance r fi1 fi2 _ in Ep.
have [pf [tr2 Epf]] : exists pf tr2, nifs_prove (Xt t) r fwr fir S tr1 = Ret (pf, tr2).
  rewrite /nifs_prove challenge_absorb // bindRet.
  rewrite !open_vectorE -!pis_zeroP /pis_zero -!/(zero_vec _) (negbTE nze) (negbTE nzw).
  have sw : (size (Poly (fw_w fwr)) <= n + 4)%N.
    by rewrite (leq_trans (size_Poly _)) // fold_witness_w size_comb -ew minnn.
  have se : (size (Poly (fw_e fwr)) <= n + 4)%N.
    rewrite (leq_trans (size_Poly _)) // fold_witness_e !size_comb e1 e2 st !minnn.
    by apply: leq_trans fr _; rewrite leq_add2l.
  by rewrite sw se /=; do 2 eexists.
exists fwr, fir, (commitment_of E s (Poly tv)), r, tr1, pf, tr2; split=> //.
by have [] := @C33_nifs_complete F B E (Xt t) ok R fi1 fi2 fw1 fw2 s n tr fwr fir _ r tr1 pf tr2 ew e1 e2 c1 c2 Ep Epf.
Qed.

End Table.

(* BLS12-381 and 64-bit seeds: at most 2^30 steps fail for one in 2^219 tables. *)
Lemma three_steps (m e : nat) : (m <= 2 ^ e)%N -> (m * 3 <= 2 ^ (e + 2))%N.
Proof. by move=> le; rewrite expnD; apply: leq_mul. Qed.

Theorem C87_ivc_bls (F : finFieldType) (B : fieldType) (E : pairing_group F) (X : nova_env B E) (K : nat)
  (K0 : (0 < K)%N) (s : F) (n : nat) (R : r1cs F) (f : B -> fwitness F -> B) (z0 : B)
  (wits xs : seq (seq F)) (wl : nat) (tbls : seq (fr_table F K)) :
  #|F| = N.to_nat Concrete.bls_r -> pairing_ok E -> (forall b, (8 <= size (digest X b))%N) ->
  K = (2 ^ 64)%N ->
  (0 < size wits)%N -> ((size wits).-1 <= 2 ^ 30)%N -> size xs = size wits ->
  all (fun w => size w == wl) wits -> (wl <= n + 3)%N -> (size (matrix_a R) <= wl)%N ->
  (size (matrix_a R) <= size (matrix_b R))%N -> size (matrix_a R) = size (matrix_c R) ->
  (forall k, (0 < k < size wits)%N -> k%:R <> 0 :> B) ->
  (forall k, (0 < k < size wits)%N -> ~~ zero_vec (nth [::] wits k)) ->
  ~~ zero_vec (step_cross X s R f z0 wits 1 (first_pair E wits xs)) -> uniq tbls ->
  (forall t, t \in tbls ->
     step_seeds_differ (with_fr_table K0 X t) s R f z0 wits xs (size wits).-1 /\
     ~ (exists ds, driver_main (with_fr_table K0 X t) (srs_new_from_secret E s n) R f z0 wits xs = Ret ds)) ->
  (2 ^ 219 * size tbls <= #|{: fr_table F K}|)%N.
Proof.
move=> cF ok long eK w0 wm sx hw fit rwl rab rac cnt nzw nzc ut Ht.
have le := C87_ivc_honest_failures ok long w0 sx hw fit rwl rab rac cnt (PlonkFsProps.word_seeds eK) nzw nzc ut Ht.
have big : (2 ^ (219 + 32) <= #|F|)%N.
  rewrite cF; exact: (@PlonkErrorProps.to_nat_pow 251%num Concrete.bls_r PlonkErrorProps.bls_big).
have := @PlonkFsProps.fs_share #|F| (size tbls) 1 _ #|{: fr_table F K}| 219 32 _ (@three_steps _ 30 wm) big.
rewrite !mul1n; apply; exact: le.
Qed.
