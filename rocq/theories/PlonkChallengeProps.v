(* C54: the challenge generator of the plonk crate. *)
From Coq Require Import String Ascii NArith.
Set Warnings "-notation-overridden,-ambiguous-paths".
From mathcomp Require Import all_ssreflect all_algebra.
From mathcomp Require Import zify ring.
From Verif Require Import Base BaseLemmas ArkPoly ArkDomain ArkPolyFft KzgModel KzgSpec PlonkModel PlonkSpec
  PlonkLemmas.

Set Implicit Arguments.
Unset Strict Implicit.
Unset Printing Implicit Defensive.

Section C54.
Variables (F : fieldType) (E : pairing_group F) (X : plonk_env E) (H : bytes -> bytes).
Implicit Types (ops : seq (cg_op E)) (cs : seq (G1 E)) (t : challenge_gen).
Local Notation run := (cg_run X H).
Local Notation chain := (fs_chain X H).

Definition is_draw (o : cg_op E) : bool := if o is CDraw _ then true else false.

Lemma chain_rcons cs c : chain (rcons cs c) = H (chain cs ++ pk_ser_g1 X c).
Proof. by rewrite /fs_chain foldl_rcons. Qed.

(* the generator state after feeding cs *)
Definition cstate cs (g : bool) : challenge_gen :=
  ChallengeGen (if cs is [::] then None else Some (chain cs)) g.

Lemma feed_cstate cs g c : cg_feed X H (cstate cs g) c = cstate (rcons cs c) false.
Proof.
by rewrite /cg_feed /cstate chain_rcons; case: cs => [|a cs].
Qed.

Lemma draw_cstate cs g n : digest_long H -> cg_challenges X (cstate cs g) n =
  if g || (size cs == 0) then Panic
  else Ret (mkseq (fs_challenge X H cs) n, cstate cs true).
Proof.
move=> Hl; rewrite /cg_challenges /cg_seed /=; case: g => //=.
case: cs => [|c cs] //=; rewrite ltnNge (@chain_long _ _ X _ Hl (c :: cs)) //.
Qed.

(* the last call of a history is a draw (initial value d) *)
Fixpoint last_draw (d : bool) ops : bool :=
  if ops is o :: ops' then last_draw (is_draw o) ops' else d.

Lemma run_cat t ops1 ops2 : run t (ops1 ++ ops2) =
  (r1 <- run t ops1;; r2 <- run r1.2 ops2;; Ret (r1.1 ++ r2.1, r2.2)).
Proof.
elim: ops1 t => [|[c|n] ops1 IH] t /=.
- by case: (run _ _) => [[]||].
- rewrite IH; case: (run _ ops1) => [[o1 t1]||] //=; by case: (run _ ops2) => [[]||].
- case: (cg_challenges X t n) => [[out t1]||] //=; rewrite IH.
  by case: (run t1 ops1) => [[o1 t2]||] //=; case: (run t2 ops2) => [[]||].
Qed.

Lemma fed_cons_feed c ops : cg_fed (CFeed c :: ops) = c :: cg_fed ops.
Proof. by []. Qed.

Lemma cg_fed_cat ops1 ops2 : cg_fed (ops1 ++ ops2) = cg_fed ops1 ++ cg_fed ops2.
Proof. exact: pmap_cat. Qed.

Lemma run_state cs g ops outs t : digest_long H -> run (cstate cs g) ops = Ret (outs, t) ->
  t = cstate (cs ++ cg_fed ops) (last_draw g ops) /\ size outs = size ops.
Proof.
move=> Hl; elim: ops cs g outs t => [|[c|n] ops IH] cs g outs t.
- by case=> <- <-; rewrite cats0.
- rewrite [run _ _]/= feed_cstate; case Er: (run _ ops) => [[o1 t1]||] //= [<- <-].
  by have [-> /= ->] := IH _ _ _ _ Er; rewrite cat_rcons.
rewrite [run _ _]/= draw_cstate //; case: ifP => // _; rewrite bindRet.
case Er: (run _ ops) => [[o1 t1]||] //= [<- <-].
by have [-> /= ->] := IH _ _ _ _ Er.
Qed.

Lemma run_noerr ops t m : run t ops <> Err m.
Proof.
elim: ops t => [|[c|n] ops IH] t //=.
  by have := IH (cg_feed X H t c); case: (run _ ops) => [[]||].
rewrite /cg_challenges /cg_seed; case: (cg_generated t) => //; case: (cg_data t) => //= d.
case: ifP => //= _; have := IH (ChallengeGen (Some d) true).
by case: (run _ ops) => [[]||].
Qed.

(* some draw directly follows a draw, or is first when d *)
Fixpoint hungry_from (d : bool) ops : bool :=
  if ops is o :: ops' then (d && is_draw o) || hungry_from (is_draw o) ops' else false.

Lemma run_panic cs g ops : digest_long H ->
  run (cstate cs g) ops = Panic <-> hungry_from (g || (size cs == 0)) ops.
Proof.
move=> Hl; elim: ops cs g => [|[c|n] ops IH] cs g.
- by [].
- rewrite [run _ _]/= feed_cstate [hungry_from _ _]/= andbF orFb.
  have := IH (rcons cs c) false; rewrite size_rcons => <-.
  by case: (run _ ops) => [[]||].
rewrite [run _ _]/= draw_cstate // [hungry_from _ _]/= andbT.
case: ifP => // _; rewrite bindRet orFb.
have := IH cs true; rewrite orTb => <-.
by case: (run _ ops) => [[]||].
Qed.

Lemma hungry_fromP d ops : hungry_from d ops <->
  exists pre n post, ops = pre ++ CDraw E n :: post /\
    ((pre = [::] /\ d) \/ exists pre' n', pre = rcons pre' (CDraw E n')).
Proof.
elim: ops d => [|o ops IH] d.
  by split=> // -[[|? ?] [n [post []]]].
rewrite [hungry_from _ _]/=; split.
  case/orP=> [/andP[dd]|].
    by case: o => // n _; exists [::], n, ops; split=> //; left.
  case/IH=> pre [n [post [-> C]]]; exists (o :: pre), n, post; split=> //; right.
  case: C => [[-> dr]|[pre' [n' ->]]].
    by case: o dr => // n0 _; exists [::], n0.
  by exists (o :: pre'), n'.
case=> -[|o' pre] [n [post [e C]]].
  case: e C => -> -> [[_ ->]//|[pre' [n' /(congr1 size)]]]; by rewrite size_rcons.
case: e => -> e1; apply/orP; right; apply/IH; exists pre, n, post; split=> //.
case: C => [[]//|[pre' [n' e]]].
case: pre' e => [|o2 pre'] /= [-> e].
  by left.
by right; exists pre', n'.
Qed.

(* C54: a history panics exactly when it draws twice without feeding in
   between, or draws first; it never fails otherwise. *)
Theorem C54_panics_iff ops : digest_long H ->
  run cg_default ops = Panic <-> draws_hungry ops.
Proof.
move=> Hl; have := run_panic [::] false ops Hl; rewrite orbT => ->.
rewrite hungry_fromP; split=> -[pre [n [post [e C]]]]; exists pre, n, post; split=> //.
  by case: C => [[]|]; [left|right].
by case: C => [->|]; [left|right].
Qed.

Theorem C54_no_panic_returns ops : digest_long H -> ~ draws_hungry ops ->
  exists outs t, run cg_default ops = Ret (outs, t).
Proof.
move=> Hl nh; case Er: (run cg_default ops) => [[outs t]|m|]; first by exists outs, t.
  by case: (run_noerr Er).
by case: nh; apply/C54_panics_iff.
Qed.

(* C54: the k-th value of a draw depends only on the commitments fed before. *)
Theorem C54_outputs ops outs t (i n : nat) : digest_long H ->
  run cg_default ops = Ret (outs, t) ->
  (i < size ops)%N -> nth (CDraw E 0) ops i = CDraw E n ->
  nth [::] outs i = mkseq (fs_challenge X H (cg_fed (take i ops))) n.
Proof.
move=> Hl Er lt En.
have E0 : ops = take i ops ++ CDraw E n :: drop i.+1 ops.
  by rewrite -En -drop_nth // cat_take_drop.
move: Er; rewrite {1}E0 run_cat -[cg_default]/(cstate [::] false).
case Ea: (run _ (take i ops)) => [[outs1 t1]||] //.
have [-> sz] := run_state Hl Ea; rewrite cat0s.
rewrite bindRet [_.2]/= [run _ _]/= draw_cstate //; case: ifP => // _; rewrite bindRet.
case: (run _ (drop _ _)) => [[outs2 t2]||] //; rewrite !bindRet => -[<- _].
by rewrite nth_cat sz size_takel ?(ltnW lt) // ltnn subnn.
Qed.

(* a generator made from a list of commitments draws what one fed with them in
   this order draws; made from none it panics *)
Theorem C54_from_commitments cs (n : nat) : digest_long H ->
  if cs is [::] then cg_challenges X (cg_from_commitments X H cs) n = Panic
  else exists t, cg_challenges X (cg_from_commitments X H cs) n = Ret (mkseq (fs_challenge X H cs) n, t) /\
         cg_challenges X t n = Panic.
Proof.
move=> Hl; have -> : cg_from_commitments X H cs = cstate cs false.
  by elim/last_ind: cs => // cs c IH; rewrite /cg_from_commitments foldl_rcons -/(cg_from_commitments X H cs) IH feed_cstate.
rewrite (draw_cstate _ _ _ Hl); case: cs => [|c cs] //=; exists (cstate (c :: cs) true); split=> //.
Qed.

Lemma fs_inputs_rcons d cs c :
  fs_inputs X H d (rcons cs c) =
  rcons (fs_inputs X H d cs) (foldl (fun d c => H (d ++ pk_ser_g1 X c)) d cs ++ pk_ser_g1 X c).
Proof. by elim: cs d => //= a cs IH d; rewrite IH. Qed.

(* C54: binding.  Two lists of commitments with the same digest chain are
   equal, or two of the strings hashed collide. *)
Theorem C54_binding cs cs' (dl gl : nat) :
  (forall b, size (H b) = dl) -> (forall c, size (pk_ser_g1 X c) = gl) ->
  (0 < dl)%N -> injective (pk_ser_g1 X) ->
  chain cs = chain cs' ->
  cs = cs' \/ exists x y, [/\ x \in fs_inputs X H [::] cs, y \in fs_inputs X H [::] cs',
                              x <> y & H x = H y].
Proof.
move=> Hs Hg dl0 inj; elim/last_ind: cs cs' => [|cs c IH] cs'; case/lastP: cs' => [|cs' c'].
- by left.
- by rewrite chain_rcons => /(congr1 size); rewrite Hs /= => e; rewrite -e in dl0.
- by rewrite chain_rcons => /(congr1 size); rewrite Hs /= => e; rewrite e in dl0.
rewrite !chain_rcons => e.
case: (eqVneq (chain cs ++ pk_ser_g1 X c) (chain cs' ++ pk_ser_g1 X c')) => [eq|/eqP ne]; last first.
  right; exists (chain cs ++ pk_ser_g1 X c), (chain cs' ++ pk_ser_g1 X c'); split=> //;
  by rewrite fs_inputs_rcons mem_rcons in_cons eqxx.
have esz : size (chain cs) = size (chain cs').
  by have := congr1 size eq; rewrite !size_cat !Hg => /addIn.
have /andP[/eqP e1 /eqP e2] : (chain cs == chain cs') && (pk_ser_g1 X c == pk_ser_g1 X c').
  by rewrite -eqseq_cat // eq.
case: (IH cs' e1) => [->|[x [y [hx hy nxy exy]]]]; first by left; rewrite (inj _ _ e2).
by right; exists x, y; rewrite !fs_inputs_rcons !mem_rcons !in_cons hx hy !orbT.
Qed.

End C54.
