(* The fri transcript as a state machine over call histories (C15-C17). *)
From Coq Require Import String Ascii NArith.
Set Warnings "-notation-overridden,-ambiguous-paths".
From mathcomp Require Import all_ssreflect all_algebra.
From mathcomp Require Import zify.
From Verif Require Import Base BaseLemmas ArkPoly ArkDomain FriModel FriSpec.

Set Implicit Arguments.
Unset Strict Implicit.
Unset Printing Implicit Defensive.

Section Machine.
Variables (F : fieldType) (X : fri_env F) (H : bytes -> bytes).
Local Notation tr_step := (tr_step X H).
Local Notation tr_run := (tr_run X H).

(* hash value after digesting a list of messages *)
Definition tr_digests (t : transcript) (ms : seq F) : transcript :=
  foldl (tr_digest X H) t ms.

(* the byte strings hashed while digesting ms from t *)
Fixpoint hash_inputs (t : transcript) (ms : seq F) : seq bytes :=
  if ms is m :: ms' then
    (odflt [::] (tr_data t) ++ le_bytes 8 (tr_index t) ++ to_string X m)
    :: hash_inputs (tr_digest X H t m) ms'
  else [::].

(* what a call returns, as a function of the hash value alone *)
Definition seed_of (t : transcript) : N := le_decode (take 8 (odflt [::] (tr_data t))).
Definition out_spec (s : N) (o : tr_op F) : tr_out F :=
  match o with
  | OpDigest _ => OutUnit
  | OpChallenge => OutChallenge (rng_stream X s 0)
  | OpChallenges n => OutChallenges (mkseq (rng_stream X s) n)
  | OpChallengesUsize n => OutUsize [seq low_limb X c | c <- mkseq (rng_stream X s) n]
  end.

Definition digest_long := forall b, 8 <= size (H b).

Definition data_long (t : transcript) := 8 <= size (odflt [::] (tr_data t)).

Lemma digest_data_long t m : digest_long -> data_long (tr_digest X H t m).
Proof. by move=> Hl; exact: Hl. Qed.

Lemma tr_stepE t o : data_long t ->
  tr_step t o =
  if is_digest o then
    Ret (OutUnit, if o is OpDigest m then tr_digest X H t m else t)
  else if tr_generated t then Panic
  else Ret (out_spec (seed_of t) o, Transcript (tr_data t) (tr_index t) true).
Proof.
rewrite /data_long => dl.
case: o => [m||n|n] //=;
  rewrite /tr_challenges_usize /tr_challenges /tr_challenge /tr_seed;
  by case: (tr_generated t) => //=; rewrite ltnNge dl.
Qed.

Lemma data_long_step t o out t' : digest_long -> data_long t ->
  tr_step t o = Ret (out, t') -> data_long t'.
Proof.
move=> Hl dl; rewrite (tr_stepE _ dl).
case: o => [m||n|n] /=; first by move=> [_ <-]; exact: digest_data_long.
all: by case: (tr_generated t) => // -[_ <-].
Qed.

Lemma tr_runE_cons t o ops : data_long t ->
  tr_run t (o :: ops) =
  if is_digest o then
    omap (fun r => (OutUnit :: r.1, r.2))
      (tr_run (if o is OpDigest m then tr_digest X H t m else t) ops)
  else if tr_generated t then Panic
  else omap (fun r => (out_spec (seed_of t) o :: r.1, r.2))
      (tr_run (Transcript (tr_data t) (tr_index t) true) ops).
Proof.
move=> dl; rewrite [tr_run _ _]/= (tr_stepE _ dl).
case: o => [m||n|n] /=; first by case: (tr_run _ _) => //= -[].
all: by case: (tr_generated t) => //=; case: (tr_run _ _) => //= -[].
Qed.

Lemma starved_cons (o : tr_op F) ops : starved ops -> starved (o :: ops).
Proof. by case=> pre [c [mid [c' [post [-> a b d]]]]]; exists (o :: pre), c, mid, c', post. Qed.

(* a challenge call is reached before any digest *)
Definition early (ops : seq (tr_op F)) : Prop :=
  exists mid c' post,
    [/\ ops = mid ++ c' :: post, ~~ is_digest c' & ~~ has (@is_digest F) mid].

Lemma tr_run_panic t ops : digest_long -> data_long t ->
  tr_run t ops = Panic <-> (tr_generated t /\ early ops) \/ starved ops.
Proof.
move=> Hl; elim: ops t => [|o ops IH] t dl.
  split=> // -[[_ [[|? ?] [? [? []]]]]|[[|? ?] [? [? [? [? []]]]]]] //.
rewrite (tr_runE_cons _ _ dl).
have dl1 m : data_long (tr_digest X H t m) by exact: digest_data_long.
have omapP (A B : Type) (f : A -> B) (m : outcome A) : omap f m = Panic <-> m = Panic.
  by case: m.
case: ifP => Ho; last case Hg: (tr_generated t).
- case: o Ho => // m _; rewrite omapP IH //=; split.
  + by case=> [[//]|Hs]; right; exact: starved_cons.
  + case=> [[_ [[|a mid] [c' [post [/= [Ea E] nc nm]]]]]|].
    * by rewrite -Ea in nc.
    * by rewrite -Ea in nm.
    * case=> -[|a pre] [c [mid [c' [post [/= [Ea E] nc nc' nm]]]]].
        by rewrite -Ea in nc.
      by right; exists pre, c, mid, c', post.
- by split=> // _; left; split=> //; exists [::], o, ops; split=> //; rewrite Ho.
- rewrite omapP IH //=; split.
  + case=> [[_ [mid [c' [post [E nc nm]]]]]|Hs]; right; last exact: starved_cons.
    by exists [::], o, mid, c', post; split=> //=; rewrite ?Ho ?E.
  + case=> [[//]|[[|a pre] [c [mid [c' [post [/= [Ea E] nc nc' nm]]]]]]].
    * by left; split=> //; exists mid, c', post.
    * by right; exists pre, c, mid, c', post.
Qed.

(* state reached: hash value depends on the digested messages only *)
Lemma tr_run_data t ops outs t' : digest_long -> data_long t ->
  tr_run t ops = Ret (outs, t') ->
  tr_data t' = tr_data (tr_digests t (digested ops)) /\
  tr_index t' = tr_index (tr_digests t (digested ops)).
Proof.
move=> Hl; elim: ops t outs t' => [|o ops IH] t outs t' dl.
  by move=> [_ <-].
rewrite (tr_runE_cons _ _ dl).
have congr_dig ms t1 t2 : tr_data t1 = tr_data t2 -> tr_index t1 = tr_index t2 ->
   tr_data (tr_digests t1 ms) = tr_data (tr_digests t2 ms) /\
   tr_index (tr_digests t1 ms) = tr_index (tr_digests t2 ms).
  by elim: ms t1 t2 => [|m ms IHm] t1 t2 E1 E2 //=; apply: IHm; rewrite /= ?E1 ?E2.
case: ifP => Ho; last case Hg: (tr_generated t) => //.
- case: o Ho => // m _.
  case E: (tr_run _ _) => [[outs' t'']| |] //= [_ <-].
  by apply: IH E; exact: digest_data_long.
- case E: (tr_run _ _) => [[outs' t'']| |] //= [_ <-].
  have := IH _ _ _ _ E => /(_ dl)[-> ->].
  have -> : oapp (cons^~ (digested ops)) (digested ops)
     (match o with OpDigest m => Some m | _ => None end) = digested ops by case: o Ho {E}.
  exact: congr_dig.
Qed.

Lemma tr_run_size t ops outs t' : tr_run t ops = Ret (outs, t') -> size outs = size ops.
Proof.
elim: ops t outs t' => [|o ops IH] t outs t' /=; first by case=> <-.
case: (tr_step t o) => //= -[out t1]; case E: (tr_run t1 ops) => [[os t2]| |] //= [<- _].
by rewrite /= (IH _ _ _ E).
Qed.

Lemma last_nonnil (T : Type) (x y : T) s : 0 < size s -> last x s = last y s.
Proof. by case: s. Qed.

Lemma tr_run_last t ops o outs t' : digest_long -> data_long t ->
  tr_run t (rcons ops o) = Ret (outs, t') ->
  last OutUnit outs = out_spec (seed_of (tr_digests t (digested ops))) o.
Proof.
move=> Hl; elim: ops t outs t' => [|a ops IH] t outs t' dl.
  rewrite [rcons _ _]/= (tr_runE_cons _ _ dl) /=.
  case: ifP => Ho; first by case: o Ho => //= m _ [<- _].
  by case: (tr_generated t) => //= -[<- _].
rewrite rcons_cons (tr_runE_cons _ _ dl).
case: ifP => Ha; last case Hg: (tr_generated t) => //.
- case: a Ha => // m _; case E: (tr_run _ _) => [[outs' t'']| |] //= [<- _].
  have := IH _ _ _ _ E => /(_ (digest_data_long _ _ Hl)) <-.
  by rewrite /=; apply: last_nonnil; rewrite (tr_run_size E) size_rcons.
- case E: (tr_run _ _) => [[outs' t'']| |] //= [<- _].
  have -> : oapp (cons^~ (digested ops)) (digested ops)
     (match a with OpDigest m => Some m | _ => None end) = digested ops by case: a Ha {E}.
  have := IH _ _ _ _ E => /(_ dl).
  have -> : seed_of (tr_digests (Transcript (tr_data t) (tr_index t) true) (digested ops))
          = seed_of (tr_digests t (digested ops)).
    rewrite /seed_of; congr (le_decode (take 8 (odflt _ _))).
    by case: (digested ops).
  move=> <-.
  by rewrite /=; apply: last_nonnil; rewrite (tr_run_size E) size_rcons.
Qed.

(* C15 *)
Lemma tr_history_panics m0 ops : digest_long ->
  tr_run (tr_new X H m0) ops = Panic <-> starved ops.
Proof.
move=> Hl; rewrite tr_run_panic //; last exact: digest_data_long.
by split=> [[[]|]|] //; right.
Qed.

Lemma tr_history_function m0 ops1 ops2 o outs1 outs2 t1 t2 : digest_long ->
  digested ops1 = digested ops2 ->
  tr_run (tr_new X H m0) (rcons ops1 o) = Ret (outs1, t1) ->
  tr_run (tr_new X H m0) (rcons ops2 o) = Ret (outs2, t2) ->
  last OutUnit outs1 = last OutUnit outs2.
Proof.
move=> Hl Ed E1 E2.
have dl : data_long (tr_new X H m0) by exact: digest_data_long.
by rewrite (tr_run_last Hl dl E1) (tr_run_last Hl dl E2) Ed.
Qed.

(* C17 *)
Lemma tr_seed_only t1 t2 o :
  tr_generated t1 = tr_generated t2 ->
  data_long t1 -> data_long t2 ->
  take 8 (odflt [::] (tr_data t1)) = take 8 (odflt [::] (tr_data t2)) ->
  ~~ is_digest o ->
  omap (fun r => r.1) (tr_step t1 o) = omap (fun r => r.1) (tr_step t2 o).
Proof.
move=> Eg d1 d2 E Ho; rewrite !tr_stepE // (negbTE Ho) Eg.
by case: (tr_generated t2) => //=; rewrite /seed_of E.
Qed.

(* ---- C16 ---- *)
Variable L : nat.
Hypothesis Lpos : 0 < L.
Hypothesis Hlen : forall b, size (H b) = L.
Hypothesis str_inj : injective (to_string X).
Hypothesis str_nul : forall x, zero \notin to_string X x.

Lemma tr_digests_rcons t ms m :
  tr_digests t (rcons ms m) = tr_digest X H (tr_digests t ms) m.
Proof. by rewrite /tr_digests -cats1 foldl_cat. Qed.

Lemma hash_inputs_rcons t ms m :
  hash_inputs t (rcons ms m) =
  rcons (hash_inputs t ms)
    (odflt [::] (tr_data (tr_digests t ms)) ++ le_bytes 8 (tr_index (tr_digests t ms))
       ++ to_string X m).
Proof. by elim: ms t => [|a ms IH] t //=; rewrite IH. Qed.

Definition tr0 := Transcript None 0 true.

Lemma tr_index_digests ms : tr_index (tr_digests tr0 ms) = size ms.
Proof.
by elim/last_ind: ms => // ms m IH; rewrite tr_digests_rcons size_rcons /= IH.
Qed.

Lemma size_data ms : size (odflt [::] (tr_data (tr_digests tr0 ms))) =
  if ms is [::] then 0 else L.
Proof.
case/lastP: ms => // ms m; rewrite tr_digests_rcons /= Hlen.
by case: ms.
Qed.

Lemma le_bytes_top k n : n < 256 ^ k -> nth zero (le_bytes k.+1 n) k = zero.
Proof.
elim: k n => [|k IH] n; first by rewrite expn0 ltnS leqn0 => /eqP->.
by rewrite expnSr => lt /=; apply: IH; rewrite ltn_divLR.
Qed.

Local Opaque le_bytes.

(* first message against a later one: excluded by the index bytes *)
Lemma first_vs_later d i m m' : size d = L -> i < 256 ^ 7 ->
  le_bytes 8 0 ++ to_string X m = d ++ le_bytes 8 i ++ to_string X m' -> False.
Proof.
move=> Sd lt E.
have := congr1 (fun s => nth zero s (L + 7)) E.
rewrite nth_cat size_le_bytes (nth_cat _ d) Sd.
have -> : L + 7 < 8 = false by lia.
have -> : L + 7 < L = false by lia.
rewrite addKn nth_cat size_le_bytes (_ : 7 < 8 = true) // (le_bytes_top lt).
have Sz := congr1 size E; rewrite !size_cat !size_le_bytes Sd in Sz.
have lt2 : L + 7 - 8 < size (to_string X m) by lia.
by move=> E2; have := mem_nth zero lt2; rewrite E2 (negbTE (str_nul m)).
Qed.

Lemma tr_data_digest t m : tr_data (tr_digest X H t m) =
  Some (H (odflt [::] (tr_data t) ++ le_bytes 8 (tr_index t) ++ to_string X m)).
Proof. by []. Qed.

Lemma input_split (d1 d2 s1 s2 : bytes) i1 i2 : size d1 = size d2 ->
  d1 ++ le_bytes 8 i1 ++ s1 = d2 ++ le_bytes 8 i2 ++ s2 -> d1 = d2 /\ s1 = s2.
Proof.
move=> Es E; case: (cat_inj_size Es E) => -> E'; split=> //.
by case: (cat_inj_size _ E'); rewrite ?size_le_bytes.
Qed.

Lemma tr_binding ms1 ms2 :
  size ms1 < 256 ^ 7 -> size ms2 < 256 ^ 7 ->
  tr_data (tr_digests tr0 ms1) = tr_data (tr_digests tr0 ms2) ->
  ms1 = ms2 \/
  exists a b, [/\ a \in hash_inputs tr0 ms1, b \in hash_inputs tr0 ms2, a != b & H a = H b].
Proof.
elim/last_ind: ms1 ms2 => [|ms1 m1 IH] ms2.
  by case/lastP: ms2 => [|ms2 m2] _ _; [left|rewrite tr_digests_rcons].
case/lastP: ms2 => [|ms2 m2]; first by rewrite tr_digests_rcons.
rewrite !size_rcons !tr_digests_rcons !hash_inputs_rcons !tr_data_digest => lt1 lt2 [] EH.
set a := _ ++ _ in EH; set b := (X in _ = H X) in EH.
case: (altP (a =P b)) => [Eab|ne]; last first.
  by right; exists a, b; rewrite !mem_rcons !inE !eqxx.
have Eab' := Eab; rewrite /a /b in Eab'.
rewrite !tr_index_digests in Eab'.
have [E1 E2] : tr_data (tr_digests tr0 ms1) = tr_data (tr_digests tr0 ms2) /\ m1 = m2.
  case: ms1 ms2 lt1 lt2 Eab' {IH EH a b Eab} => [|x1 ms1] [|x2 ms2] lt1 lt2.
  - by case/input_split => // _ /str_inj ->.
  - move=> E; exfalso; apply: first_vs_later E; last exact: ltnW.
    by rewrite size_data.
  - move=> E; exfalso; apply: first_vs_later (esym E); last exact: ltnW.
    by rewrite size_data.
  - case/input_split; first by rewrite !size_data.
    move=> E1 /str_inj ->; split=> //; move: E1.
    case/lastP: (x1 :: ms1) => [|s1 y1]; case/lastP: (x2 :: ms2) => [|s2 y2];
      rewrite ?tr_digests_rcons ?tr_data_digest //=.
    + by move/(congr1 size); rewrite Hlen => E; move: Lpos; rewrite -E.
    + by move/(congr1 size); rewrite Hlen => E; move: Lpos; rewrite E.
    + by move=> ->.
have [->|[u [v [ua vb nuv Huv]]]] := IH ms2 (ltnW lt1) (ltnW lt2) E1.
  by left; rewrite E2.
by right; exists u, v; rewrite !mem_rcons !inE ua vb !orbT.
Qed.

End Machine.
