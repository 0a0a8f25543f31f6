(* The gate list and position map of the parser model: positions recorded for a
   label are exactly its occurrences, and generating the circuit sends every
   occurrence to the next one, cyclically. *)
From Coq Require Import String Ascii NArith ZArith.
Set Warnings "-notation-overridden,-ambiguous-paths".
From mathcomp Require Import all_ssreflect all_algebra.
From mathcomp Require Import zify.
From Verif Require Import Base BaseLemmas PlonkModel PlonkSpec ParserModel ParserSpec ParserStrings.

Set Implicit Arguments.
Unset Strict Implicit.
Unset Printing Implicit Defensive.

Section Positions.
Variable V : eqType.
Implicit Types (gl : seq (pgate V)) (g : pgate V) (m : pos_map) (st : pstate V).

(* total lookup *)
Definition pm_getd m k := odflt [::] (pm_get m k).

Lemma pm_get_set m k v k' : pm_get (pm_set m k v) k' = if k == k' then Some v else pm_get m k'.
Proof.
elim: m => [|[k0 v0] m IH] //=; case: eqP => [->|ne] /=; first by case: eqP.
by rewrite IH; case: (k0 =P k') => [e|//]; case: eqP => // e'; case: ne; rewrite e e'.
Qed.

Lemma pm_getd_set m k v k' : pm_getd (pm_set m k v) k' = if k == k' then v else pm_getd m k'.
Proof. by rewrite /pm_getd pm_get_set; case: eqP. Qed.

Lemma pm_getd_push w i m s k :
  pm_getd (push_position w i m s) k = pm_getd m k ++ (if s == k then [:: (w, i)] else [::]).
Proof.
rewrite /push_position; case E: (pm_get m s) => [v|]; rewrite pm_getd_set;
  case: eqP => [<-|_]; rewrite ?cats0 //; rewrite /pm_getd E //= cats1 //.
Qed.

Lemma pm_popE m k : pm_pop m k =
  if pm_getd m k is x :: v then Ret (last x v, pm_set m k (belast x v)) else Panic.
Proof. by rewrite /pm_pop /pm_getd; case: pm_get. Qed.

Lemma pm_getd_turn m k : pm_getd (turn_map m) k = turn (pm_getd m k).
Proof.
by rewrite /pm_getd; elim: m => [|[k0 v0] m IH] //=; case: eqP.
Qed.

(* ------------------------------------------------------------------ *)
(* slots row by row, and their labels *)
Definition gwire g (l : nat) : pwire V := nth (pg_bottom g) [:: pg_left g; pg_right g] l.
Definition rowslots (n : nat) : seq slot := flatten [seq [:: (0, i); (1, i); (2, i)] | i <- iota 0 n].
Definition label gl (x : slot) : bytes :=
  if ohead (drop x.2 gl) is Some g then (gwire g x.1).1 else [::].
Definition occ gl (k : bytes) : seq slot := [seq x <- rowslots (size gl) | label gl x == k].

Lemma rowslotsS n : rowslots n.+1 = rowslots n ++ [:: (0, n); (1, n); (2, n)].
Proof. by rewrite /rowslots -[n.+1]addn1 iotaD map_cat flatten_cat add0n. Qed.

Lemma mem_rowslots n (x : slot) : (x \in rowslots n) = (x.1 < 3) && (x.2 < n).
Proof.
elim: n => [|n IH]; first by rewrite /= andbF.
rewrite rowslotsS mem_cat IH !inE; case: x {IH} => l i; rewrite !xpair_eqE /= [(i < n.+1)%N]ltnS [(i <= n)%N]leq_eqVlt.
by case: l => [|[|[|l]]] //=; rewrite ?orbF // orbC.
Qed.

Lemma uniq_rowslots n : uniq (rowslots n).
Proof.
elim: n => // n IH; rewrite rowslotsS cat_uniq IH /=.
by rewrite !mem_rowslots /= ltnn.
Qed.

Lemma perm_rowslots n : perm_eq (rowslots n) (slots n).
Proof.
apply: uniq_perm; first exact: uniq_rowslots.
  by apply: allpairs_uniq; rewrite ?iota_uniq // => -[? ?] [? ?].
move=> x; rewrite mem_rowslots; apply/idP/allpairsP => [h|[[l i] [/= h1 h2 ->]]].
  case: x h => l i /andP[h1 h2]; exists (l, i); rewrite !mem_iota; split=> //.
have h3 : (l < 3)%N by case/or4P: h1 => // /eqP ->.
by move: h2; rewrite mem_iota add0n /= h3 => ->.
Qed.

Lemma ohead_drop_nth (A : Type) (d : A) s i : i < size s -> ohead (drop i s) = Some (nth d s i).
Proof. by move=> h; rewrite (drop_nth d h). Qed.

Lemma label_rcons gl g x : x.2 < size gl -> label (rcons gl g) x = label gl x.
Proof.
by move=> h; rewrite /label (ohead_drop_nth g) ?size_rcons 1?ltnW // nth_rcons h (ohead_drop_nth g).
Qed.

Lemma label_last gl g l : label (rcons gl g) (l, size gl) = (gwire g l).1.
Proof. by rewrite /label (ohead_drop_nth g) ?size_rcons //= nth_rcons ltnn eqxx. Qed.

Lemma occ_rcons gl g k : occ (rcons gl g) k =
  occ gl k ++ [seq x <- [:: (0, size gl); (1, size gl); (2, size gl)] | (gwire g x.1).1 == k].
Proof.
rewrite /occ size_rcons rowslotsS filter_cat; congr (_ ++ _).
  by apply: eq_in_filter => x; rewrite mem_rowslots => /andP[_ h]; rewrite label_rcons.
by rewrite /= !label_last.
Qed.

(* ------------------------------------------------------------------ *)
(* invariant of the construction *)
Definition recorded st : Prop :=
  ps_set st = ps_list st /\ forall k, pm_getd (ps_pos st) k = occ (ps_list st) k.

Lemma recorded0 : recorded (pstate0 V).
Proof. by []. Qed.

Lemma emit_recorded st g : recorded st -> recorded (emit st g).
Proof.
case: st => gl gs m [/= -> rec]; rewrite /emit /=; case: ifP => // _; split=> //= k.
rewrite !pm_getd_push rec occ_rcons /= -!catA; congr (_ ++ _).
by case: (_ == k); case: (_ == k); case: (_ == k).
Qed.

(* ------------------------------------------------------------------ *)
(* popping: after the slots `done` have been handled *)
Definition stage gl (done : seq slot) m : Prop :=
  forall k, pm_getd m k = rev (drop (count (fun x => label gl x == k) done) (rot 1 (occ gl k))).

Lemma stage0 gl m : (forall k, pm_getd m k = occ gl k) -> stage gl [::] (turn_map m).
Proof.
move=> H k; rewrite pm_getd_turn H /turn /= drop0.
by rewrite -rev_rot.
Qed.

Definition target gl (x : slot) : slot := next (occ gl (label gl x)) x.

Lemma stage_pop gl done x rest m : rowslots (size gl) = done ++ x :: rest -> stage gl done m ->
  exists2 m', pm_pop m (label gl x) = Ret (target gl x, m') & stage gl (rcons done x) m'.
Proof.
move=> E st; rewrite pm_popE.
set k := label gl x.
have Eocc : occ gl k = [seq y <- done | label gl y == k] ++ x :: [seq y <- rest | label gl y == k].
  by rewrite /occ E filter_cat /= eqxx.
have sc : size [seq y <- done | label gl y == k] = count (fun y => label gl y == k) done.
  by rewrite size_filter.
have lt : count (fun y => label gl y == k) done < size (occ gl k).
  by rewrite Eocc size_cat sc /= -addSnnS leq_addr.
have Ed := drop_nth x (s := rot 1 (occ gl k)); rewrite size_rot in Ed.
have Et : nth x (rot 1 (occ gl k)) (count (fun y => label gl y == k) done) = target gl x.
  have uo : uniq (occ gl k) by rewrite filter_uniq ?uniq_rowslots.
  have xo : x \in occ gl k by rewrite Eocc mem_cat inE eqxx orbT.
  have ix : index x (occ gl k) = count (fun y => label gl y == k) done.
    rewrite Eocc index_cat -sc; case: ifP => [xin|_]; last by rewrite /= eqxx addn0.
    by move: uo; rewrite Eocc cat_uniq => /and3P[_ /hasPn /(_ x)]; rewrite inE eqxx /= xin => /(_ isT).
  rewrite /target -/k next_nth xo -ix; case Eo: (occ gl k) xo => [|y s] // _.
  rewrite rot1_cons nth_rcons.
  case: ltngtP => h.
  - by apply: set_nth_default.
  - by move: lt; rewrite Eo -ix Eo /= ltnS leqNgt h.
  - by rewrite nth_default // h.
rewrite (st k).
have -> : drop (count (fun y => label gl y == k) done) (rot 1 (occ gl k)) =
   target gl x :: drop (count (fun y => label gl y == k) done).+1 (rot 1 (occ gl k)).
  by rewrite Ed // Et.
set d := drop _.+1 _; rewrite rev_cons; case Er: (rev d) => [|y s] /=.
  exists (pm_set m k [::]) => // k'; rewrite pm_getd_set -cats1 count_cat /= addn0.
  rewrite -/k; case: eqP => [<-|ne]; first by rewrite addn1 -/d Er.
  by rewrite (st k') addn0.
rewrite last_rcons belast_rcons.
exists (pm_set m k (y :: s)) => // k'; rewrite pm_getd_set -cats1 count_cat /= addn0.
rewrite -/k; case: eqP => [<-|ne]; first by rewrite addn1 -/d Er.
by rewrite (st k') addn0.
Qed.

Lemma mem_occ gl x : x \in rowslots (size gl) -> x \in occ gl (label gl x).
Proof. by move=> h; rewrite mem_filter eqxx. Qed.

Lemma uniq_occ gl k : uniq (occ gl k).
Proof. by rewrite filter_uniq ?uniq_rowslots. Qed.

Lemma target_occ gl x : x \in rowslots (size gl) -> target gl x \in occ gl (label gl x).
Proof. by move=> h; rewrite mem_next mem_occ. Qed.

Lemma target_mem gl x : x \in rowslots (size gl) -> target gl x \in rowslots (size gl).
Proof. by move/target_occ; rewrite mem_filter => /andP[]. Qed.

Lemma label_target gl x : x \in rowslots (size gl) -> label gl (target gl x) = label gl x.
Proof. by move/target_occ; rewrite mem_filter => /andP[/eqP]. Qed.

Lemma target_inj gl : {in rowslots (size gl) &, injective (target gl)}.
Proof.
move=> x y xs ys e.
have El : label gl x = label gl y by rewrite -(label_target xs) e label_target.
have := congr1 (prev (occ gl (label gl x))) e; rewrite /target {2}El El.
by rewrite !(prev_next (uniq_occ _ _)).
Qed.

(* slots with the same label are on one cycle *)
Lemma target_connects gl x y : x \in rowslots (size gl) -> y \in rowslots (size gl) ->
  label gl x = label gl y -> exists k, iter k (target gl) x = y.
Proof.
move=> xs ys El; set o := occ gl (label gl x).
have xo : x \in o by apply: mem_occ.
have yo : y \in o by rewrite /o El mem_occ.
have uo : uniq o := uniq_occ _ _.
have [i s Er] := rot_to xo; have us : uniq (x :: s) by rewrite -Er rot_uniq.
have Et z : z \in x :: s -> target gl z = next (x :: s) z.
  rewrite -Er mem_rot => zo; rewrite next_rot // /target.
  by move: zo; rewrite mem_filter => /andP[/eqP -> _].
have: y \in x :: s by rewrite -Er mem_rot.
move=> ys'; exists (index y (x :: s)).
have: index y (x :: s) < size (x :: s) by rewrite index_mem.
rewrite -[RHS](nth_index x ys'); elim: (index y _) => [|k IH] // lt.
rewrite iterS IH; last exact: ltnW.
have lt' : k < size (x :: s) by apply: ltnW.
have mk : nth x (x :: s) k \in x :: s by apply: mem_nth.
rewrite (Et _ mk) next_nth mk (index_uniq x lt' us).
by apply: set_nth_default.
Qed.

End Positions.

(* ------------------------------------------------------------------ *)
(* the generated circuit *)
Section GenCircuit.
Variable F : fieldType.
Implicit Types (gl : seq (pgate F)) (g : pgate F).

Definition gate_call_of gl (i : nat) g : gate_call F :=
  GateCall (pg_type g) (target gl (0, i), (pg_left g).2) (target gl (1, i), (pg_right g).2)
    (target gl (2, i), (pg_bottom g).2) 0%R.
Definition calls_from gl (i : nat) (gs : seq (pgate F)) : seq (gate_call F) :=
  [seq gate_call_of gl p.1 p.2 | p <- zip (iota i (size gs)) gs].
Definition calls_of gl := calls_from gl 0 gl.

Lemma gen_gates gl done rest c m : gl = done ++ rest -> stage gl (rowslots (size done)) m ->
  exists m', ofold (@gen_gate F) (c, m) rest =
    Ret (foldl (@apply_call F) c (calls_from gl (size done) rest), m').
Proof.
elim: rest done c m => [|g rest IH] done c m E st; first by exists m.
have Eg : drop (size done) gl = g :: rest by rewrite E drop_size_cat.
have lb l : label gl (l, size done) = (gwire g l).1 by rewrite /label /= Eg.
have Er : rowslots (size gl) = rowslots (size done) ++
    [:: (0, size done); (1, size done); (2, size done)] ++ drop (3 * (size done).+1) (rowslots (size gl)).
  have Es n : size (rowslots n) = 3 * n.
    by elim: n => // n IHn; rewrite rowslotsS size_cat IHn /= mulnS addnC.
  rewrite catA -rowslotsS -{1}(cat_take_drop (3 * (size done).+1) (rowslots (size gl))); congr (_ ++ _).
  have [k ->] : exists k, size gl = (size done).+1 + k.
    by exists (size rest); rewrite E size_cat addSnnS.
  elim: k => [|k IHk]; first by rewrite addn0 take_oversize // Es.
  by rewrite addnS rowslotsS takel_cat // Es leq_mul2l leq_addr.
have [m1 E1 st1] := stage_pop (x := (0, size done)) Er st.
have [m2 E2 st2] := stage_pop (x := (1, size done)) (etrans Er (esym (cat_rcons _ _ _))) st1.
have [m3 E3 st3] := stage_pop (x := (2, size done)) (etrans Er (etrans (esym (cat_rcons _ _ _)) (esym (cat_rcons _ _ _)))) st2.
have st3' : stage gl (rowslots (size (rcons done g))) m3.
  by move: st3; rewrite size_rcons rowslotsS -!cats1 -!catA.
have E' : gl = rcons done g ++ rest by rewrite cat_rcons.
rewrite !lb /= in E1 E2 E3.
have pr (p : nat * nat) (v : F) : (p.1, p.2, v) = (p, v) by case: p.
have [m' Em] := IH (rcons done g) (apply_call c (gate_call_of gl (size done) g)) m3 E' st3'.
exists m'; rewrite /= /gen_gate /= E1 /= E2 /= E3 /= !pr; move: Em; rewrite size_rcons.
by rewrite {1}/apply_call /gate_call_of /=; case: (pg_type g).
Qed.

Lemma gen_circuitE gl m : (forall k, pm_getd m k = occ gl k) ->
  gen_circuit gl m = Ret (build (calls_of gl)).
Proof.
move=> H; rewrite /gen_circuit.
by have [m' ->] := gen_gates (done := [::]) (circuit_default F) erefl (stage0 H).
Qed.

Lemma size_calls_of gl : size (calls_of gl) = size gl.
Proof. by rewrite size_map size_zip size_iota minnn. Qed.

Lemma nth_calls_of gl c g i : i < size gl -> nth c (calls_of gl) i = gate_call_of gl i (nth g gl i).
Proof.
move=> h; rewrite (nth_map (0, g)) ?size_zip ?size_iota ?minnn //.
by rewrite nth_zip ?size_iota // nth_iota.
Qed.

(* the value on a wire of the gate list *)
Definition gvalue gl (x : slot) : F :=
  if ohead (drop x.2 gl) is Some g then (gwire g x.1).2 else 0%R.

Lemma slot_calls gl (x : slot) : x.1 < 3 -> 
  slot_pos (calls_of gl) x = (if x.2 < size gl then target gl x else x) /\
  slot_value (calls_of gl) x = gvalue gl x.
Proof.
case: x => l i /= l3; rewrite /slot_pos /slot_value /gvalue /=; case: ltnP => h; last first.
  by rewrite !drop_oversize ?size_calls_of.
have gi : exists g, true by case: gl h => // g gl _; exists g.
case: gi => g0 _; have c0 := gate_call_of gl 0 g0.
rewrite (ohead_drop_nth c0) ?size_calls_of // (ohead_drop_nth g0) // (nth_calls_of c0 g0) //.
by case: l l3 => [|[|[|]]].
Qed.

End GenCircuit.
