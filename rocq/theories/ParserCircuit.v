(* The circuit the parser model returns. *)
From Coq Require Import String Ascii NArith ZArith.
Set Warnings "-notation-overridden,-ambiguous-paths".
From mathcomp Require Import all_ssreflect all_algebra.
From mathcomp Require Import zify ring.
From Verif Require Import Base BaseLemmas ArkPoly ArkDomain ArkPolyFft KzgModel PlonkModel PlonkSpec PlonkLemmas
  PlonkCompile ParserModel ParserSpec.
From Verif Require Import ParserStrings ParserGates ParserParse ParserSound ParserAst.

Set Implicit Arguments.
Unset Strict Implicit.
Unset Printing Implicit Defensive.

Import GRing.Theory.
Local Open Scope ring_scope.

Local Arguments parse_i32 : simpl never.

(* ------------------------------------------------------------------ *)
(* any gate list *)
Section AnyList.
Variable F : fieldType.
Implicit Types (gl : seq (pgate F)) (g : pgate F).

Lemma slotsP n x : x \in slots n -> (x.1 < 3)%N /\ (x.2 < n)%N.
Proof. by rewrite mem_slots => /andP. Qed.

Lemma uniq_slots n : uniq (slots n).
Proof. by rewrite -(perm_uniq (perm_rowslots n)) uniq_rowslots. Qed.

Lemma slot_pos_in gl n x : (size gl <= n)%N -> x \in slots n -> slot_pos (calls_of gl) x \in slots n.
Proof.
move=> le xs; have [x3 xn] := slotsP xs.
rewrite (slot_calls gl x3).1; case: ifP => h; last by rewrite mem_slots x3.
have : target gl x \in rowslots (size gl) by apply: target_mem; rewrite mem_rowslots x3.
by rewrite mem_rowslots mem_slots => /andP[-> /leq_trans]; apply.
Qed.

Lemma positions_permute_calls gl n : (size gl <= n)%N -> positions_permute (calls_of gl) n.
Proof.
move=> le; have inj : {in slots n &, injective (slot_pos (calls_of gl))}.
  move=> x y /slotsP[x3 xn] /slotsP[y3 yn].
  rewrite (slot_calls gl x3).1 (slot_calls gl y3).1.
  have hin z : (z.1 < 3)%N -> (z.2 < size gl)%N -> z \in rowslots (size gl) by rewrite mem_rowslots => -> ->.
  have ht z : (z.1 < 3)%N -> (z.2 < size gl)%N -> ((target gl z).2 < size gl)%N.
    by move=> h1 h2; have := target_mem (hin z h1 h2); rewrite mem_rowslots => /andP[].
  case: ifP => hx; case: ifP => hy // e.
  - by apply: (target_inj (gl := gl)) e; apply: hin.
  - by have := ht x x3 hx; rewrite e hy.
  - by have := ht y y3 hy; rewrite -e hx.
have um : uniq [seq slot_pos (calls_of gl) x | x <- slots n] by rewrite map_inj_in_uniq ?uniq_slots.
apply: uniq_perm; rewrite ?uniq_slots //.
have sub : {subset [seq slot_pos (calls_of gl) x | x <- slots n] <= slots n}.
  by move=> y /mapP[x xs ->]; apply: slot_pos_in.
by have [] := uniq_min_size um sub (eq_leq (esym (size_map _ _))).
Qed.

(* the label of a slot, also outside the list *)
Lemma label_pos gl n x : (size gl <= n)%N -> x \in slots n ->
  label gl (slot_pos (calls_of gl) x) = label gl x.
Proof.
move=> le /slotsP[x3 xn]; rewrite (slot_calls gl x3).1; case: ifP => // h.
by rewrite label_target // mem_rowslots x3.
Qed.

Lemma iter_pos gl k x : x \in rowslots (size gl) ->
  iter k (slot_pos (calls_of gl)) x = iter k (target gl) x /\ iter k (target gl) x \in rowslots (size gl).
Proof.
move=> xs; elim: k => // k [E h]; rewrite !iterS E; split; last exact: target_mem.
move: (h); rewrite mem_rowslots => /andP[h1 h2]; by rewrite (slot_calls gl h1).1 h2.
Qed.

(* values follow labels *)
Lemma copies_of_labels gl n (v : bytes -> F) :
  (forall x, x \in rowslots (size gl) -> gvalue gl x = v (label gl x)) ->
  (size gl <= n)%N -> copies_hold (calls_of gl) n.
Proof.
move=> H le; apply/allP => x xs; have [x3 xn] := slotsP xs.
have ys := slot_pos_in le xs; have [y3 yn] := slotsP ys.
rewrite (slot_calls gl x3).2 (slot_calls gl y3).2 (slot_calls gl x3).1.
case: ifP => h //; have xr : x \in rowslots (size gl) by rewrite mem_rowslots x3.
by rewrite !H ?target_mem // label_target.
Qed.

Lemma gvalueE gl g0 x : (x.2 < size gl)%N -> gvalue gl x = (gwire (nth g0 gl x.2) x.1).2.
Proof. by move=> h; rewrite /gvalue (ohead_drop_nth g0). Qed.
Lemma labelE gl g0 x : (x.2 < size gl)%N -> label gl x = (gwire (nth g0 gl x.2) x.1).1.
Proof. by move=> h; rewrite /label (ohead_drop_nth g0). Qed.

End AnyList.

(* ------------------------------------------------------------------ *)
(* shape of what parse returns, for any input and any witnesses *)
Section Shape.
Variables (F : fieldType) (W : bytes -> option F).

Lemma parse_noerr_string s m : parse_string s <> Err m.
Proof.
have pp r l b k : push_power r l b <> Err k by rewrite /push_power; case: parse_i32.
rewrite /parse_string.
have H : forall (cs : bytes) st k, ofold norm_step st cs <> Err k.
  elim=> [|c cs IH] st k //=.
  case E: (norm_step st c) => [st'|k'|] //=; move: E.
  rewrite /norm_step; case: st => r l b f; case: ifP => // _; case: ifP => // _.
  case: is_digit => /=; first by case: f.
  by case: f => //=; case: ifP => // _; case E: push_power => [|k''|] //= _; case: (pp _ _ _ _ E).
case E: (ofold _ _ _) => [st|k|] //=; last by case: (H _ _ _ E).
by case: ifP => // _; apply: pp.
Qed.

Lemma prepare_not_two n : (forall l r, [/\ n = l ++ "="%char :: r, "="%char \notin l & "="%char \notin r] -> False) ->
  prepare_gen_circuit W n = Panic.
Proof.
move=> H; rewrite /prepare_gen_circuit; case E: (split_on "="%char n) => [|l [|r [|]]] //.
by case: (H l r); apply/split_two.
Qed.

(* parse on a text that normalises to l = r *)
Definition parsed_gates (l r : bytes) : seq (pgate F) :=
  let t := head [::] (lhs_terms l) in
  let p := psum W (pstate0 F) t (behead (lhs_terms l)) in
  let q := pterm W p.2 ("-"%char :: r) in
  rcons (ps_list q.2) (PGate p.1 q.1 (p.1.1 ++ str "+" ++ q.1.1, 0) Addition).

Lemma parseE input l r : parse_string input = Ret (l ++ "="%char :: r) ->
  "="%char \notin l -> "="%char \notin r ->
  parse W input =
  if all (known_term W) (lhs_terms l) && known_term W ("-"%char :: r)
  then Ret (build (calls_of (parsed_gates l r))) else Panic.
Proof.
move=> E nl nr; rewrite /parse E /=; have := prepareE W nl nr; lazy zeta; rewrite -/(parsed_gates l r).
by case: (_ && _) => [[m -> H]|-> //]; rewrite /= gen_circuitE.
Qed.

Lemma parse_inv input c : parse W input = Ret c ->
  exists l r, [/\ parse_string input = Ret (l ++ "="%char :: r), "="%char \notin l, "="%char \notin r
    & all (known_term W) (lhs_terms l) && known_term W ("-"%char :: r)]
    /\ c = build (calls_of (parsed_gates l r)).
Proof.
case E: (parse_string input) => [n|k|]; rewrite /parse E //= => H.
have [[l [r [En nl nr]]]|no] : (exists l r, [/\ n = l ++ "="%char :: r, "="%char \notin l & "="%char \notin r])
    \/ (forall l r, [/\ n = l ++ "="%char :: r, "="%char \notin l & "="%char \notin r] -> False).
- case Es: (split_on "="%char n) => [|l [|r [|]]];
    try (by right=> l' r' /split_two h; rewrite h in Es).
  by left; exists l, r; apply/split_two.
- have := parseE (input := input) (l := l) (r := r); rewrite E En => /(_ erefl nl nr).
  rewrite /parse E /= -En H; case: ifP => // h [->]; exists l, r; rewrite En.
  by split.
by rewrite prepare_not_two in H.
Qed.

Lemma parse_noerr input m : parse W input <> Err m.
Proof.
case E: (parse_string input) => [n|k|]; rewrite /parse E //=; last by case: (parse_noerr_string E).
case Es: (split_on "="%char n) => [|l [|r [|]]]; try by rewrite /prepare_gen_circuit Es.
have /split_two[En nl nr] := Es.
have := parseE (input := input) (l := l) (r := r); rewrite E En => /(_ erefl nl nr).
by rewrite /parse E /= En => ->; case: ifP.
Qed.

End Shape.

(* ------------------------------------------------------------------ *)
(* labels of the gate list, for any input *)
Section Labels.
Variables (F : fieldType) (W : bytes -> option F).
Implicit Types (g : pgate F) (st : pstate F).

Definition glabels g : bool :=
  match pg_type g with
  | Addition => (pg_bottom g).1 == (pg_left g).1 ++ "+"%char :: (pg_right g).1
  | Multiplication => (pg_bottom g).1 == (pg_left g).1 ++ "*"%char :: (pg_right g).1
  | Constant => ((pg_right g).1 == str "0") && ((pg_bottom g).1 == (pg_left g).1 ++ str "+0")
  end.
Definition slabels st : bool := all glabels (ps_list st).

Lemma emit_labels st g : glabels g -> slabels st -> slabels (emit st g).
Proof. by move=> hg h; rewrite /emit; case: ifP => //= _; rewrite /slabels all_rcons hg. Qed.

Lemma cstate_labels st f : slabels st -> slabels (cstate W st f).
Proof.
rewrite /cstate; case: (W _) => // h; case: parse_i32 => // z; apply: emit_labels => //.
by rewrite /glabels /= eqxx.
Qed.

Lemma pterm_labels st t : slabels st ->
  slabels (pterm W st t).2 /\ (pterm W st t).1.1 = join "*" (factors t).
Proof.
move=> h; rewrite /pterm; have hst : slabels (foldl (cstate W) st (factors t)).
  by apply: (@foldl_inv _ _ (fun s : pstate F => slabels s)) => // s f; apply: cstate_labels.
have [f [fs E]] := factors_neq0 t; rewrite E in hst *; rewrite [head _ _]/= [behead _]/=.
move: (foldl _ _ _) hst => st0 hst; rewrite -[f in join _ (f :: _)]/(f, fval W f).1.
elim: fs (f, fval W f) st0 hst {E} => [|g fs IH] w st0 hst //=.
have [] := IH (generate_multiplication_gate st0 w (g, fval W g)).1 (generate_multiplication_gate st0 w (g, fval W g)).2.
  by apply: emit_labels => //; rewrite /glabels /=.
move=> -> ->; split=> //; rewrite [LHS]join_head -[str "*" ++ g]/([:: "*"%char] ++ g) join_head.
by case: fs {IH}.
Qed.

Lemma padd_labels acc t : slabels acc.2 -> slabels (padd W acc t).2.
Proof.
move=> h; have [h' _] := pterm_labels t h; apply: emit_labels => //.
by rewrite /glabels /=.
Qed.

Lemma psum_labels st t ts : slabels st ->
  slabels (psum W st t ts).2 /\ (psum W st t ts).1.1 = join "+" [seq join "*" (factors t) | t <- t :: ts].
Proof.
move=> h; have [hst El] := pterm_labels t h.
rewrite /psum map_cons -El; elim: ts (pterm W st t) hst {El} => [|t' ts IH] acc hst //.
have [ha hl] := IH (padd W acc t') (padd_labels t' hst).
split; first exact: ha.
have [_ El] := pterm_labels t' hst.
have Ep : (padd W acc t').1.1 = acc.1.1 ++ [:: "+"%char] ++ join "*" (factors t') by rewrite -El.
by rewrite [LHS]hl map_cons Ep !join_head [RHS]join_cons.
Qed.

Lemma parsed_labels l r : all glabels (parsed_gates W l r) /\
  forall n, size (parsed_gates W l r) = n.+1 ->
  label (parsed_gates W l r) (2%N, n) =
    join "+" [seq join "*" (factors t) | t <- rcons (lhs_terms l) ("-"%char :: r)].
Proof.
rewrite /parsed_gates; lazy zeta; have [t0 [ts0 Et]] := split_neq0 "+"%char l.
rewrite -/(lhs_terms l) in Et; rewrite Et [head _ _]/= [behead _]/=.
have [h1 l1] := psum_labels (st := pstate0 F) t0 ts0 isT.
have [h2 l2] := pterm_labels ("-"%char :: r) h1.
split; first by rewrite all_rcons /glabels /= eqxx.
move=> n; rewrite size_rcons => -[<-]; rewrite label_last /gwire [nth _ _ _]/= [fst _]/= l1 l2.
by rewrite map_rcons -cats1 join_cat.
Qed.

End Labels.

(* ------------------------------------------------------------------ *)
(* equations *)
Section Equations.
Variables (F : fieldType) (W : bytes -> option F) (e : equation).
Hypotheses (ok : equation_ok e) (names : names_only W) (defd : defined_on W e).
Local Notation l := (lhs_text e).
Local Notation r := (rhs_text e).

(* the gate list before the last output is overwritten *)
Definition honest_gates : seq (pgate F) :=
  let t := head [::] (lhs_terms l) in
  let p := psum W (pstate0 F) t (behead (lhs_terms l)) in
  let q := pterm W p.2 ("-"%char :: r) in
  rcons (ps_list q.2) (PGate p.1 q.1 (p.1.1 ++ str "+" ++ q.1.1, p.1.2 + q.1.2) Addition).

Lemma equation_known : all (known_term W) (lhs_terms l) && known_term W ("-"%char :: r).
Proof.
have dl := defined_atoms defd; apply/andP; split.
  rewrite (lhs_termsE ok); apply/allP => s /mapP[t th ->].
  have [_ okt] := lhs_ok ok th.
  rewrite known_termE (lhs_factors ok th); apply: (term_strings_value names okt _).2.
  by apply: dl; rewrite mem_rcons inE th orbT.
have [_ okr] := rhs_ok' ok.
rewrite known_termE (rhs_factors ok); apply: (neg_head_value names _ okr _).2.
  by case/and4P: ok.
by apply: dl; rewrite mem_rcons mem_head.
Qed.

Lemma honest_last : exists gl wl wr,
  [/\ honest_gates = rcons gl (PGate wl wr (wl.1 ++ str "+" ++ wr.1, wl.2 + wr.2) Addition),
      parsed_gates W l r = rcons gl (PGate wl wr (wl.1 ++ str "+" ++ wr.1, 0) Addition),
      all (gsound W) honest_gates,
      wl.2 = \sum_(t <- e_lhs e) term_value W t & wr.2 = - term_value W (e_rhs e)].
Proof.
have nn := names_noNum names; have dl := defined_atoms defd.
have np := lhs_terms_no_plus ok.
have rp : "+"%char \notin "-"%char :: r by rewrite inE negb_or /= (rhs_no ok).
rewrite /honest_gates /parsed_gates; lazy zeta.
move: (lhs_termsE ok) np; have [t0 [ts0 Et]] := split_neq0 "+"%char l; rewrite -/(lhs_terms l) in Et.
rewrite Et [head _ _]/= [behead _]/= => El np.
have [h1 w1 v1] := psum_sound nn (st := pstate0 F) np isT.
have [h2 w2 v2] := pterm_sound nn rp h1.
set p := psum _ _ _ _ in h1 w1 v1 h2 w2 v2 *; set q := pterm _ _ _ in h2 w2 v2 *.
exists (ps_list q.2), p.1, q.1; split=> //.
- rewrite all_rcons; apply/andP; split=> //; rewrite /gsound w1 w2 /= eqxx andbT.
  by rewrite /wsound /= sval_add -(eqP w1) -(eqP w2).
- rewrite v1 El big_map big_seq [RHS]big_seq; apply: eq_bigr => t th.
  rewrite (lhs_factors ok th) (term_strings_value names _ _).1 //; first by case: (lhs_ok ok th).
  by apply: dl; rewrite mem_rcons inE th orbT.
rewrite v2 (rhs_factors ok); have [_ okr] := rhs_ok' ok.
apply: (neg_head_value names _ okr _).1; first by case/and4P: ok.
by apply: dl; rewrite mem_rcons mem_head.
Qed.

Lemma sound_copies gl n : all (gsound W) gl -> (size gl <= n)%N -> copies_hold (calls_of gl) n.
Proof.
move=> H le; apply: (copies_of_labels (v := sval W)) => // x; rewrite mem_rowslots => /andP[x3 xs].
have g0 : pgate F by exact: (PGate ([::], 0) ([::], 0) ([::], 0) Addition).
rewrite (gvalueE g0) // (labelE g0) //.
have := all_nthP g0 H _ xs => /and4P[/eqP h1 /eqP h2 /eqP h3 _].
by move: x3; rewrite /gwire; case: (x.1) => [|[|[|k]]].
Qed.

Lemma sound_holds gl : all (gsound W) gl -> all (@call_holds F) (calls_of gl).
Proof.
move=> H; have g0 : pgate F by exact: (PGate ([::], 0) ([::], 0) ([::], 0) Addition).
have c0 := gate_call_of gl 0 g0.
apply/(all_nthP c0) => i; rewrite size_calls_of => h; rewrite (nth_calls_of c0 g0) //.
have := all_nthP g0 H _ h => /and4P[_ _ _]; rewrite /call_holds /=.
by case: pg_type => //=; rewrite addr0.
Qed.

(* same gates whatever the last output *)
Lemma honest_same : same_circuit (calls_of (parsed_gates W l r)) (calls_of honest_gates).
Proof.
have [gl [wl [wr [Eh Ep _ _ _]]]] := honest_last; rewrite /same_circuit !buildE [gates _]/= [gates _]/=.
set g := PGate wl wr (wl.1 ++ str "+" ++ wr.1, wl.2 + wr.2) Addition in Eh.
have {}Ep : parsed_gates W l r = rcons gl (change_result g 0) by [].
have Et x : target (parsed_gates W l r) x = target honest_gates x.
  by rewrite /target Ep Eh label_change occ_change.
have Es : size (parsed_gates W l r) = size honest_gates by rewrite Ep Eh !size_rcons.
have c0 := gate_call_of gl 0 g.
apply: (@eq_from_nth _ (gate_of c0)); rewrite !size_map ?size_zip ?size_iota ?minnn // => i lti.
have lti' : (i < size honest_gates)%N by rewrite -Es.
rewrite !(nth_map c0) ?size_calls_of // !(nth_calls_of c0 g) // /gate_of /gate_call_of /= !Et.
by rewrite Ep Eh !nth_rcons; case: ifP => // _; case: ifP => // _.
Qed.

End Equations.

(* ------------------------------------------------------------------ *)
(* verification depends only on the gates of a circuit *)
Section SameCircuit.
Variables (F : fieldType) (P : fft_field F).

Implicit Types (calls : seq (gate_call F)).

Lemma same_slot_pos calls calls' x : map (@gate_of F) calls = map (@gate_of F) calls' ->
  slot_pos calls x = slot_pos calls' x.
Proof.
move=> E; have Es : size calls = size calls' by rewrite -(size_map (@gate_of F)) E size_map.
rewrite /slot_pos; case: (ltnP x.2 (size calls)) => h; last by rewrite !drop_oversize -?Es.
have [g0 _] : exists g0 : gate_call F, true by case: calls h {E Es} => // g ? _; exists g.
have h' : (x.2 < size calls')%N by rewrite -Es.
rewrite (ohead_drop_nth g0) // (ohead_drop_nth g0) //.
have := congr1 (fun s => nth (gate_of g0) s x.2) E; rewrite !(nth_map g0) //.
move: (nth _ _ _) (nth _ _ _) => g g' Eg.
have Ea : (call_a g).1 = (call_a g').1.
  have := congr1 (@a_pos F) Eg; rewrite /gate_of; case: (call_a g) => -[? ?] ?; case: (call_a g') => -[? ?] ?.
  by case: (call_type g); case: (call_type g') => /= -[-> ->].
have Eb : (call_b g).1 = (call_b g').1.
  have := congr1 (@b_pos F) Eg; rewrite /gate_of; case: (call_b g) => -[? ?] ?; case: (call_b g') => -[? ?] ?.
  by case: (call_type g); case: (call_type g') => /= -[-> ->].
have Ec : (call_c g).1 = (call_c g').1.
  have := congr1 (@c_pos F) Eg; rewrite /gate_of; case: (call_c g) => -[? ?] ?; case: (call_c g') => -[? ?] ?.
  by case: (call_type g); case: (call_type g') => /= -[-> ->].
by rewrite /call_wire; case: (x.1) => [|[|[|k]]].
Qed.

(* the parts of a compiled circuit the verifier reads *)
Definition public_part (cc : compiled_circuit F) :=
  (cc_size cc, cc_copy cc, (q_lx (cc_gate cc), q_rx (cc_gate cc), q_ox (cc_gate cc)),
   (q_mx (cc_gate cc), q_cx (cc_gate cc), pi_x (cc_gate cc))).

Lemma same_compile calls calls' cc : same_circuit calls calls' -> compile P (build calls) = Ret cc ->
  exists2 cc', compile P (build calls') = Ret cc' & public_part cc' = public_part cc.
Proof.
rewrite /same_circuit !buildE [gates _]/= [gates _]/= => E; rewrite -!buildE !compileE.
have Es : size calls = size calls' by rewrite -(size_map (@gate_of F)) E size_map.
have Ep : positions_ok calls (csize calls) = positions_ok calls' (csize calls').
  by rewrite /csize Es; apply: eq_all => x; rewrite (same_slot_pos x E).
rewrite -Ep -Es; case: ifP => // _ [<-]; exists (compiled_of P calls') => //.
rewrite /public_part /compiled_of /cdom /cgen /csize -Es /=.
have col (f : gate F -> F) : [seq f (gate_of g) | g <- calls'] = [seq f (gate_of g) | g <- calls].
  by rewrite (map_comp f) -E -map_comp.
have sig l (w : F) : [seq slot_code w (slot_pos calls' (l, i)) | i <- iota 0 (next_power_of_two (size calls))] =
   [seq slot_code w (slot_pos calls (l, i)) | i <- iota 0 (next_power_of_two (size calls))].
  by apply: eq_map => i; rewrite (same_slot_pos _ E).
by rewrite !col !sig.
Qed.

Lemma verify_public (E : pairing_group F) (X : plonk_env E) T cc cc' S pf :
  public_part cc = public_part cc' -> verify X T cc S pf = verify X T cc' S pf.
Proof.
case: cc => n [fa fb fc ql qr qo qm qc pi] k; case: cc' => n' [fa' fb' fc' ql' qr' qo' qm' qc' pi'] k'.
by rewrite /public_part /= => -[-> -> -> -> -> -> -> ->].
Qed.

End SameCircuit.
