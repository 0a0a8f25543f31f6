(* Renaming the factors of a wire name: gate lists follow, circuits do not change. *)
From Coq Require Import String Ascii NArith ZArith.
Set Warnings "-notation-overridden,-ambiguous-paths".
From mathcomp Require Import all_ssreflect all_algebra.
From mathcomp Require Import zify.
From Verif Require Import Base BaseLemmas ArkPoly ArkDomain ArkDomainLemmas ArkPolyFft KzgModel KzgSpec
  PlonkModel PlonkSpec PlonkLemmas PlonkCompile ParserModel ParserSpec.
From Verif Require Import ParserStrings ParserGates ParserParse ParserSound ParserCircuit CpiLemmas.

Set Implicit Arguments.
Unset Strict Implicit.
Unset Printing Implicit Defensive.

Import GRing.Theory.
Local Open Scope ring_scope.

Local Arguments parse_i32 : simpl never.

(* ------------------------------------------------------------------ *)
(* the operators of wire names *)
Definition is_op (c : ascii) : bool := (c == "+"%char) || (c == "*"%char).
Definition op_free (s : bytes) : bool := all (fun c => ~~ is_op c) s.

Fixpoint rename_from (f : bytes -> bytes) (acc s : bytes) : bytes :=
  if s is c :: s' then
    if is_op c then f (rev acc) ++ c :: rename_from f [::] s' else rename_from f (c :: acc) s'
  else f (rev acc).
Definition rename_name f s := rename_from f [::] s.

Lemma rename_from_op f acc a c b : is_op c ->
  rename_from f acc (a ++ c :: b) = rename_from f acc a ++ c :: rename_from f [::] b.
Proof.
by move=> oc; elim: a acc => [|d a IH] acc /=; rewrite ?oc //; case: ifP => // _; rewrite IH // -catA.
Qed.

Lemma rename_op f a c b : is_op c -> rename_name f (a ++ c :: b) = rename_name f a ++ c :: rename_name f b.
Proof. exact: rename_from_op. Qed.

Lemma rename_from_free f acc s : op_free s -> rename_from f acc s = f (rev acc ++ s).
Proof.
elim: s acc => [|c s IH] acc /=; first by rewrite cats0.
by case/andP=> /negbTE -> h; rewrite IH // rev_cons cat_rcons.
Qed.

Lemma rename_free f s : op_free s -> rename_name f s = f s.
Proof. exact: rename_from_free. Qed.

Section Inverse.
Variables f g : bytes -> bytes.
Hypotheses (free : forall s, op_free s -> op_free (f s)) (fK : forall s, op_free s -> g (f s) = s).

Lemma rename_fromK acc s : op_free acc -> rename_name g (rename_from f acc s) = rev acc ++ s.
Proof.
have hr a : op_free a -> op_free (rev a) by rewrite /op_free all_rev.
elim: s acc => [|c s IH] acc h /=; first by rewrite rename_free ?free ?hr // fK ?hr // cats0.
case oc: (is_op c); last by rewrite IH /= ?oc ?h // rev_cons cat_rcons.
by rewrite rename_op // IH // rename_free ?free ?hr // fK ?hr.
Qed.

Lemma rename_inj : injective (rename_name f).
Proof. by apply: (can_inj (g := rename_name g)) => s; apply: rename_fromK. Qed.
End Inverse.

(* ------------------------------------------------------------------ *)
(* gate lists *)
Section Gates.
Variables (V : eqType) (r : bytes -> bytes).
Hypothesis ri : injective r.
Implicit Types (w : pwire V) (g : pgate V) (st : pstate V).

Definition rw w : pwire V := (r w.1, w.2).
Definition rg g : pgate V := PGate (rw (pg_left g)) (rw (pg_right g)) (rw (pg_bottom g)) (pg_type g).
Definition follows st st' : Prop :=
  ps_list st' = map rg (ps_list st) /\ ps_set st' = map rg (ps_set st).

Lemma rg_eqb g h : pgate_eqb (rg g) (rg h) = pgate_eqb g h.
Proof.
have E w w' : (rw w == rw w') = (w == w').
  by case: w => a u; case: w' => b v; rewrite /rw !xpair_eqE (inj_eq ri).
by rewrite /pgate_eqb /rg /= !E.
Qed.

Lemma emit_follows st st' g : follows st st' -> follows (emit st g) (emit st' (rg g)).
Proof.
case=> El Es; rewrite /emit Es has_map.
rewrite (eq_has (a2 := fun h => pgate_eqb h g)); last by move=> h /=; rewrite rg_eqb.
by case: ifP => _; split=> //=; rewrite ?El ?Es map_rcons.
Qed.

Lemma gwire_rg g l : (gwire (rg g) l).1 = if (l < 3)%N then r (gwire g l).1 else r (gwire g l).1.
Proof. by case: l => [|[|[|l]]]; rewrite /gwire /= ?nth_nil. Qed.

Lemma label_rg gl x : (x.2 < size gl)%N -> label (map rg gl) x = r (label gl x).
Proof.
move=> h; rewrite /label; case: gl h => // g0 gl h.
rewrite (ohead_drop_nth (rg g0)) ?size_map // (ohead_drop_nth g0) // (nth_map g0) //.
by rewrite gwire_rg if_same.
Qed.

Lemma occ_rg gl k : occ (map rg gl) (r k) = occ gl k.
Proof.
rewrite /occ size_map; apply: eq_in_filter => x; rewrite mem_rowslots => /andP[_ h].
by rewrite label_rg // (inj_eq ri).
Qed.

Lemma target_rg gl x : (x.2 < size gl)%N -> target (map rg gl) x = target gl x.
Proof. by move=> h; rewrite /target label_rg // occ_rg. Qed.

(* ------------------------------------------------------------------ *)
(* sums of products over lists of factors *)
Section Sum.
Variables (mul add : pstate V -> pwire V -> pwire V -> pwire V * pstate V).
Variables (cst cst' : pstate V -> bytes -> pstate V) (wv wv' : bytes -> V) (w0 : pwire V) (f : bytes -> bytes).
Variable good : pred bytes.

Definition gterm (c : pstate V -> bytes -> pstate V) (v : bytes -> V) st (fs : seq bytes) : pwire V * pstate V :=
  let ws := [seq (x, v x) | x <- fs] in
  foldl (fun acc right => mul acc.2 acc.1 right) (head w0 ws, foldl c st fs) (behead ws).
Definition gsum c v st fs fss : pwire V * pstate V :=
  foldl (fun acc fs => let p := gterm c v acc.2 fs in add p.2 acc.1 p.1) (gterm c v st fs) fss.

Definition both_follow (p p' : pwire V * pstate V) : Prop := p'.1 = rw p.1 /\ follows p.2 p'.2.

Hypothesis mul_follows : forall st st' a b, follows st st' -> both_follow (mul st a b) (mul st' (rw a) (rw b)).
Hypothesis add_follows : forall st st' a b, follows st st' -> both_follow (add st a b) (add st' (rw a) (rw b)).
Hypothesis cst_follows : forall st st' x, good x -> follows st st' -> follows (cst st x) (cst' st' (f x)).
Hypothesis wv_same : forall x, good x -> wv' (f x) = wv x.
Hypothesis name_same : forall x, good x -> r x = f x.

Lemma gterm_follows st st' x fs : all good (x :: fs) -> follows st st' ->
  both_follow (gterm cst wv st (x :: fs)) (gterm cst' wv' st' (map f (x :: fs))).
Proof.
move=> gd fw; rewrite /gterm.
have : follows (foldl cst st (x :: fs)) (foldl cst' st' (map f (x :: fs))).
  elim: (x :: fs) st st' gd fw => //= y ys IH st1 st2 /andP[gy gys] fw.
  by apply: IH => //; apply: cst_follows.
move: gd => /= /andP[gx gfs]; move: (foldl cst _ _) (foldl cst' _ _) => s s' {}fw.
rewrite (wv_same gx) -(name_same gx) -[(r x, wv x)]/(rw (x, wv x)).
elim: fs (x, wv x) s s' gfs fw => [|y ys IH] w s s' //= /andP[gy gys] fw.
have [E1 E2] := mul_follows w (y, wv y) fw.
have pe (p : pwire V * pstate V) : p = (p.1, p.2) by case: p.
rewrite (wv_same gy) -(name_same gy) -[(r y, wv y)]/(rw (y, wv y)).
by rewrite [mul s' _ _]pe [mul s _ _]pe E1; apply: IH.
Qed.

Lemma gsum_follows st st' fs fss : all (fun fs => (fs != [::]) && all good fs) (fs :: fss) -> follows st st' ->
  both_follow (gsum cst wv st fs fss) (gsum cst' wv' st' (map f fs) (map (map f) fss)).
Proof.
move=> /= /andP[/andP[n0 g0] gs] fw.
have : both_follow (gterm cst wv st fs) (gterm cst' wv' st' (map f fs)).
  by case: fs n0 g0 => // x fs _ g0; apply: gterm_follows.
rewrite /gsum; move: (gterm cst _ _ _) (gterm cst' _ _ _) => a a'.
elim: fss a a' gs => [|gs0 gss IH] a a' //= /andP[/andP[n1 g1] gs] [E1 E2]; apply: IH => //.
have [E3 E4] : both_follow (gterm cst wv a.2 gs0) (gterm cst' wv' a'.2 (map f gs0)).
  by case: gs0 n1 g1 => // x xs _ g1; apply: gterm_follows.
by rewrite E1 E3; apply: add_follows.
Qed.

End Sum.
End Gates.

(* the calls do not change *)
Lemma calls_of_rg (F : fieldType) r (gl : seq (pgate F)) : injective r -> calls_of (map (rg r) gl) = calls_of gl.
Proof.
move=> ri; apply: (@eq_from_nth _ (GateCall Constant (0%N,0%N,0) (0%N,0%N,0) (0%N,0%N,0) 0)).
  by rewrite !size_calls_of size_map.
move=> i; rewrite size_calls_of size_map => h; case: gl h => // g0 gl h.
rewrite (nth_calls_of _ (rg r g0)) ?size_map // (nth_calls_of _ g0) // (nth_map g0) //.
by rewrite /gate_call_of !target_rg.
Qed.

(* ------------------------------------------------------------------ *)
(* the two front ends as sums of products over lists of factors *)
Section Instances.
Variable F : fieldType.
Local Notation U := [eqType of unit].

Lemma ptermE W st t : pterm W st t =
  gterm (@generate_multiplication_gate F) ([::], 0) (cstate W) (fval W) st (factors t).
Proof. by []. Qed.
Lemma psumE W st t ts : psum W st t ts =
  gsum (@generate_multiplication_gate F) (@generate_additional_gate F) ([::], 0) (cstate W) (fval W) st
    (factors t) (map factors ts).
Proof. by rewrite /psum /gsum -ptermE; elim: ts (pterm _ _ _) => //= t' ts IH acc; rewrite IH. Qed.

Lemma csumE st t ts : csum st t ts =
  gsum cpi_multiplication_gate cpi_additional_gate ([::], tt) check_constant (fun=> tt) st
    (factors t) (map factors ts).
Proof. by rewrite /csum /gsum -[gterm _ _ _ _ _ _]/(cterm st t); elim: ts (cterm _ _) => //= t' ts IH acc; rewrite IH. Qed.

Section Follow.
Variable r : bytes -> bytes.
Hypotheses (ri : injective r) (rop : forall a c b, is_op c -> r (a ++ c :: b) = r a ++ c :: r b).

Lemma gen_mul_follows st st' a b : follows r st st' ->
  both_follow r (@generate_multiplication_gate F st a b) (generate_multiplication_gate st' (rw r a) (rw r b)).
Proof.
have E : r (a.1 ++ str "*" ++ b.1) = r a.1 ++ str "*" ++ r b.1 by apply: rop.
move=> fw; rewrite /generate_multiplication_gate /both_follow /=; split; first by rewrite /rw /= E.
by have := emit_follows ri (PGate a b (a.1 ++ str "*" ++ b.1, a.2 * b.2) Multiplication) fw; rewrite /rg /rw /= E.
Qed.
Lemma gen_add_follows st st' a b : follows r st st' ->
  both_follow r (@generate_additional_gate F st a b) (generate_additional_gate st' (rw r a) (rw r b)).
Proof.
have E : r (a.1 ++ str "+" ++ b.1) = r a.1 ++ str "+" ++ r b.1 by apply: rop.
move=> fw; rewrite /generate_additional_gate /both_follow /=; split; first by rewrite /rw /= E.
by have := emit_follows ri (PGate a b (a.1 ++ str "+" ++ b.1, a.2 + b.2) Addition) fw; rewrite /rg /rw /= E.
Qed.
Lemma cpi_mul_follows st st' a b : follows r st st' ->
  both_follow r (cpi_multiplication_gate st a b) (cpi_multiplication_gate st' (rw r a) (rw r b)).
Proof.
have E : r (a.1 ++ str "*" ++ b.1) = r a.1 ++ str "*" ++ r b.1 by apply: rop.
move=> fw; rewrite /cpi_multiplication_gate /both_follow /=; split; first by rewrite /rw /= E.
by have := emit_follows ri (PGate a b (a.1 ++ str "*" ++ b.1, tt) Multiplication : pgate U) fw; rewrite /rg /rw /= E.
Qed.
Lemma cpi_add_follows st st' a b : follows r st st' ->
  both_follow r (cpi_additional_gate st a b) (cpi_additional_gate st' (rw r a) (rw r b)).
Proof.
have E : r (a.1 ++ str "+" ++ b.1) = r a.1 ++ str "+" ++ r b.1 by apply: rop.
move=> fw; rewrite /cpi_additional_gate /both_follow /=; split; first by rewrite /rw /= E.
by have := emit_follows ri (PGate a b (a.1 ++ str "+" ++ b.1, tt) Addition : pgate U) fw; rewrite /rg /rw /= E.
Qed.

Hypothesis r0 : r (str "0") = str "0".

Lemma const_follows st st' (w : pwire F) : r w.1 = w.1 -> follows r st st' ->
  follows r (generate_constant_gate st w) (generate_constant_gate st' w).
Proof.
move=> Ew fw; rewrite /generate_constant_gate.
have E : r (w.1 ++ str "+" ++ str "0") = w.1 ++ str "+" ++ str "0".
  by rewrite -[RHS]/(w.1 ++ "+"%char :: str "0") -{2}r0 -{2}Ew -rop.
have := emit_follows ri (PGate w ([:: "0"%char], 0) (w.1 ++ str "+" ++ str "0", w.2 + 0) Constant) fw.
by rewrite /rg /rw /= Ew E -[[:: _]]/(str "0") r0; case: (w).
Qed.
Lemma check_follows st st' x y : parse_i32 y = parse_i32 x -> (isSome (parse_i32 x) -> y = x /\ r x = x) ->
  follows r st st' -> follows r (check_constant st x) (check_constant st' y).
Proof.
move=> Ep H fw; rewrite /check_constant Ep; case: (parse_i32 x) H => // z /(_ isT)[-> Ex].
rewrite /cpi_constant_gate.
have E : r (x ++ str "+" ++ str "0") = x ++ str "+" ++ str "0".
  by rewrite -[RHS]/(x ++ "+"%char :: str "0") -{2}r0 -{2}Ex -rop.
have := emit_follows ri (PGate (x, tt) (str "0", tt) (x ++ str "+" ++ str "0", tt) Constant : pgate U) fw.
by rewrite /rg /rw /= Ex E r0.
Qed.

End Follow.

(* ------------------------------------------------------------------ *)
(* the preprocessor's gate list with values put back *)
Definition vw (w : pwire U) : pwire F := (w.1, 0).
Definition lift (g : pgate U) : pgate F :=
  PGate (if pg_type g is Constant then
           ((pg_left g).1, if parse_i32 (pg_left g).1 is Some z then fr_i32 F z else 0) else vw (pg_left g))
        (vw (pg_right g)) (vw (pg_bottom g)) (pg_type g).

Lemma eg_lift g : eg (lift g) = g.
Proof. by case: g => [[a []] [b []] [c []] []]. Qed.

(* constant gates stand for literals *)
Definition literal (g : pgate U) : bool :=
  if pg_type g is Constant then isSome (parse_i32 (pg_left g).1) else true.
Definition literals (st : pstate U) : Prop := all literal (ps_list st) /\ recorded st.

Lemma emit_literals st g : literal g -> literals st -> literals (emit st g).
Proof.
move=> lg [ls rec]; split; last exact: emit_recorded.
by rewrite /emit; case: ifP => //= _; rewrite all_rcons ls lg.
Qed.

Lemma csum_literals t ts : literals (csum (pstate0 U) t ts).2.
Proof.
have ct st u : literals st -> literals (cterm st u).2.
  move=> h; apply: (@foldl_inv _ _ (fun p : pwire U * pstate U => literals p.2)).
    by move=> acc a; apply: emit_literals.
  apply: foldl_inv => //= st' f h'; rewrite /check_constant; case E: (parse_i32 f) => [z|] //.
  by apply: emit_literals => //; rewrite /literal /= E.
apply: (@foldl_inv _ _ (fun p : pwire U * pstate U => literals p.2)).
  by move=> acc a h; apply: emit_literals => //; apply: ct.
by apply: ct; split=> //; apply: recorded0.
Qed.

(* the gates of a normalised text l = r *)
Definition cpi_gates (l rt : bytes) : seq (pgate U) :=
  ps_list (csum (pstate0 U) (head [::] (lhs_terms l)) (rcons (behead (lhs_terms l)) ("-"%char :: rt))).2.

Lemma compute_pure (P : ArkDomain.fft_field F) (E : KzgModel.pairing_group F) (S : KzgModel.srs E) input l rt :
  parse_string input = Ret (l ++ "="%char :: rt) -> "="%char \notin l -> "="%char \notin rt ->
  compute_cpi P S input =
  (c <- cpi_compile P (map (@gate_of F) (calls_of (map lift (cpi_gates l rt))));; cpi_new S c).
Proof.
move=> En nl nr; rewrite /compute_cpi En bindRet /prepare_generation.
have -> : split_on "="%char (l ++ "="%char :: rt) = [:: l; rt] by apply/split_two.
have [t0 [ts0 Et]] := split_neq0 "+"%char l.
rewrite Et rcons_cons cpi_sum_gatesE bindRet bindRet.
have [lit [_ rec]] := csum_literals t0 (rcons ts0 ("-"%char :: rt)).
have Eg : cpi_gates l rt = ps_list (csum (pstate0 U) t0 (rcons ts0 ("-"%char :: rt))).2.
  by rewrite /cpi_gates /lhs_terms Et.
rewrite -Eg in lit rec *.
have Em : map (@eg F) (map lift (cpi_gates l rt)) = cpi_gates l rt.
  by rewrite -map_comp -[RHS]map_id; apply: eq_map => g /=; rewrite eg_lift.
rewrite -{1}Em cpi_gen_circuitE ?bindRet //.
  rewrite all_map; apply: sub_all lit => h.
  by rewrite /literal /= /const_ok /lift /=; case: (pg_type h) => //=; case: parse_i32 => //= z _.
by move=> k; rewrite rec -[in RHS]occ_eg Em.
Qed.

End Instances.
