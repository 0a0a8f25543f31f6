(* What the parser model computes: pure forms of its functions, invariants of
   the gate list, the meaning of wire labels. *)
From Coq Require Import String Ascii NArith ZArith.
Set Warnings "-notation-overridden,-ambiguous-paths".
From mathcomp Require Import all_ssreflect all_algebra.
From mathcomp Require Import zify ring.
From Verif Require Import Base BaseLemmas PlonkModel PlonkSpec ParserModel ParserSpec.
From Verif Require Import ParserStrings ParserGates.

Set Implicit Arguments.
Unset Strict Implicit.
Unset Printing Implicit Defensive.

Import GRing.Theory.
Local Open Scope ring_scope.

Local Arguments parse_i32 : simpl never.

Section Pure.
Variables (F : fieldType) (W : bytes -> option F).
Local Notation wire := (pwire F).
Local Notation state := (pstate F).
Implicit Types (st : state) (f t : bytes) (ts : seq bytes).

(* value of an unsigned factor, and of a factor *)
Definition base_value f : F :=
  match W f with Some v => v | None => if parse_i32 f is Some z then fr_i32 F z else 0 end.
Definition fval f : F :=
  if f is c :: _ then if c == "-"%char then - base_value (unsigned f) else base_value f else 0.

(* effect of a factor on the state *)
Definition const_wire f (z : Z) : wire :=
  if ohead f == Some "-"%char then ("-"%char :: i32_to_string z, - fr_i32 F z)
  else (i32_to_string z, fr_i32 F z).
Definition cstate st f : state :=
  match W (unsigned f) with
  | Some _ => st
  | None => if parse_i32 (unsigned f) is Some z then generate_constant_gate st (const_wire f z) else st
  end.

Lemma get_witness_valueE st f :
  get_witness_value W st f = if known_factor W f then Ret (fval f, cstate st f) else Panic.
Proof.
case: f => [|c f] //; rewrite /get_witness_value /known_factor /cstate /fval /base_value /const_wire /=.
case: (c =P "-"%char) => [->|ne].
  case: (W f) => [v|] /=; first by [].
  by case: (parse_i32 f).
case: (W (c :: f)) => [v|] /=; first by [].
by case: (parse_i32 (c :: f)) => [z|] //=; case: eqP => // -[].
Qed.

Definition factors t : seq bytes := map str_trim (split_on "*"%char t).
Lemma known_termE t : known_term W t = all (known_factor W) (factors t).
Proof. by rewrite /known_term /factors all_map. Qed.

Lemma factors_neq0 t : exists f fs, factors t = f :: fs.
Proof. by rewrite /factors; have [p [ps ->]] := split_neq0 "*"%char t; exists (str_trim p), (map str_trim ps). Qed.

Lemma term_wiresE st t : term_wires W st t =
  if known_term W t then Ret ([seq (f, fval f) | f <- factors t], foldl cstate st (factors t)) else Panic.
Proof.
rewrite known_termE /term_wires /factors.
suff H : forall ws st, ofold (fun acc s0 => let s := str_trim s0 in
    '(v, st) <- get_witness_value W acc.2 s;; Ret (rcons acc.1 (s, v), st)) (ws, st) (split_on "*"%char t) =
  if all (known_factor W) (map str_trim (split_on "*"%char t))
  then Ret (ws ++ [seq (f, fval f) | f <- map str_trim (split_on "*"%char t)],
            foldl cstate st (map str_trim (split_on "*"%char t))) else Panic.
  by rewrite H.
elim: (split_on _ t) => [|s ss IH] ws st0 /=; first by rewrite cats0.
rewrite get_witness_valueE; case: ifP => //= kf; rewrite IH cat_rcons //.
Qed.

Definition pterm st t : wire * state :=
  let ws := [seq (f, fval f) | f <- factors t] in
  foldl (fun acc right => generate_multiplication_gate acc.2 acc.1 right)
    (head ([::], 0) ws, foldl cstate st (factors t)) (behead ws).

Lemma term_wireE st t : term_wire W st t = if known_term W t then Ret (pterm st t) else Panic.
Proof.
rewrite /term_wire term_wiresE; case: ifP => //= _.
by rewrite /pterm /term_gates; have [f [fs ->]] := factors_neq0 t.
Qed.

Definition padd (acc : wire * state) t : wire * state :=
  let p := pterm acc.2 t in generate_additional_gate p.2 acc.1 p.1.
Definition psum st t ts : wire * state := foldl padd (pterm st t) ts.

Lemma sum_gatesE st t ts : sum_gates W st (t :: ts) =
  if all (known_term W) (t :: ts) then Ret (Some (psum st t ts).1, (psum st t ts).2) else Panic.
Proof.
rewrite /sum_gates term_wireE /=; case: ifP => //= _; rewrite /psum.
have pe (p : wire * state) : p = (p.1, p.2) by case: p.
rewrite {1}[pterm st t]pe /=.
suff H acc : ofold (fun (acc : wire * state) t => '(cur, st) <- term_wire W acc.2 t;;
    Ret (generate_additional_gate st acc.1 cur)) acc ts =
  if all (known_term W) ts then Ret (foldl padd acc ts) else Panic.
  rewrite H -pe; case: ifP => //= _; by rewrite {1}[foldl _ _ _]pe.
elim: ts acc => [|t' ts IH] acc //=; rewrite term_wireE; case: ifP => //= _.
by rewrite {1}[pterm _ _]pe /= IH.
Qed.

(* ------------------------------------------------------------------ *)
(* invariants that need no assumption *)
Lemma foldl_inv (A S : Type) (P : S -> Prop) (g : S -> A -> S) (x : S) (s : seq A) :
  (forall y a, P y -> P (g y a)) -> P x -> P (foldl g x s).
Proof. by move=> H; elim: s x => //= a s IH x h; apply: IH; apply: H. Qed.

Lemma cstate_recorded st f : recorded st -> recorded (cstate st f).
Proof.
by rewrite /cstate; case: (W _) => // h; case: parse_i32 => // z; apply: emit_recorded.
Qed.

Lemma pterm_recorded st t : recorded st -> recorded (pterm st t).2.
Proof.
move=> h; apply: (@foldl_inv _ _ (fun p : wire * state => recorded p.2)).
  by move=> acc a; apply: emit_recorded.
by apply: foldl_inv => //= st' f; apply: cstate_recorded.
Qed.

Lemma padd_recorded acc t : recorded acc.2 -> recorded (padd acc t).2.
Proof. by move=> h; apply: emit_recorded; apply: pterm_recorded. Qed.

Lemma psum_recorded st t ts : recorded st -> recorded (psum st t ts).2.
Proof.
move=> h; apply: (@foldl_inv _ _ (fun p : wire * state => recorded p.2)).
  by move=> acc a; apply: padd_recorded.
exact: pterm_recorded.
Qed.

(* the addition gates seen so far have shorter left labels *)
Definition is_add (g : pgate F) : bool := if pg_type g is Addition then true else false.
Definition shorter (k : nat) st : bool :=
  all (fun g => is_add g ==> (size (pg_left g).1 < k)%N) (ps_list st).

Lemma emit_shorter k st g : ~~ is_add g -> shorter k st -> shorter k (emit st g).
Proof.
by move=> na h; rewrite /emit; case: ifP => //= _; rewrite /shorter all_rcons (negbTE na).
Qed.

Lemma pterm_shorter k st t : shorter k st -> shorter k (pterm st t).2.
Proof.
move=> h; apply: (@foldl_inv _ _ (fun p : wire * state => shorter k p.2)).
  by move=> acc a; apply: emit_shorter.
apply: (@foldl_inv _ _ (fun s : state => shorter k s)) => // st' f h'.
by rewrite /cstate; case: (W _) => //; case: parse_i32 => // z; apply: emit_shorter.
Qed.

Lemma has_all (A : Type) (p q : pred A) s : has p s -> all q s -> exists2 h, p h & q h.
Proof.
elim: s => //= a s IH /orP[pa|/IH H] /andP[qa]; first by exists a.
exact: H.
Qed.

Lemma emit_new st g : recorded st -> is_add g -> shorter (size (pg_left g).1) st ->
  ps_list (emit st g) = rcons (ps_list st) g.
Proof.
case=> Es _ ag sh; rewrite /emit Es; case: ifP => //= hs; exfalso.
have [h /and4P[/eqP El _ _ Et] /implyP H] := has_all hs sh.
have ah : is_add h by move: Et ag; rewrite /is_add; case: (pg_type h); case: (pg_type g).
by have := H ah; rewrite El ltnn.
Qed.

Lemma psum_shorter st t ts : recorded st -> shorter 0 st ->
  shorter (size (psum st t ts).1.1) (psum st t ts).2.
Proof.
move=> rec sh; rewrite /psum.
have weak k k' s : (k <= k')%N -> shorter k s -> shorter k' s.
  move=> le; apply: sub_all => g; case: is_add => //= h; exact: leq_trans le.
have h0 : shorter (size (pterm st t).1.1) (pterm st t).2 by apply: pterm_shorter; apply: weak sh.
have r0 := pterm_recorded t rec.
elim: ts (pterm st t) h0 r0 => [|t' ts IH] acc h r //=; apply: IH; last exact: padd_recorded.
have h' : shorter (size acc.1.1) (pterm acc.2 t').2 by apply: pterm_shorter.
rewrite /shorter /padd /generate_additional_gate /= emit_new //=; last exact: pterm_recorded.
rewrite all_rcons /= size_cat /= addnS ltnS leq_addr /=.
by apply: weak h'; rewrite leqW ?leq_addr.
Qed.

(* the gate list of a sum with a last term: the final addition comes last *)
Lemma psum_last st t ts u : recorded st -> shorter 0 st ->
  let p := psum st t ts in let q := pterm p.2 u in
  ps_list (psum st t (rcons ts u)).2 =
    rcons (ps_list q.2) (PGate p.1 q.1 (p.1.1 ++ str "+" ++ q.1.1, p.1.2 + q.1.2) Addition).
Proof.
move=> rec sh p q; rewrite /psum foldl_rcons -/(psum st t ts) -/p /padd -/q /generate_additional_gate.
rewrite [X in ps_list X]/= emit_new //; first exact: pterm_recorded (psum_recorded _ _ rec).
by apply: pterm_shorter; apply: psum_shorter.
Qed.

(* ------------------------------------------------------------------ *)
(* labels do not depend on values *)
Lemma label_change (gl : seq (pgate F)) g v x :
  label (rcons gl (change_result g v)) x = label (rcons gl g) x.
Proof.
rewrite /label; case: (ltnP x.2 (size (rcons gl g))) => h; last first.
  by rewrite !drop_oversize // size_rcons; move: h; rewrite size_rcons.
have h' : (x.2 < (size gl).+1)%N by move: h; rewrite size_rcons.
rewrite !(ohead_drop_nth g) ?size_rcons //.
rewrite !nth_rcons; case: ifP => // _; case: ifP => // _.
by case: x.1 => [|[|[|l]]].
Qed.

Lemma occ_change (gl : seq (pgate F)) g v k :
  occ (rcons gl (change_result g v)) k = occ (rcons gl g) k.
Proof. by rewrite /occ !size_rcons; apply: eq_filter => x; rewrite label_change. Qed.

Lemma change_last_rcons (gl : seq (pgate F)) g : change_last (rcons gl g) = Ret (rcons gl (change_result g 0)).
Proof. by case: gl => [|h gl] //=; rewrite belast_rcons last_rcons. Qed.

(* the terms of a normalised input *)
Definition lhs_terms (l : bytes) : seq bytes := split_on "+"%char l.

Lemma prepareE l r : "="%char \notin l -> "="%char \notin r ->
  let t := head [::] (lhs_terms l) in
  let p := psum (pstate0 F) t (behead (lhs_terms l)) in
  let q := pterm p.2 ("-"%char :: r) in
  let gl := rcons (ps_list q.2) (PGate p.1 q.1 (p.1.1 ++ str "+" ++ q.1.1, 0) Addition) in
  if all (known_term W) (lhs_terms l) && known_term W ("-"%char :: r)
  then exists2 m, prepare_gen_circuit W (l ++ "="%char :: r) = Ret (gl, m) &
         forall k, pm_getd m k = occ gl k
  else prepare_gen_circuit W (l ++ "="%char :: r) = Panic.
Proof.
move=> nl nr t p q gl.
have Es : split_on "="%char (l ++ "="%char :: r) = [:: l; r] by apply/split_two.
rewrite /prepare_gen_circuit Es -/(lhs_terms l).
have [t0 [ts0 Et]] := split_neq0 "+"%char l; rewrite -/(lhs_terms l) in Et.
have rec0 : recorded (pstate0 F) by exact: recorded0.
rewrite {2 3}Et rcons_cons sum_gatesE -rcons_cons -Et all_rcons andbC.
case: (_ && _) => //=.
have Ep : psum (pstate0 F) t0 ts0 = p by rewrite /p /t Et.
have := psum_last t0 ts0 ("-"%char :: r) rec0 isT; lazy zeta; rewrite Ep -/q => El.
have rec1 := psum_recorded t0 (rcons ts0 ("-"%char :: r)) rec0.
move: El rec1; set st := (psum _ t0 (rcons _ _)).2 => El [_ rec1].
rewrite El change_last_rcons /=; exists (ps_pos st) => // k.
by rewrite rec1 El /gl -(occ_change _ _ 0).
Qed.

End Pure.
