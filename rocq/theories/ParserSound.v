(* Wire labels of a parsed circuit determine wire values: every wire carries
   the value of the expression its label spells. *)
From Coq Require Import String Ascii NArith ZArith.
Set Warnings "-notation-overridden,-ambiguous-paths".
From mathcomp Require Import all_ssreflect all_algebra.
From mathcomp Require Import zify ring.
From Verif Require Import Base BaseLemmas PlonkModel PlonkSpec ParserModel ParserSpec.
From Verif Require Import ParserStrings ParserGates ParserParse.

Set Implicit Arguments.
Unset Strict Implicit.
Unset Printing Implicit Defensive.

Import GRing.Theory.
Local Open Scope ring_scope.

Local Arguments parse_i32 : simpl never.

Lemma mem_trim_start c s : c \in trim_start s -> c \in s.
Proof.
by elim: s => //= d s IH; case: ifP => // _ /IH h; rewrite inE h orbT.
Qed.

Lemma mem_str_trim c s : c \in str_trim s -> c \in s.
Proof. by rewrite mem_rev => /mem_trim_start; rewrite mem_rev => /mem_trim_start. Qed.

Lemma mem_split c d s p : p \in split_on c s -> d \in p -> (d \in s) && (d != c).
Proof.
elim: s p => [|e s IH] p /=; first by rewrite inE => /eqP ->.
case: eqP => [Ee|/eqP ne].
  by rewrite inE => /orP[/eqP -> //|/IH h /h /andP[ds ->]]; rewrite inE ds orbT.
have [q [qs E]] := split_neq0 c s; rewrite E in IH *.
rewrite inE => /orP[/eqP ->|h dp].
  rewrite inE => /orP[/eqP ->|dq]; first by rewrite inE eqxx ne.
  by have /andP[ds ->] := IH q (mem_head _ _) dq; rewrite inE ds orbT.
by have /andP[ds ->] := IH p (@mem_behead _ (q :: qs) _ h) dp; rewrite inE ds orbT.
Qed.

Lemma factors_mem t f c : f \in factors t -> c \in f -> (c \in t) && (c != "*"%char).
Proof. by case/mapP=> p ps -> /mem_str_trim; apply: mem_split. Qed.

Lemma i32_chars z c : c \in i32_to_string z -> is_digit c || (c == "-"%char).
Proof.
have H n : c \in dec_N n -> is_digit c by have [/allP d _ _] := dec_N_ok n; apply: d.
case: z => [|p|p]; rewrite /i32_to_string; [by move/H->|by move/H->|].
by rewrite inE => /orP[->|/H->]; rewrite ?orbT.
Qed.

Section Sound.
Variables (F : fieldType) (W : bytes -> option F).
Hypothesis noNum : forall z, W (i32_to_string z) = None.
Local Notation wire := (pwire F).
Local Notation state := (pstate F).
Local Notation fval := (fval W).
Implicit Types (st : state) (f t : bytes) (w : wire).

Definition tval t : F := \prod_(f <- split_on "*"%char t) fval f.
Definition sval s : F := \sum_(t <- split_on "+"%char s) tval t.
Definition wsound w : bool := w.2 == sval w.1.

Lemma sval_add a b : sval (a ++ str "+" ++ b) = sval a + sval b.
Proof. by rewrite /sval /= split_cat big_cat. Qed.

Lemma sval_term t : "+"%char \notin t -> sval t = tval t.
Proof. by move=> h; rewrite /sval split_none // big_seq1. Qed.

Lemma sval_mul a b : "+"%char \notin a -> "+"%char \notin b -> sval (a ++ str "*" ++ b) = sval a * sval b.
Proof.
move=> ha hb; rewrite !sval_term ?mem_cat ?negb_or ?ha //= ?inE //.
by rewrite /tval split_cat big_cat.
Qed.

Lemma sval_atom f : "+"%char \notin f -> "*"%char \notin f -> sval f = fval f.
Proof. by move=> h1 h2; rewrite sval_term // /tval split_none // big_seq1. Qed.

Lemma base_value_i32 z : Z.le (Z.opp (Z.of_N 2147483648)) z -> Z.le z (Z.of_N max_i32) ->
  base_value W (i32_to_string z) = fr_i32 F z.
Proof. by move=> h1 h2; rewrite /base_value noNum i32_to_stringK. Qed.

Lemma i32_noop z c : ~~ is_digit c -> c != "-"%char -> c \notin i32_to_string z.
Proof. by move=> h1 h2; apply/negP => /i32_chars; rewrite (negbTE h1) (negbTE h2). Qed.

Lemma const_wire_sound f z : parse_i32 (unsigned f) = Some z ->
  wsound (const_wire F f z) /\ ("+"%char \notin (const_wire F f z).1).
Proof.
move=> Ez; have [r1 r2] := parse_i32_range Ez.
rewrite /wsound /const_wire; case: ifP => hn; cbn [fst snd]; last first.
  have z0 : Z.le Z0 z.
    move: Ez hn; case: f => [|c f] //=; case: ifP => [/eqP -> //|ne] Ez _.
    by apply: parse_i32_nonneg Ez; rewrite ne.
  rewrite sval_atom ?i32_noop //; split=> //.
  have [c [s [E nc]]] : exists c s, i32_to_string z = c :: s /\ c != "-"%char.
    have H n : exists c s, dec_N n = c :: s /\ c != "-"%char.
      have [d _] := dec_N_ok n; case: (dec_N n) d => // c s /= /andP[dc _] _.
      by exists c, s; rewrite digit_not_sign.
    by case: z z0 {Ez r1 r2} => [|p|p] h; [apply: H|apply: H|].
  by rewrite /fval E (negbTE nc) -E base_value_i32.
have nn c : ~~ is_digit c -> c != "-"%char -> c \notin "-"%char :: i32_to_string z.
  by move=> h1 h2; rewrite inE negb_or h2 i32_noop.
by rewrite nn // sval_atom ?nn //= base_value_i32.
Qed.

Definition gsound (g : pgate F) : bool :=
  [&& wsound (pg_left g), wsound (pg_right g), wsound (pg_bottom g) &
   match pg_type g with
   | Addition => (pg_left g).2 + (pg_right g).2 == (pg_bottom g).2
   | Multiplication => (pg_left g).2 * (pg_right g).2 == (pg_bottom g).2
   | Constant => true
   end].
Definition ssound st : bool := all gsound (ps_list st).

Lemma emit_sound st g : gsound g -> ssound st -> ssound (emit st g).
Proof. by move=> hg h; rewrite /emit; case: ifP => //= _; rewrite /ssound all_rcons hg. Qed.

Lemma cstate_sound st f : ssound st -> ssound (cstate W st f).
Proof.
move=> h; rewrite /cstate; case: (W _) => //; case Ez: parse_i32 => [z|] //.
have [hw hp] := const_wire_sound Ez; apply: emit_sound => //.
have s0 : sval [:: "0"%char] = 0.
  by rewrite sval_atom // /fval (_ : _ == _ = false) // -[[:: _]]/(i32_to_string Z0) base_value_i32.
by rewrite /gsound hw /= /wsound sval_add /= s0 eqxx /= addr0 addr0 -(eqP hw) eqxx.
Qed.

Lemma mul_sound st w1 w2 : wsound w1 -> wsound w2 -> "+"%char \notin w1.1 -> "+"%char \notin w2.1 ->
  ssound st -> ssound (generate_multiplication_gate st w1 w2).2 /\
  wsound (generate_multiplication_gate st w1 w2).1.
Proof.
move=> h1 h2 n1 n2 h.
have hb : wsound (generate_multiplication_gate st w1 w2).1.
  by rewrite /wsound /= sval_mul // -(eqP h1) -(eqP h2).
by split=> //; apply: emit_sound => //; rewrite /gsound h1 h2 hb /=.
Qed.

Lemma pterm_sound st t : "+"%char \notin t -> ssound st ->
  [/\ ssound (pterm W st t).2, wsound (pterm W st t).1
    & (pterm W st t).1.2 = \prod_(f <- factors t) fval f].
Proof.
move=> nt h; rewrite /pterm.
have hst : ssound (foldl (cstate W) st (factors t)).
  by apply: (@foldl_inv _ _ (fun s : state => ssound s)) => // s f; apply: cstate_sound.
have Hf f : f \in factors t -> "+"%char \notin f /\ wsound (f, fval f).
  move=> fi; have np : "+"%char \notin f.
    by apply/negP => /(factors_mem fi)/andP[h1]; rewrite (negbTE nt) in h1.
  split=> //; rewrite /wsound /= sval_atom //.
  by apply/negP => /(factors_mem fi)/andP[].
have [f [fs E]] := factors_neq0 t; move: Hf hst; rewrite E; move: (foldl _ _ _) => st0 Hf hst.
rewrite big_cons [head _ _]/= [behead _]/=; have [n0 s0] := Hf f (mem_head _ _).
have {Hf} : forall g, g \in fs -> "+"%char \notin g /\ wsound (g, fval g).
  by move=> g gi; apply: Hf; rewrite inE gi orbT.
have n0' : "+"%char \notin (f, fval f).1 by [].
rewrite [fval f * _](_ : _ = (f, fval f).2 * \prod_(j <- fs) fval j) //; move: n0' s0 {n0}; move: (f, fval f) => w n0 s0.
clear E h; elim: fs w st0 n0 s0 hst => [|g fs IH] w st0 n0 s0 hst Hf /=.
  by rewrite big_nil mulr1.
have [ng sg] := Hf g (mem_head _ _).
have [hs hw] := mul_sound (w1 := w) (w2 := (g, fval g)) s0 sg n0 ng hst.
have [] := IH _ (generate_multiplication_gate st0 w (g, fval g)).2 _ hw hs.
- by rewrite /= mem_cat inE negb_or n0.
- by move=> k ki; apply: Hf; rewrite inE ki orbT.
by move=> -> -> ->; split=> //; rewrite big_cons mulrA.
Qed.

Lemma psum_sound t ts st : all (fun t => "+"%char \notin t) (t :: ts) -> ssound st ->
  [/\ ssound (psum W st t ts).2, wsound (psum W st t ts).1
    & (psum W st t ts).1.2 = \sum_(t <- t :: ts) \prod_(f <- factors t) fval f].
Proof.
move=> /= /andP[n0 ns] h; rewrite big_cons /psum.
have [hs hw hv] := pterm_sound n0 h.
rewrite -hv; move: (pterm W st t) hs hw {hv} => acc.
elim: ts acc ns => [|t' ts IH] acc /=; first by move=> _ hs hw; rewrite big_nil addr0.
case/andP=> n1 ns hs hw; have [hs' hw' hv'] := pterm_sound n1 hs.
have hb : wsound (padd W acc t').1.
  by rewrite /wsound /padd /= sval_add -(eqP hw) -(eqP hw').
have [] := IH (padd W acc t') ns _ hb.
  by apply: emit_sound => //; rewrite /gsound hw hw' hb /= eqxx.
by move=> -> -> ->; rewrite big_cons addrA /padd /= -hv'.
Qed.

End Sound.
