(* The preprocessor builds the gates of the parser's circuit, without values. *)
From Coq Require Import String Ascii NArith ZArith.
Set Warnings "-notation-overridden,-ambiguous-paths".
From mathcomp Require Import all_ssreflect all_algebra.
From mathcomp Require Import zify ring.
From Verif Require Import Base BaseLemmas ArkPoly ArkDomain ArkDomainLemmas ArkPolyFft KzgModel KzgSpec
  PlonkModel PlonkSpec PlonkLemmas PlonkCompile.
From Verif Require Import ParserModel ParserSpec ParserStrings ParserGates ParserParse ParserSound
  ParserAst ParserCircuit.

Set Implicit Arguments.
Unset Strict Implicit.
Unset Printing Implicit Defensive.

Import GRing.Theory.
Local Open Scope ring_scope.

Local Arguments parse_i32 : simpl never.
Local Arguments digits_val : simpl never.

(* ------------------------------------------------------------------ *)
(* forgetting values *)
Section Erase.
Variables (F : fieldType) (W : bytes -> option F).
Hypothesis noNum : forall z, W (i32_to_string z) = None.
Local Notation U := [eqType of unit].

Definition ew (w : pwire F) : pwire U := (w.1, tt).
Definition eg (g : pgate F) : pgate U :=
  PGate (ew (pg_left g)) (ew (pg_right g)) (ew (pg_bottom g)) (pg_type g).
Definition es (st : pstate F) : pstate U :=
  PState (map eg (ps_list st)) (map eg (ps_set st)) (ps_pos st).

Lemma type_eqbP s t : type_eqb s t -> s = t.
Proof. by case: s; case: t. Qed.

Lemma eg_eqb g h : gsound W g -> gsound W h -> pgate_eqb (eg g) (eg h) = pgate_eqb g h.
Proof.
case: g => [[l1 l2] [r1 r2] [b1 b2] t]; case: h => [[l1' l2'] [r1' r2'] [b1' b2'] t'].
rewrite /gsound /wsound /= => /and4P[/eqP -> /eqP -> /eqP -> _] /and4P[/eqP -> /eqP -> /eqP -> _].
have H (a b : bytes) : ((a, sval W a) == (b, sval W b)) = (a == b).
  by apply/eqP/eqP => [[]//|->].
have H' (a b : bytes) : ((a, tt) == (b, tt) :> pwire U) = (a == b).
  by apply/eqP/eqP => [[]//|->].
by rewrite /pgate_eqb /eg /ew /= !H !H'.
Qed.

Lemma emit_erase st g : ps_set st = ps_list st -> ssound W st -> gsound W g -> es (emit st g) = emit (es st) (eg g).
Proof.
move=> E hs hg; rewrite /emit.
have -> : has (fun h => pgate_eqb h (eg g)) (ps_set (es st)) = has (fun h => pgate_eqb h g) (ps_set st).
  rewrite /= has_map E; move: hs; rewrite /ssound; elim: (ps_list st) => //= h gl IH /andP[hh hgl].
  by rewrite IH // eg_eqb.
by case: ifP => // _; rewrite /es /= !map_rcons size_map.
Qed.

End Erase.

(* ------------------------------------------------------------------ *)
(* pure form of the preprocessor *)
Section CpiPure.
Local Notation U := [eqType of unit].
Implicit Types (st : pstate U).

Definition cterm st t : pwire U * pstate U :=
  let ws := [seq (f, tt) | f <- factors t] in
  foldl (fun acc right => cpi_multiplication_gate acc.2 acc.1 right)
    (head ([::], tt) ws, foldl check_constant st (factors t)) (behead ws).

Lemma cpi_term_wireE st t : cpi_term_wire st t = Ret (cterm st t).
Proof.
rewrite /cpi_term_wire.
have -> : cpi_term_wires st t = ([seq (f, tt) | f <- factors t], foldl check_constant st (factors t)).
  rewrite /cpi_term_wires /factors.
  set fn := (X in foldl X _ _).
  suff H ws st0 ps : foldl fn (ws, st0) ps = (ws ++ [seq (f, tt) | f <- map str_trim ps],
      foldl check_constant st0 (map str_trim ps)) by rewrite H.
  elim: ps ws st0 => [|p ps IH] ws st0 /=; first by rewrite cats0.
  by rewrite /fn /= IH cat_rcons.
by rewrite /cterm; have [f [fs ->]] := factors_neq0 t.
Qed.

Definition cadd (acc : pwire U * pstate U) t : pwire U * pstate U :=
  let p := cterm acc.2 t in cpi_additional_gate p.2 acc.1 p.1.
Definition csum st t ts := foldl cadd (cterm st t) ts.

Lemma cpi_sum_gatesE st t ts : cpi_sum_gates st (t :: ts) = Ret (Some (csum st t ts).1, (csum st t ts).2).
Proof.
rewrite /cpi_sum_gates cpi_term_wireE /= /csum.
have pe (p : pwire U * pstate U) : p = (p.1, p.2) by case: p.
rewrite {1}[cterm st t]pe.
suff H acc : ofold (fun (acc : pwire U * pstate U) t => '(cur, st) <- cpi_term_wire acc.2 t;;
    Ret (cpi_additional_gate st acc.1 cur)) acc ts = Ret (foldl cadd acc ts).
  by rewrite H -pe /= {1}[foldl _ _ _]pe.
elim: ts acc => [|t' ts IH] acc //=; rewrite cpi_term_wireE /= {1}[cterm _ _]pe /= -IH.
by rewrite /cadd.
Qed.

End CpiPure.

(* ------------------------------------------------------------------ *)
(* simulation *)
Section Simulation.
Variables (F : fieldType) (W : bytes -> option F).
Hypothesis noNum : forall z, W (i32_to_string z) = None.
Local Notation U := [eqType of unit].

(* the factors on which both front ends see the same constants *)
Definition agree (f : bytes) : bool :=
  match W (unsigned f), parse_i32 (unsigned f), parse_i32 f with
  | Some _, _, None => true
  | None, None, None => true
  | None, Some z, Some z' => ((const_wire F f z).1 == f) && (fr_i32 F z' == (const_wire F f z).2)
  | _, _, _ => false
  end.

Definition good st := [/\ recorded st, ssound W st & all (fun g => if pg_type g is Constant then
   if parse_i32 (pg_left g).1 is Some z then fr_i32 F z == (pg_left g).2 else false else true) (ps_list st)].

Lemma cstate_sim st f : agree f -> good st ->
  es (cstate W st f) = check_constant (es st) f /\ good (cstate W st f).
Proof.
move=> ag [rec snd cst]; have [Es _] := rec.
have rec' := cstate_recorded W f rec; have snd' := cstate_sound noNum f snd.
split; last split=> //; move: ag; rewrite /agree /check_constant /cstate;
  case Ew: (W _) => [v|]; case E1: (parse_i32 (unsigned f)) => [z|]; case E2: (parse_i32 f) => [z'|] //.
  case/andP=> /eqP El Ev; rewrite /generate_constant_gate (emit_erase (W := W)) //.
    by rewrite /cpi_constant_gate /eg /ew /= !El.
  have := cstate_sound noNum f snd; rewrite /cstate Ew E1 => /= _.
  have [hw hp] := const_wire_sound noNum E1.
  have s0 : sval W [:: "0"%char] = 0.
    by rewrite sval_atom // /fval (_ : _ == _ = false) // -[[:: _]]/(i32_to_string Z0) base_value_i32.
  by rewrite /gsound hw /= /wsound sval_add /= s0 eqxx /= addr0 addr0 -(eqP hw) eqxx.
case/andP=> /eqP El Ev; rewrite /generate_constant_gate /emit; case: ifP => // _ /=.
by rewrite all_rcons cst andbT /= El E2.
Qed.

Lemma emit_good st g : gsound W g -> (if pg_type g is Constant then False else True) -> good st -> good (emit st g).
Proof.
move=> hg ht [rec snd cst]; split; [exact: emit_recorded|exact: emit_sound|].
by rewrite /emit; case: ifP => //= _; rewrite all_rcons cst andbT; case: pg_type ht.
Qed.

Lemma pterm_sim st t : "+"%char \notin t -> all agree (factors t) -> good st ->
  [/\ es (pterm W st t).2 = (cterm (es st) t).2, ew (pterm W st t).1 = (cterm (es st) t).1
    & good (pterm W st t).2].
Proof.
move=> nt ag h; rewrite /pterm /cterm.
have [E0 h0] : es (foldl (cstate W) st (factors t)) = foldl check_constant (es st) (factors t) /\
    good (foldl (cstate W) st (factors t)).
  elim: (factors t) st ag h => [|f fs IH] st0 //= /andP[ag1 ag2] h0.
  by have [E1 h1] := cstate_sim ag1 h0; rewrite -E1; apply: IH.
rewrite -E0; move: (foldl _ _ _) h0 => st0 h0 {E0}.
have Hf f : f \in factors t -> "+"%char \notin f /\ wsound W (f, fval W f).
  move=> fi; have np : "+"%char \notin f.
    by apply/negP => /(factors_mem fi)/andP[h1]; rewrite (negbTE nt) in h1.
  split=> //; rewrite /wsound /= sval_atom //.
  by apply/negP => /(factors_mem fi)/andP[].
have [f [fs E]] := factors_neq0 t; rewrite E in Hf *; rewrite [head _ _]/= [behead _]/= [head _ _]/= [behead _]/=.
have [n0 s0] := Hf f (mem_head _ _).
have {Hf} : forall g, g \in fs -> "+"%char \notin g /\ wsound W (g, fval W g).
  by move=> g gi; apply: Hf; rewrite inE gi orbT.
rewrite -[(f, tt)]/(ew (f, fval W f)); have n0' : "+"%char \notin (f, fval W f).1 by [].
move: (f, fval W f) s0 n0' => w s0 n0' {E n0}.
elim: fs w st0 s0 n0' h0 => [|g fs IH] w st0 s0 n0 h0 Hf //=.
have [ng sg] := Hf g (mem_head _ _).
case: (h0) => rec snd cst; have [Es _] := rec.
have [hs hw] := mul_sound (w1 := w) (w2 := (g, fval W g)) s0 sg n0 ng snd.
set m := generate_multiplication_gate st0 w (g, fval W g) in hs hw *.
have gs : gsound W (PGate w (g, fval W g) m.1 Multiplication) by rewrite /gsound s0 sg hw /=.
have Em : cpi_multiplication_gate (es st0) (ew w) (g, tt) = (ew m.1, es m.2).
  by rewrite {2}/m /generate_multiplication_gate /= (emit_erase (W := W)).
rewrite Em; apply: IH => //.
- by rewrite /m /= mem_cat inE negb_or n0.
- exact: emit_good gs _ h0.
by move=> k ki; apply: Hf; rewrite inE ki orbT.
Qed.

Lemma psum_sim t ts st : all (fun t => "+"%char \notin t) (t :: ts) ->
  all (fun t => all agree (factors t)) (t :: ts) -> good st ->
  [/\ es (psum W st t ts).2 = (csum (es st) t ts).2, ew (psum W st t ts).1 = (csum (es st) t ts).1
    & good (psum W st t ts).2].
Proof.
move=> /= /andP[n0 ns] /andP[a0 as_] h; rewrite /psum /csum.
have [E1 E2 h1] := pterm_sim n0 a0 h; have [_ w1 _] := pterm_sound noNum n0 (let: And3 _ b _ := h in b).
have -> : cterm (es st) t = (ew (pterm W st t).1, es (pterm W st t).2) by rewrite E1 E2; case: cterm.
move: (pterm W st t) h1 w1 => acc h1 w1 {E1 E2}.
elim: ts acc ns as_ h1 w1 => [|t' ts IH] acc //= /andP[n1 ns] /andP[a1 as_] h1 w1.
have [E1 E2 h2] := pterm_sim n1 a1 h1; have [_ w2 _] := pterm_sound noNum n1 (let: And3 _ b _ := h1 in b).
have hb : wsound W (padd W acc t').1 by rewrite /wsound /padd /= sval_add -(eqP w1) -(eqP w2).
have gs : gsound W (PGate acc.1 (pterm W acc.2 t').1 (padd W acc t').1 Addition).
  by rewrite /gsound w1 w2 hb /=.
have Ea : cadd (ew acc.1, es acc.2) t' = (ew (padd W acc t').1, es (padd W acc t').2).
  rewrite /cadd /padd /= -E1 -E2 /cpi_additional_gate /generate_additional_gate /=; congr (_, _).
  by rewrite (emit_erase (W := W)) //; case: h2 => -[].
rewrite Ea; apply: IH => //; exact: emit_good gs _ h2.
Qed.

End Simulation.

(* ------------------------------------------------------------------ *)
(* the generated gates *)
Section CpiGen.
Variable F : fieldType.
Local Notation U := [eqType of unit].
Implicit Types (gl : seq (pgate F)) (g : pgate F).

Lemma label_eg gl x : label (map (@eg F) gl) x = label gl x.
Proof.
rewrite /label -map_drop; case: (drop _ _) => // g s /=.
by case: (x.1) => [|[|k]] //; rewrite /gwire /= !nth_nil.
Qed.
Lemma occ_eg gl k : occ (map (@eg F) gl) k = occ gl k.
Proof. by rewrite /occ size_map; apply: eq_filter => x; rewrite label_eg. Qed.
Lemma target_eg gl x : target (map (@eg F) gl) x = target gl x.
Proof. by rewrite /target label_eg occ_eg. Qed.

Definition const_ok g : bool := if pg_type g is Constant then
   if parse_i32 (pg_left g).1 is Some z then fr_i32 F z == (pg_left g).2 else false else true.

Lemma cpi_gen_gates gl done rest c m : gl = done ++ rest -> all const_ok gl ->
  stage (map (@eg F) gl) (rowslots (size done)) m ->
  exists m', ofold (@cpi_gen_gate F) (c, m) (map (@eg F) rest) =
    Ret (c ++ map (@gate_of F) (calls_from gl (size done) rest), m').
Proof.
elim: rest done c m => [|g rest IH] done c m E ck st; first by exists m; rewrite cats0.
set ul := map (@eg F) gl in st.
have su : size ul = size gl by rewrite size_map.
have Eg : drop (size done) gl = g :: rest by rewrite E drop_size_cat.
have lb l : label ul (l, size done) = (gwire g l).1 by rewrite label_eg /label /= Eg.
have Er : rowslots (size ul) = rowslots (size done) ++
    [:: (0, size done); (1, size done); (2, size done)]%N ++ drop (3 * (size done).+1)%N (rowslots (size ul)).
  have Es n : size (rowslots n) = (3 * n)%N.
    by elim: n => // n IHn; rewrite rowslotsS size_cat IHn /= mulnS addnC.
  rewrite catA -rowslotsS -{1}(cat_take_drop (3 * (size done).+1)%N (rowslots (size ul))); congr (_ ++ _).
  have [k ->] : exists k, size ul = ((size done).+1 + k)%N.
    by exists (size rest); rewrite su E size_cat addSnnS.
  elim: k => [|k IHk]; first by rewrite addn0 take_oversize // Es.
  by rewrite addnS rowslotsS takel_cat // Es leq_mul2l leq_addr.
have [m1 E1 st1] := stage_pop (x := (0, size done)%N) Er st.
have [m2 E2 st2] := stage_pop (x := (1, size done)%N) (etrans Er (esym (cat_rcons _ _ _))) st1.
have [m3 E3 st3] := stage_pop (x := (2, size done)%N) (etrans Er (etrans (esym (cat_rcons _ _ _)) (esym (cat_rcons _ _ _)))) st2.
have st3' : stage ul (rowslots (size (rcons done g))) m3.
  by move: st3; rewrite size_rcons rowslotsS -!cats1 -!catA.
have E' : gl = rcons done g ++ rest by rewrite cat_rcons.
rewrite !lb /= !target_eg in E1 E2 E3.
have [m' Em] := IH (rcons done g) (rcons c (gate_of (gate_call_of gl (size done) g))) m3 E' ck st3'.
exists m'; rewrite /= /cpi_gen_gate /= E1 /= E2 /= E3 /=; move: Em; rewrite size_rcons cat_rcons => <-.
have : const_ok g by move: ck; rewrite E all_cat /= => /and3P[].
rewrite {1}/gate_of /const_ok /gate_call_of /wire_pos /=; case: (pg_type g) => //=.
by case: parse_i32 => //= z /eqP ->.
Qed.

Lemma cpi_gen_circuitE gl m : all const_ok gl -> (forall k, pm_getd m k = occ gl k) ->
  cpi_gen_circuit F (map (@eg F) gl) m = Ret (map (@gate_of F) (calls_of gl)).
Proof.
move=> ck H; rewrite /cpi_gen_circuit.
have st : stage (map (@eg F) gl) [::] (turn_map m) by apply: stage0 => k; rewrite occ_eg.
by have [m' ->] := cpi_gen_gates (done := [::]) [::] erefl ck st.
Qed.

End CpiGen.

(* ------------------------------------------------------------------ *)
(* compilation *)
Section CpiCompile.
Variables (F : fieldType) (P : fft_field F).
Implicit Types (calls : seq (gate_call F)).

(* without the wire polynomials *)
Definition public_gc (gc : gate_constraints F) : gate_constraints F :=
  GateConstraints [::] [::] [::] (q_lx gc) (q_rx gc) (q_ox gc) (q_mx gc) (q_cx gc) (pi_x gc).

Lemma cpi_sigma_rowsE calls n w : positions_ok calls n -> (size calls <= n)%N ->
  let roots := dom_elements (Domain n w) in
  let coset1 := [seq r * (1 + 1) | r <- roots] in
  let coset2 := [seq r * (1 + 1 + 1) | r <- roots] in
  let gs := map (@gate_of F) calls ++ nseq (n - size calls) (new_dummy_gate F) in
  cpi_sigma_rows roots coset1 coset2 gs = sigma_rows roots coset1 coset2 gs.
Proof.
move=> pos le roots coset1 coset2 gs.
have c0 : gate_call F by exact: (GateCall Constant (0%N,0%N,0) (0%N,0%N,0) (0%N,0%N,0) 0).
have sz : size gs = n by rewrite size_cat size_map size_nseq subnKC.
rewrite /cpi_sigma_rows /sigma_rows (@zip_iota _ (new_dummy_gate F)) !omapM_map.
have eqM (A : eqType) (B : Type) (f g : A -> outcome B) s : {in s, f =1 g} -> omapM f s = omapM g s.
  elim: s => //= a s IH H; rewrite H ?mem_head //; case: (g a) => //= b; rewrite IH //.
  by move=> x xs; apply: H; rewrite inE xs orbT.
apply: eqM => i; rewrite mem_iota sz add0n subn0 => /andP[_ li].
rewrite nth_cat size_map; case: ltnP => h; last by rewrite nth_nseq if_same.
rewrite (nth_map c0) // gate_of_not_dummy.
have hp l : (l < 3)%N -> ((call_wire (nth c0 calls i) l).1.1 < 3)%N.
  move=> l3; have xs : (l, i) \in slots n by rewrite mem_slots l3.
  have /slotsP[+ _] := allP pos _ xs.
  by rewrite slot_pos_call // (set_nth_default c0).
have me (x : slot) : (x.1 < 3)%N -> cpi_map_element roots coset1 coset2 (Pos x.1 x.2) =
    map_element roots coset1 coset2 (Pos x.1 x.2) by case: x => -[|[|[|]]].
set g := nth _ _ _ in hp *.
have := hp 0%N isT; have := hp 1%N isT; have := hp 2%N isT; rewrite /call_wire /= => h2 h1 h0.
have -> : a_pos (gate_of g) = Pos (call_a g).1.1 (call_a g).1.2 by rewrite /gate_of; case: call_type.
have -> : b_pos (gate_of g) = Pos (call_b g).1.1 (call_b g).1.2 by rewrite /gate_of; case: call_type.
have -> : c_pos (gate_of g) = Pos (call_c g).1.1 (call_c g).1.2 by rewrite /gate_of; case: call_type.
by rewrite !me.
Qed.

Lemma cpi_padE calls : cpi_pad (map (@gate_of F) calls) =
  if (1 < size calls)%N then
    Ret (map (@gate_of F) calls ++ nseq (csize calls - size calls) (new_dummy_gate F)) else Panic.
Proof.
rewrite /cpi_pad size_map; case: calls => [|g [|h calls]] //=.
by rewrite /csize /next_power_of_two up_log_trunc_log // addn1.
Qed.

Lemma cpi_compileE calls : positions_ok calls (csize calls) ->
  cpi_compile P (map (@gate_of F) calls) =
  (cc <- compile P (build calls);; Ret (public_gc (cc_gate cc), cc_copy cc, cc_size cc)).
Proof.
move=> pos; rewrite compileE /cpi_compile cpi_padE pos andbT.
case: ltnP => //= gt1.
have le : (size calls <= csize calls)%N by apply: next_pow2_ge.
rewrite size_cat size_map size_nseq subnKC // domain_newE.
case: ifP => //= dle; rewrite /cpi_cal_permutation size_cat size_map size_nseq subnKC // domain_newE dle /=.
rewrite /find_cosets index_roots expn_gt0 /= expr0 cpi_sigma_rowsE // sigma_rowsE //.
rewrite pos /= -!map_comp filter_cat (_ : [seq g <- nseq _ _ | _] = [::]); last first.
  by elim: (_ - _)%N.
have -> : [seq g <- map (@gate_of F) calls | ~~ is_dummy_gate g] = map (@gate_of F) calls.
  by apply/all_filterP; rewrite all_map; elim: (calls) => //= g s ->; rewrite gate_of_not_dummy.
rewrite cats0 -!map_comp /public_gc /compiled_of /=.
by rewrite -[3%:R]/((1 + (1 + 1))%N%:R) natrD addrC.
Qed.

End CpiCompile.

(* ------------------------------------------------------------------ *)
(* equations *)
Section CpiEquations.
Variables (F : fieldType) (W : bytes -> option F).
Hypothesis names : names_only W.
Local Notation U := [eqType of unit].

Lemma parse_i32_name x : name_ok x -> parse_i32 x = None /\ parse_i32 ("-"%char :: x) = None.
Proof.
case: x => // c x /and3P[nd nm /andP[/and5P[np _ _ _ _] _]].
by rewrite /parse_i32 /parse_digits /= (negbTE nm) (negbTE np) (negbTE nd).
Qed.

Lemma atom_agree n a p : factor_ok (Factor n a p) -> atom_defined W a -> factor_canonical (Factor n a p) ->
  agree W (atom_text a) /\ agree W ("-"%char :: atom_text a).
Proof.
move=> okf hd; have [a0 am _ _ an] := atom_facts names okf hd.
rewrite /agree unsigned_id //= /factor_canonical /=.
case: a okf hd a0 am an => [x|d] /= okf hd a0 am an.
  move: okf; rewrite /factor_ok /= => /andP[/parse_i32_name[E1 E2] _].
  by rewrite E1 E2; case: (W x) hd.
move=> can; move: okf; rewrite /factor_ok /= => /andP[/and3P[d0 dd dl] _].
have Wd : W d = None.
  by case: (d) d0 dd => // c s _ /= /andP[dc _]; apply: (no_num names); rewrite dc.
have Ed := parse_i32_digits d0 dd; rewrite dl in Ed.
case: an => _ E2; rewrite Wd Ed E2.
have Ei : i32_to_string (Z.of_N (digits_val d)) = d.
  by rewrite -[RHS](canonicalP d0 dd can); case: (digits_val d).
have nm : ohead d == Some "-"%char = false.
  by case: (d) dd => // c s /= /andP[dc _]; apply/eqP => -[E]; rewrite E in dc.
rewrite /const_wire nm /= Ei !eqxx /=; split=> //.
by rewrite fr_i32_opp fr_i32_N.
Qed.

Lemma factor_strings_agree f : factor_ok f -> atom_defined W (f_atom f) -> factor_canonical f ->
  all (agree W) (factor_strings f).
Proof.
case: f => n a p okf hd can; have [h1 h2] := atom_agree okf hd can.
apply/allP => s; rewrite inE => /orP[/eqP ->|/nseqP[-> _]] //.
by rewrite /signed_text /=; case: (n).
Qed.

Lemma term_strings_agree t : all factor_ok t -> all (fun f => atom_defined W (f_atom f)) t ->
  all factor_canonical t -> all (agree W) (term_strings t).
Proof.
move=> /allP okt /allP dt /allP ct; apply/allP => s /flattenP[ss /mapP[f ft ->]].
by apply: (allP (factor_strings_agree _ _ _)); [apply: okt|apply: dt|apply: ct].
Qed.

Lemma neg_head_agree t : all factor_ok t -> all (fun f => atom_defined W (f_atom f)) t ->
  all factor_canonical t -> (if t is f :: _ then ~~ f_neg f else true) ->
  all (agree W) (neg_head (term_strings t)).
Proof.
move=> okt dt ct; have := term_strings_agree okt dt ct.
case: t okt dt ct => // -[n a p] t /andP[okf _] /andP[hd _] /andP[cf _] /=.
rewrite -[f_atom _]/a in hd.
case: n okf cf => //= okf cf /andP[_ ->] _; rewrite andbT.
by case: (atom_agree okf hd cf).
Qed.

Variable e : equation.
Hypotheses (ok : equation_ok e) (defd : defined_on W e) (pre : preprocess_ok e).
Local Notation l := (lhs_text e).
Local Notation r := (rhs_text e).

Lemma cpi_prepareE : exists m,
  prepare_generation (l ++ "="%char :: r) = Ret (map (@eg F) (parsed_gates W l r), m) /\
  all (@const_ok F) (parsed_gates W l r) /\ forall k, pm_getd m k = occ (parsed_gates W l r) k.
Proof.
have nn := names_noNum names; have dl := defined_atoms defd.
have np := lhs_terms_no_plus ok.
have rp : "+"%char \notin "-"%char :: r by rewrite inE negb_or /= (rhs_no ok).
have nl := lhs_no_eq ok; have nr : "="%char \notin r by apply: rhs_no.
case/andP: pre => /allP can neg.
have ag : all (fun t => all (agree W) (factors t)) (lhs_terms l).
  rewrite (lhs_termsE ok); apply/allP => s /mapP[t th ->]; rewrite (lhs_factors ok th).
  have [_ okt] := lhs_ok ok th.
  by apply: term_strings_agree => //; [apply: dl|apply: can]; rewrite mem_rcons inE th orbT.
have agr : all (agree W) (factors ("-"%char :: r)).
  rewrite (rhs_factors ok); have [_ okr] := rhs_ok' ok.
  by apply: neg_head_agree => //; [apply: dl|apply: can]; rewrite mem_rcons mem_head.
rewrite /prepare_generation /parsed_gates; lazy zeta.
have -> : split_on "="%char (l ++ "="%char :: r) = [:: l; r] by apply/split_two.
move: np ag; have [t0 [ts0 Et]] := split_neq0 "+"%char l; rewrite -/(lhs_terms l) in Et *.
rewrite Et [head _ _]/= [behead _]/= => np ag.
have g0 : good W (pstate0 F) by split=> //; apply: recorded0.
have np' : all (fun t => "+"%char \notin t) (t0 :: rcons ts0 ("-"%char :: r)) by rewrite -rcons_cons all_rcons rp.
have ag' : all (fun t => all (agree W) (factors t)) (t0 :: rcons ts0 ("-"%char :: r)).
  by rewrite -rcons_cons all_rcons agr.
have [E1 _ [[_ rec] _ cst]] := psum_sim nn np' ag' g0.
have := psum_last W t0 ts0 ("-"%char :: r) (recorded0 F) isT; lazy zeta.
set p := psum W (pstate0 F) t0 ts0; set q := pterm W p.2 ("-"%char :: r).
set g := PGate p.1 q.1 (p.1.1 ++ str "+" ++ q.1.1, p.1.2 + q.1.2) Addition => El.
rewrite -[PGate p.1 q.1 _ Addition]/(change_result g 0).
rewrite rcons_cons cpi_sum_gatesE /= -[pstate0 U]/(es (pstate0 F)) -E1 /es [ps_list _]/= [ps_pos _]/= El.
exists (ps_pos (psum W (pstate0 F) t0 (rcons ts0 ("-"%char :: r))).2); split; last split.
- by rewrite !map_rcons.
- by move: cst; rewrite El !all_rcons.
by move=> k; rewrite occ_change -El -rec.
Qed.

(* the preprocessor returns what the parser's circuit compiles to *)
Lemma compute_cpiE (P : fft_field F) (E : pairing_group F) (S : srs E) input :
  cleaned input = equation_text e ->
  compute_cpi P S input =
  (cir <- parse W input;; cc <- compile P cir;;
   cpi_new S (public_gc (cc_gate cc), cc_copy cc, cc_size cc)).
Proof.
move=> Ei; have En := normalised ok Ei.
have [m [Ep [ck Em]]] := cpi_prepareE.
have nl := lhs_no_eq ok; have nr : "="%char \notin r by apply: rhs_no.
rewrite (parseE W En nl nr) (equation_known ok names defd) bindRet /compute_cpi En /= Ep /= cpi_gen_circuitE //=.
rewrite cpi_compileE; first by case: compile.
set gl := parsed_gates W l r.
have le : (size gl <= csize (calls_of gl))%N by rewrite -(size_calls_of gl); apply: next_pow2_ge.
by apply/allP => x; apply: slot_pos_in.
Qed.

End CpiEquations.
