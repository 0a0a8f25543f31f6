(* C91: names of variables do not matter, and negated right sides are not read. *)
From Coq Require Import String Ascii NArith ZArith.
Set Warnings "-notation-overridden,-ambiguous-paths".
From mathcomp Require Import all_ssreflect all_algebra.
From mathcomp Require Import zify ring.
From Verif Require Import Base BaseLemmas ArkPoly ArkDomain ArkDomainLemmas ArkPolyFft KzgModel KzgSpec
  PlonkModel PlonkSpec PlonkLemmas PlonkCompile PlonkRefine PlonkProve PlonkVerify PlonkProps.
From Verif Require Import ParserModel ParserSpec ParserStrings ParserGates ParserParse ParserSound
  ParserAst ParserCircuit ParserProps CpiLemmas CpiProps ParserRename RenameSpec CpiVerifyProps.

Set Implicit Arguments.
Unset Strict Implicit.
Unset Printing Implicit Defensive.

Import GRing.Theory.
Local Open Scope ring_scope.

Local Arguments parse_i32 : simpl never.
Local Arguments digits_val : simpl never.

(* ------------------------------------------------------------------ *)
(* maps of factors that keep literals *)
Definition keeps (p : bytes -> bytes) : Prop :=
  [/\ forall s, op_free s -> op_free (p s), forall s, parse_i32 (p s) = parse_i32 s,
      forall s, isSome (parse_i32 s) -> p s = s & p [::] = [::]].

Lemma plain_op_free s : all plain_char s -> op_free s.
Proof. by apply: sub_all => c /and4P[a b _ _]; rewrite /is_op negb_or a b. Qed.

Lemma name_op_free x : name_ok x -> op_free x.
Proof. by case/name_okP=> _ h _; apply: plain_op_free; apply: sub_all h; exact: name_char_plain. Qed.

Lemma name_not_literal x : name_ok x -> parse_i32 x = None /\ parse_i32 ("-"%char :: x) = None.
Proof. exact: parse_i32_name. Qed.

Lemma digits_op_free d : all is_digit d -> op_free d.
Proof. by move=> h; apply: plain_op_free; apply: sub_all h; exact: digit_plain. Qed.

Lemma literal_kept p s : keeps p -> isSome (parse_i32 s) -> rename_name p s = s.
Proof.
case=> _ _ lit p0 h; case of_: (op_free s); first by rewrite rename_free ?lit.
case: s h of_ => [|c t] //; case Ec: (c == "-"%char).
  rewrite {1}/parse_i32 Ec /parse_digits; case: ifP => // /andP[_ /digits_op_free dt] _.
  by rewrite /= dt (eqP Ec).
case Ep: (c == "+"%char); last first.
  rewrite {1}/parse_i32 Ec Ep /parse_digits; case: ifP => // /andP[_ /digits_op_free dt] _.
  by rewrite dt.
rewrite (eqP Ep) => h _; rewrite -[_ :: t]/([::] ++ "+"%char :: t) rename_op //.
have : isSome (parse_i32 t) /\ op_free t.
  move: h; rewrite {1}/parse_i32 [("+"%char == _)]/= /parse_digits; case: ifP => // /andP[t0 td].
  rewrite (parse_i32_digits t0 td) digits_op_free // eqxx => h; split=> //; move: h.
  case: N.leb_spec => // lt; case: ifP => // /andP[_ /Z.leb_spec0]; move: lt; rewrite /max_i32.
  by move: (digits_val t) => n; clear; lia.
by case=> ht oft; rewrite !rename_free // p0 lit.
Qed.

Section Same.
Variables (F : fieldType) (P : fft_field F) (E : pairing_group F) (S : srs E).

(* two texts whose factors correspond *)
Lemma cpi_same p q l rt l' rt' input input' : keeps p -> (forall s, op_free s -> q (p s) = s) ->
  parse_string input = Ret (l ++ "="%char :: rt) -> "="%char \notin l -> "="%char \notin rt ->
  parse_string input' = Ret (l' ++ "="%char :: rt') -> "="%char \notin l' -> "="%char \notin rt' ->
  all (all op_free) (map factors (rcons (lhs_terms l) ("-"%char :: rt))) ->
  map factors (rcons (lhs_terms l') ("-"%char :: rt')) =
    map (map p) (map factors (rcons (lhs_terms l) ("-"%char :: rt))) ->
  compute_cpi P S input = compute_cpi P S input'.
Proof.
move=> kp qK En nl nr En' nl' nr' free Ef; have [k1 k2 k3 k4] := kp.
rewrite (compute_pure P S En nl nr) (compute_pure P S En' nl' nr').
set r := rename_name p.
have ri : injective r by apply: (@rename_inj p q).
have rop a c b : is_op c -> r (a ++ c :: b) = r a ++ c :: r b by apply: rename_op.
have r0 : r (str "0") = str "0" by apply: literal_kept.
suff Eg : cpi_gates l' rt' = map (rg r) (cpi_gates l rt).
  have El : map (lift F) (cpi_gates l' rt') = map (rg r) (map (lift F) (cpi_gates l rt)).
    rewrite Eg -!map_comp.
    have [lit _] := csum_literals (head [::] (lhs_terms l)) (rcons (behead (lhs_terms l)) ("-"%char :: rt)).
    rewrite -[ps_list _]/(cpi_gates l rt) in lit.
    elim: (cpi_gates l rt) lit => //= g gs IH /andP[lg /IH ->]; congr (_ :: _).
    rewrite /lift /rg /rw /vw /=; congr PGate.
    by move: lg; rewrite /literal; case: (pg_type g) => //= h; rewrite [r _](literal_kept kp h).
  by rewrite El calls_of_rg.
move: free Ef; rewrite /cpi_gates.
have [t0 [ts0 Et]] := split_neq0 "+"%char l; have [t1 [ts1 Et']] := split_neq0 "+"%char l'.
rewrite /lhs_terms Et Et' [head _ _]/= [behead _]/= !csumE !rcons_cons !map_cons !map_rcons.
rewrite ?[head [::] (t0 :: ts0)]/= ?[head [::] (t1 :: ts1)]/=.
move=> free [-> Ets]; rewrite Ets.
have ng u : factors u != [::] by have [f [fs ->]] := factors_neq0 u.
set fss := rcons (map factors ts0) (factors ("-"%char :: rt)).
rewrite -map_rcons -/fss.
have gd : all (fun fs => (fs != [::]) && all op_free fs) (factors t0 :: fss).
  have : all (all op_free) (factors t0 :: fss) := free.
  rewrite /fss -map_rcons -map_cons; elim: (t0 :: _) => //= u us IH /andP[-> /IH ->].
  by rewrite ng.
have fw0 : follows r (pstate0 [eqType of unit]) (pstate0 [eqType of unit]) by [].
have [|||||_ []] // := @gsum_follows _ r cpi_multiplication_gate cpi_additional_gate check_constant check_constant
  (fun=> tt) (fun=> tt) ([::], tt) p op_free _ _ _ _ _ (pstate0 _) (pstate0 _) (factors t0) fss gd fw0.
- by move=> st st' a b; apply: cpi_mul_follows.
- by move=> st st' a b; apply: cpi_add_follows.
- move=> st st' x gx fw; apply: check_follows => // h; split; first exact: k3.
  exact: literal_kept.
by move=> x gx; apply: rename_free.
Qed.

(* two equations whose factors correspond *)
Lemma equation_factors e : equation_ok e ->
  map factors (rcons (lhs_terms (lhs_text e)) ("-"%char :: rhs_text e)) =
  rcons (map term_strings (e_lhs e)) (neg_head (term_strings (e_rhs e))).
Proof.
move=> ok; rewrite map_rcons (rhs_factors ok) (lhs_termsE ok) -map_comp; congr rcons.
by apply/eq_in_map => t th /=; exact: (lhs_factors ok th).
Qed.

Lemma neg_head_free ss : all op_free ss -> all op_free (neg_head ss).
Proof. by case: ss. Qed.

Lemma cpi_same_equation p q e e' input input' : equation_ok e -> equation_ok e' ->
  keeps p -> (forall s, op_free s -> q (p s) = s) ->
  map term_strings (e_lhs e') = map (map p) (map term_strings (e_lhs e)) ->
  neg_head (term_strings (e_rhs e')) = map p (neg_head (term_strings (e_rhs e))) ->
  cleaned input = equation_text e -> cleaned input' = equation_text e' ->
  compute_cpi P S input = compute_cpi P S input'.
Proof.
move=> ok ok' kp qK El Er Ei Ei'.
have nr e0 : equation_ok e0 -> "="%char \notin rhs_text e0 by move=> ok0; apply: rhs_no.
apply: (cpi_same kp qK (normalised ok Ei) (lhs_no_eq ok) (nr _ ok) (normalised ok' Ei') (lhs_no_eq ok') (nr _ ok')).
  rewrite equation_factors // all_rcons; apply/andP; split.
    apply: neg_head_free; apply/allP => s hs; apply: plain_op_free.
    exact: (term_strings_plain (rhs_ok' ok).2 hs).
  apply/allP => ss /mapP[t th ->]; apply/allP => s hs; apply: plain_op_free.
  exact: (term_strings_plain (lhs_ok ok th).2 hs).
by rewrite !equation_factors // El Er map_rcons.
Qed.

End Same.

(* ------------------------------------------------------------------ *)
(* exchanging two strings *)
Definition swap (a b s : bytes) : bytes := if s == a then b else if s == b then a else s.

Lemma swapK a b : involutive (swap a b).
Proof.
move=> s; rewrite /swap; case: (s =P a) => [->|na]; first by rewrite eqxx; case: (b =P a).
by case: (s =P b) => [->|nb]; [rewrite eqxx|case: eqP => //; case: eqP].
Qed.

Lemma swap_l a b : swap a b a = b. Proof. by rewrite /swap eqxx. Qed.
Lemma swap_id a b s : s != a -> s != b -> swap a b s = s.
Proof. by rewrite /swap => /negbTE -> /negbTE ->. Qed.

Lemma name_ok_minus s : name_ok ("-"%char :: s) = false.
Proof. by []. Qed.

(* ------------------------------------------------------------------ *)
(* the negated numeral *)
Section NegativeHead.
Variables (F : fieldType) (P : fft_field F) (E : pairing_group F) (S : srs E).
Variables (e : equation) (d z : bytes) (t : seq factor).
Hypotheses (ok : equation_ok e) (neg : negative_head e d t).
Hypotheses (zok : name_ok z) (fresh : z \notin equation_names e).

Lemma replaced_ok : equation_ok (head_replaced e z t).
Proof.
move: ok; rewrite /equation_ok neg => /and4P[E1 E2 _ /andP[_ E3]].
by apply/and4P; split=> //; apply/andP; split=> //; rewrite /factor_ok /= zok.
Qed.

Lemma head_numeral : numeral_ok d.
Proof. by move: ok; rewrite /equation_ok neg => /and4P[_ _ _ /andP[]]; rewrite /factor_ok /= => /andP[->]. Qed.

Let dd : bytes := "-"%char :: "-"%char :: d.
Let mz : bytes := "-"%char :: z.

Lemma head_keeps : keeps (swap dd mz).
Proof.
have /and3P[d0 hd _] := head_numeral.
have n1 : parse_i32 dd = None by [].
have n2 : parse_i32 mz = None by have [] := name_not_literal zok.
split.
- move=> s h; rewrite /swap; case: ifP => _; first by rewrite /= name_op_free.
  by case: ifP => _ //; rewrite /= digits_op_free.
- by move=> s; rewrite /swap; case: eqP => [->|_]; [rewrite n1 n2|case: eqP => [->|//]; rewrite n1 n2].
- move=> s h; apply: swap_id; apply/eqP => E0; move: h; by rewrite E0 ?n1 ?n2.
by rewrite swap_id.
Qed.

Lemma factor_fixed f s : factor_ok f -> z \notin factor_names f -> s \in factor_strings f -> swap dd mz s = s.
Proof.
move=> okf nz hs.
have am : forall u, atom_text (f_atom f) <> "-"%char :: u.
  move: okf; rewrite /factor_ok; case: (f_atom f) => [x|k] /andP[].
    by case/name_okP=> _ _ h _ u Eu; exact: (h u Eu).
  by case/and3P=> _ h _ _ u Eu; rewrite /= in Eu; move: h; rewrite Eu.
have az : atom_text (f_atom f) <> z.
  move: okf nz; rewrite /factor_ok /factor_names; case: (f_atom f) => [x|k] /andP[okx _] /=.
    by rewrite inE => /eqP nz Ez; apply: nz.
  move=> _ Ek; move: zok; rewrite -Ek; case/and3P: okx; case: (k) => // c u _ /= /andP[dc _] _.
  by rewrite dc.
have sE : s = atom_text (f_atom f) \/ s = "-"%char :: atom_text (f_atom f).
  move: hs; rewrite inE => /orP[/eqP ->|/nseqP[-> _]]; last by left.
  by rewrite /signed_text; case: (f_neg f); [right|left].
apply: swap_id; apply/eqP => Es; case: sE => E2; rewrite Es in E2.
- exact: (am _ (esym E2)).
- by case: E2 => E2; exact: (am _ (esym E2)).
- exact: (am _ (esym E2)).
by case: E2 => E2; exact: (az (esym E2)).
Qed.

Lemma term_fixed u : all factor_ok u -> (forall f, f \in u -> z \notin factor_names f) ->
  map (swap dd mz) (term_strings u) = term_strings u.
Proof.
move=> /allP okf nz; rewrite -[RHS]map_id; apply/eq_in_map => s /flattenP[ss /mapP[f fu ->]].
by apply: factor_fixed; [apply: okf|apply: nz].
Qed.

Lemma fresh_in u f : u \in rcons (e_lhs e) (e_rhs e) -> f \in u -> z \notin factor_names f.
Proof.
move=> hu hf; apply: contra fresh => h; apply/flattenP; exists (factor_names f) => //.
by apply: map_f; apply/flattenP; exists u.
Qed.

(* A negated numeral at the head of the right side is read as the name of a variable
   that occurs nowhere else: the preprocessed input is that of the equation with any
   fresh variable in its place. *)
Theorem C91_negative_right_side input input' :
  cleaned input = equation_text e -> cleaned input' = equation_text (head_replaced e z t) ->
  compute_cpi P S input = compute_cpi P S input'.
Proof.
apply: (@cpi_same_equation _ _ _ _ (swap dd mz) (swap dd mz)) => //.
- exact: replaced_ok.
- exact: head_keeps.
- by move=> s _; apply: swapK.
- rewrite -map_comp; apply/eq_in_map => u hu /=; rewrite term_fixed //.
    by have [] := lhs_ok ok hu.
  by move=> f; apply: fresh_in; rewrite mem_rcons inE hu orbT.
rewrite neg /= -/dd -/mz swap_l; congr (_ :: _); rewrite -/(term_strings t) term_fixed //.
  by have [_] := rhs_ok' ok; rewrite neg /= => /andP[].
by move=> f hf; apply: (@fresh_in (e_rhs e)); rewrite ?mem_rcons ?mem_head // neg inE hf orbT.
Qed.

End NegativeHead.

(* ------------------------------------------------------------------ *)
(* renaming variables *)

(* a one-to-one map of names extends to a permutation of all strings *)
Lemma extend_names (xs : seq bytes) (f : bytes -> bytes) :
  {in xs &, injective f} -> all name_ok xs -> all name_ok (map f xs) ->
  exists p q, [/\ cancel p q, cancel q p, forall s, name_ok (p s) = name_ok s,
    forall s, ~~ name_ok s -> p s = s & {in xs, p =1 f}].
Proof.
elim: xs => [|x xs IH] fi /=; first by exists id, id; split.
case/andP=> nx nxs /andP[nfx nfxs].
have fi' : {in xs &, injective f} by move=> a b ha hb; apply: fi; rewrite inE ?ha ?hb orbT.
have [p [q [pK qK pn pi pf]]] := IH fi' nxs nfxs.
case xin: (x \in xs).
  by exists p, q; split=> // s; rewrite inE => /orP[/eqP ->|]; apply: pf.
have npx : name_ok (p x) by rewrite pn.
have sn s : name_ok (swap (p x) (f x) s) = name_ok s.
  by rewrite /swap; case: eqP => [->|_]; [rewrite nfx npx|case: eqP => [->|//]; rewrite nfx npx].
exists (swap (p x) (f x) \o p), (q \o swap (p x) (f x)); split.
- by move=> s /=; rewrite swapK pK.
- by move=> s /=; rewrite qK swapK.
- by move=> s /=; rewrite sn pn.
- move=> s ns /=; rewrite (pi _ ns) swap_id //; apply/eqP => E; move: ns; by rewrite E ?npx ?nfx.
move=> s; rewrite inE => /orP[/eqP ->|hs] /=; first exact: swap_l.
rewrite swap_id; first exact: pf.
  by rewrite (can_eq pK); apply/eqP => E; rewrite -E hs in xin.
rewrite pf //; apply/eqP => /fi; rewrite !inE hs eqxx orbT => /(_ isT isT) E.
by rewrite -E hs in xin.
Qed.

(* the names of factors, with or without a minus sign *)
Definition signed (p : bytes -> bytes) (s : bytes) : bytes :=
  if s is c :: x then if (c == "-"%char) && name_ok x then "-"%char :: p x else p s else p s.

Section Signed.
Variables p q : bytes -> bytes.
Hypotheses (pK : cancel p q) (pn : forall s, name_ok (p s) = name_ok s) (pi : forall s, ~~ name_ok s -> p s = s).

Lemma signed_other s : ~~ name_ok s -> ~~ (if s is c :: x then (c == "-"%char) && name_ok x else false) -> signed p s = s.
Proof. by case: s => [|c x] ns; rewrite /signed; [rewrite pi|move=> /negbTE ->; rewrite pi]. Qed.

Lemma signed_name s : name_ok s -> signed p s = p s.
Proof.
by case: s => // c x h; rewrite /signed; case: eqP => // E; rewrite E name_ok_minus in h.
Qed.

Lemma signed_minus x : name_ok x -> signed p ("-"%char :: x) = "-"%char :: p x.
Proof. by move=> h; rewrite /signed eqxx h. Qed.

Lemma signed_cases s : [\/ name_ok s, exists2 x, s = "-"%char :: x & name_ok x | signed p s = s].
Proof.
case ns: (name_ok s); first by constructor 1.
case E: (if s is c :: x then (c == "-"%char) && name_ok x else false).
  by case: s E ns => // c x /andP[/eqP -> nx] _; constructor 2; exists x.
by constructor 3; apply: signed_other; rewrite ?ns ?E.
Qed.

Lemma signed_keeps : keeps (signed p).
Proof.
split.
- move=> s h; case: (signed_cases s) => [ns|[x -> nx]|->] //.
    by rewrite signed_name //; apply: name_op_free; rewrite pn.
  by rewrite signed_minus //= name_op_free ?pn.
- move=> s; case: (signed_cases s) => [ns|[x -> nx]|->] //.
    rewrite signed_name //; have [-> _] := name_not_literal ns.
    by have [] := @name_not_literal (p s); rewrite ?pn.
  rewrite signed_minus //; have [_ ->] := name_not_literal nx.
  by have [] := @name_not_literal (p x); rewrite ?pn.
- move=> s; case: (signed_cases s) => [ns|[x -> nx]|->] //.
    by have [-> _] := name_not_literal ns.
  by have [_ ->] := name_not_literal nx.
by rewrite signed_other.
Qed.
End Signed.

Lemma signedK p q : cancel p q -> cancel q p -> (forall s, name_ok (p s) = name_ok s) ->
  (forall s, ~~ name_ok s -> p s = s) -> cancel (signed p) (signed q).
Proof.
move=> pK qK pn pi s.
have qn u : name_ok (q u) = name_ok u by rewrite -{2}(qK u) pn.
have qi u : ~~ name_ok u -> q u = u by move=> nu; rewrite -{1}(pi _ nu) pK.
case: (signed_cases pi s) => [ns|[x -> nx]|Es].
- by rewrite !signed_name ?pn // pK.
- by rewrite !signed_minus ?pn // pK.
case: (signed_cases qi s) => [ns|[x Ex nx]|Es']; last by rewrite Es.
  by move: Es; rewrite signed_name // => Es; rewrite !signed_name ?pn // pK.
by move: Es; rewrite Ex => _; rewrite !signed_minus ?pn // pK.
Qed.

Section Renaming.
Variables (e : equation) (f : bytes -> bytes).
Hypotheses (ok : equation_ok e) (ok' : equation_ok (rename_equation f e)).
Hypothesis fi : {in equation_names e &, injective f}.

Lemma in_names u t x : u \in rcons (e_lhs e) (e_rhs e) -> t \in u -> f_atom t = Var x -> x \in equation_names e.
Proof.
move=> hu ht Ea; apply/flattenP; exists (factor_names t); last by rewrite /factor_names Ea inE.
by apply: map_f; apply/flattenP; exists u.
Qed.

Lemma factor_of_ok e0 u t : equation_ok e0 -> u \in rcons (e_lhs e0) (e_rhs e0) -> t \in u -> factor_ok t.
Proof.
move=> ok0; rewrite mem_rcons inE => /orP[/eqP ->|hu] ht.
  by have [_ /allP] := rhs_ok' ok0; apply.
by have [_ /allP] := lhs_ok ok0 hu; apply.
Qed.

Lemma names_are_ok e0 : equation_ok e0 -> all name_ok (equation_names e0).
Proof.
move=> ok0; apply/allP => x /flattenP[s /mapP[t /flattenP[u hu ht] ->]].
have := factor_of_ok ok0 hu ht; rewrite /factor_ok /factor_names; case: (f_atom t) => [y|] //.
by case/andP=> h _; rewrite inE => /eqP ->.
Qed.

Lemma renamed_names : equation_names (rename_equation f e) = map f (equation_names e).
Proof.
rewrite /equation_names /= -map_rcons -map_flatten [RHS]map_flatten -map_comp -[in RHS]map_comp.
congr flatten; apply: eq_map => t /=.
by rewrite /factor_names /rename_factor /=; case: (f_atom t).
Qed.

Lemma renamed_strings p u : (forall t x, t \in u -> f_atom t = Var x -> name_ok x /\ p x = f x) ->
  (forall t, t \in u -> factor_ok t) -> (forall s, ~~ name_ok s -> p s = s) ->
  term_strings (map (rename_factor f) u) = map (signed p) (term_strings u).
Proof.
move=> H okf pi; rewrite /term_strings map_flatten -!map_comp; congr flatten.
apply/eq_in_map => t ht /=.
have Ea : atom_text (f_atom (rename_factor f t)) = signed p (atom_text (f_atom t)) /\
    "-"%char :: atom_text (f_atom (rename_factor f t)) = signed p ("-"%char :: atom_text (f_atom t)).
  rewrite /rename_factor /=; case Et: (f_atom t) => [x|k] /=.
    by have [nx px] := H t x ht Et; rewrite signed_name // nx px.
  have := okf t ht; rewrite /factor_ok Et => /andP[/and3P[k0 kd _] _].
  have nk : name_ok k = false by case: (k) kd k0 => // c s /= /andP[-> _].
  rewrite nk pi ?name_ok_minus // signed_other ?nk //.
  by case: (k) kd => // c s /= /andP[dc _]; rewrite digit_not_sign.
case: Ea => E1 E2; rewrite /factor_strings /factor_count /= map_nseq -E1; congr (_ :: _).
by rewrite /signed_text; rewrite [f_neg (rename_factor f t)]/=; case: (f_neg t); rewrite ?cat1s ?cat0s.
Qed.

Lemma renamed_head p : (forall t x, t \in e_rhs e -> f_atom t = Var x -> name_ok x /\ p x = f x) ->
  (forall s, ~~ name_ok s -> p s = s) ->
  neg_head (term_strings (map (rename_factor f) (e_rhs e))) =
    map (signed p) (neg_head (term_strings (e_rhs e))).
Proof.
move=> H pi; have okr t : t \in e_rhs e -> factor_ok t.
  by apply: (factor_of_ok ok); rewrite mem_rcons mem_head.
rewrite (renamed_strings H okr pi).
have rok : rhs_ok (e_rhs e) by case/and4P: ok.
case Er: (e_rhs e) rok => [|[n a k] t] //; rewrite /rhs_ok /= => hn; congr (_ :: _).
have hin : Factor n a k \in e_rhs e by rewrite Er mem_head.
rewrite /signed_text /=; case: a {Er} hin hn => [x|d] hin hn.
  case: n hn hin => // _ hin; have [nx px] := H _ x hin erefl.
  by rewrite cat0s /= nx -/(signed p x) signed_name.
have := okr _ hin; rewrite /factor_ok /= => /andP[/and3P[k0 kd _] _].
have nk : name_ok d = false by case: (d) kd k0 => // c s /= /andP[-> _].
have Ed : signed p d = d.
  by rewrite signed_other ?nk //; case: (d) kd => // c s /= /andP[dc _]; rewrite digit_not_sign.
case: n {hn hin}; rewrite ?cat1s ?cat0s /= ?nk ?andbF ?pi ?name_ok_minus //=.
by rewrite -/(signed p d) Ed.
Qed.

(* The preprocessed input does not depend on how the variables are called. *)
Theorem C91_renaming_preprocessed (F : fieldType) (P : fft_field F) (E : pairing_group F) (S : srs E) input input' :
  cleaned input = equation_text e -> cleaned input' = equation_text (rename_equation f e) ->
  compute_cpi P S input = compute_cpi P S input'.
Proof.
have nr : all name_ok (map f (equation_names e)) by rewrite -renamed_names; apply: names_are_ok.
have [p [q [pK qK pn pi pf]]] := extend_names fi (names_are_ok ok) nr.
have H u : u \in rcons (e_lhs e) (e_rhs e) -> forall t x, t \in u -> f_atom t = Var x -> name_ok x /\ p x = f x.
  move=> hu t x ht Ea; have hx := in_names hu ht Ea; split; last exact: pf.
  exact: (allP (names_are_ok ok)).
apply: (@cpi_same_equation _ _ _ _ (signed p) (signed q)) => //.
- exact: signed_keeps.
- by move=> s _; apply: signedK.
- rewrite /= -!map_comp; apply/eq_in_map => u hu /=.
  have hu' : u \in rcons (e_lhs e) (e_rhs e) by rewrite mem_rcons inE hu orbT.
  by apply: (renamed_strings (H u hu') _ pi) => t; exact: (factor_of_ok ok hu').
by rewrite /=; apply: (renamed_head (H (e_rhs e) _) pi); rewrite mem_rcons mem_head.
Qed.

End Renaming.

(* ------------------------------------------------------------------ *)
(* the parser *)
Definition minus_head (s : bytes) : bool := ohead s == Some "-"%char.

Section ParseSame.
Variables (F : fieldType) (W W' : bytes -> option F) (p q : bytes -> bytes).
Hypotheses (names : names_only W) (kp : keeps p) (qK : forall s, op_free s -> q (p s) = s).
(* literals of the parser's own making *)
Hypothesis neg_lit : forall z, p ("-"%char :: i32_to_string z) = "-"%char :: i32_to_string z.

Definition matches (s : bytes) : Prop :=
  [/\ op_free s, (p s == [::]) = (s == [::]), minus_head (p s) = minus_head s,
      W' (unsigned (p s)) = W (unsigned s) & parse_i32 (unsigned (p s)) = parse_i32 (unsigned s)].

Lemma unsigned_plain s : ~~ minus_head s -> unsigned s = s.
Proof. by case: s => [|c s] //= h; case: eqP => // E; rewrite /minus_head /= E eqxx in h. Qed.

Lemma fvalE (V : bytes -> option F) s : fval V s =
  if s == [::] then 0 else if minus_head s then - base_value V (unsigned s) else base_value V (unsigned s).
Proof.
case: s => [|c s] //=; rewrite /minus_head /fval /=; case: (c =P "-"%char) => [->|ne] //=.
by case: eqP => // -[].
Qed.

Lemma fval_matches s : matches s -> fval W' (p s) = fval W s.
Proof. by case=> _ h1 h2 h3 h4; rewrite !fvalE h1 h2 /base_value h3 h4. Qed.

Lemma known_matches s : matches s -> known_factor W' (p s) = known_factor W s.
Proof. by case=> _ h1 h2 h3 h4; rewrite /known_factor h1 h3 h4. Qed.

Let r := rename_name p.

Lemma i32_op_free z : op_free (i32_to_string z).
Proof. by apply/allP => c hc; have := @i32_noop; case/orP: (i32_chars hc) => [h|/eqP ->] // _; have := digit_plain h; rewrite /is_op /plain_char negb_or => /and4P[-> ->]. Qed.

Lemma const_fixed s z : parse_i32 (unsigned s) = Some z -> r (const_wire F s z).1 = (const_wire F s z).1.
Proof.
move=> Ez; have [lo hi] := parse_i32_range Ez; have [_ _ k3 _] := kp.
rewrite /const_wire; case: ifP => _ /=; rewrite /r rename_free ?neg_lit //=; first exact: i32_op_free.
  by apply: k3; rewrite i32_to_stringK.
exact: i32_op_free.
Qed.

Lemma parse_same l rt l' rt' input input' :
  parse_string input = Ret (l ++ "="%char :: rt) -> "="%char \notin l -> "="%char \notin rt ->
  parse_string input' = Ret (l' ++ "="%char :: rt') -> "="%char \notin l' -> "="%char \notin rt' ->
  (forall ss s, ss \in map factors (rcons (lhs_terms l) ("-"%char :: rt)) -> s \in ss -> matches s) ->
  map factors (rcons (lhs_terms l') ("-"%char :: rt')) =
    map (map p) (map factors (rcons (lhs_terms l) ("-"%char :: rt))) ->
  parse W input = parse W' input'.
Proof.
move=> En nl nr En' nl' nr' good Ef; have [k1 k2 k3 k4] := kp.
rewrite (parseE W En nl nr) (parseE W' En' nl' nr').
have ri : injective r by apply: (@rename_inj p q).
have rop a c b : is_op c -> r (a ++ c :: b) = r a ++ c :: r b by apply: rename_op.
have r0 : r (str "0") = str "0" by apply: literal_kept.
have kE V l0 r0' : all (known_term V) (lhs_terms l0) && known_term V ("-"%char :: r0') =
    all (all (known_factor V)) (map factors (rcons (lhs_terms l0) ("-"%char :: r0'))).
  rewrite map_rcons all_rcons andbC known_termE; congr (_ && _).
  by rewrite all_map; apply: eq_all => t /=; rewrite known_termE.
rewrite !kE Ef; have -> : all (all (known_factor W')) (map (map p) (map factors (rcons (lhs_terms l) ("-"%char :: rt)))) =
    all (all (known_factor W)) (map factors (rcons (lhs_terms l) ("-"%char :: rt))).
  rewrite all_map; apply: eq_in_all => ss hss /=; rewrite all_map; apply: eq_in_all => s hs /=.
  by apply: known_matches; apply: good hs.
case: ifP => // _; congr (Ret (build _)).
suff -> : parsed_gates W' l' rt' = map (rg r) (parsed_gates W l rt) by rewrite calls_of_rg.
pose G := flatten (map factors (rcons (lhs_terms l) ("-"%char :: rt))).
have gd ss : ss \in map factors (rcons (lhs_terms l) ("-"%char :: rt)) -> all (mem G) ss.
  by move=> hss; apply/allP => s hs; apply/flattenP; exists ss.
have mG s : s \in G -> matches s by case/flattenP=> ss; apply: good.
have ng u : factors u != [::] by have [f [fs ->]] := factors_neq0 u.
have M st st' a b := @gen_mul_follows F r ri rop st st' a b.
have A st st' a b := @gen_add_follows F r ri rop st st' a b.
have C st st' x : x \in G -> follows r st st' -> follows r (cstate W st x) (cstate W' st' (p x)).
  move=> /mG[_ _ hm hW hp] fw; rewrite /cstate hW hp.
  case: (W _) => // ; case Ez: (parse_i32 (unsigned x)) => [z|] //.
  have -> : const_wire F (p x) z = const_wire F x z by rewrite /const_wire -!/(minus_head _) hm.
  by apply: const_follows => //; apply: const_fixed.
have D x : x \in G -> fval W' (p x) = fval W x by move/mG/fval_matches.
have Nm x : x \in G -> r x = p x by case/mG => oF *; apply: rename_free.
move: Ef gd; have [t0 [ts0 Et]] := split_neq0 "+"%char l; have [t1 [ts1 Et']] := split_neq0 "+"%char l'.
rewrite /parsed_gates; lazy zeta.
rewrite /lhs_terms Et Et' !psumE !ptermE !map_rcons !map_cons.
rewrite ?[head [::] (t0 :: ts0)]/= ?[head [::] (t1 :: ts1)]/= ?[behead (t0 :: ts0)]/= ?[behead (t1 :: ts1)]/=.
rewrite !rcons_cons => -[-> Ets] gd.
have [Ets1 Er] := rcons_inj Ets; rewrite Ets1 Er.
have fw0 : follows r (pstate0 F) (pstate0 F) by [].
have gd1 : all (fun fs => (fs != [::]) && all (mem G) fs) (factors t0 :: map factors ts0).
  apply/allP => ss hss; rewrite gd.
    by rewrite andbT; move: hss; rewrite -map_cons => /mapP[u _ ->].
  by rewrite -rcons_cons mem_rcons inE hss orbT.
have [E1 F1] := gsum_follows ([::], 0) M A C D Nm gd1 fw0.
have gd2 : all (mem G) (factors ("-"%char :: rt)) by apply: gd; rewrite -rcons_cons mem_rcons mem_head.
move: E1 F1; set a := gsum _ _ _ (cstate W) _ _ _ _; set a' := gsum _ _ _ (cstate W') _ _ _ _ => E1 F1.
have [f [fs Efs]] := factors_neq0 ("-"%char :: rt); rewrite Efs in gd2 *.
have [E2 [F2 _]] := gterm_follows ([::], 0) M C D Nm gd2 F1.
rewrite E1 E2 F2; congr rcons.
have EB u v : r (u ++ str "+" ++ v) = r u ++ str "+" ++ r v by exact: rop.
by rewrite /rg /rw /= EB.
Qed.

End ParseSame.

Section RenamingParse.
Variables (F : fieldType) (W W' : bytes -> option F) (e : equation) (f : bytes -> bytes).
Hypotheses (ok : equation_ok e) (ok' : equation_ok (rename_equation f e)).
Hypothesis fi : {in equation_names e &, injective f}.
Hypotheses (names : names_only W) (names' : names_only W').
Hypothesis values : {in equation_names e, forall x, W' (f x) = W x}.

(* the factors of an equation *)
Definition of_equation (s : bytes) : Prop :=
  (exists2 x, x \in equation_names e & s = x \/ s = "-"%char :: x) \/
  (exists2 d, numeral_ok d & [\/ s = d, s = "-"%char :: d | s = "-"%char :: "-"%char :: d]).

Lemma strings_of_equation u s : u \in rcons (e_lhs e) (e_rhs e) -> s \in term_strings u -> of_equation s.
Proof.
move=> hu /flattenP[ss /mapP[t ht ->]]; have okt := factor_of_ok ok hu ht.
rewrite inE => hs.
have {hs} sE : s = atom_text (f_atom t) \/ s = "-"%char :: atom_text (f_atom t).
  move: hs => /orP[/eqP ->|/nseqP[-> _]]; last by left.
  by rewrite /signed_text; case: (f_neg t); [right|left].
move: okt sE; rewrite /factor_ok; case Ea: (f_atom t) => [x|k] /andP[h _] /= sE.
  by left; exists x => //; exact: (in_names hu ht Ea).
by right; exists k => //; case: sE => ->; [constructor 1|constructor 2].
Qed.

Lemma head_of_equation s : s \in neg_head (term_strings (e_rhs e)) -> of_equation s.
Proof.
have hr : e_rhs e \in rcons (e_lhs e) (e_rhs e) by rewrite mem_rcons mem_head.
have rok : rhs_ok (e_rhs e) by case/and4P: ok.
case Er: (e_rhs e) rok => [|t u] // rok.
have ht : t \in e_rhs e by rewrite Er mem_head.
have okt := factor_of_ok ok hr ht.
rewrite /= inE => /orP[/eqP ->|hs]; last first.
  by apply: (strings_of_equation hr); rewrite Er /= inE hs orbT.
move: rok okt; rewrite /= /factor_ok /signed_text; case Ea: (f_atom t) => [x|k] /=; case: (f_neg t) => // _ /andP[h _].
- by left; exists x; [exact: (in_names hr ht Ea)|right].
- by right; exists k => //; constructor 3.
by right; exists k => //; constructor 2.
Qed.

Lemma numeral_plain d : numeral_ok d -> ~~ name_ok d /\ ~~ minus_head d.
Proof.
case/and3P; case: d => // c d _ /= /andP[dc _] _; rewrite dc; split=> //.
by rewrite /minus_head /=; case: eqP dc => // -[->].
Qed.

Section P.
Variables p q : bytes -> bytes.
Hypotheses (pK : cancel p q) (pn : forall s, name_ok (p s) = name_ok s)
  (pi : forall s, ~~ name_ok s -> p s = s) (pf : {in equation_names e, p =1 f}).

Lemma matches_fixed s : op_free s -> signed p s = s -> W' (unsigned s) = W (unsigned s) -> matches W W' (signed p) s.
Proof. by rewrite /matches => h1 -> ->. Qed.

Lemma no_name_minus x : name_ok x -> ~~ minus_head x.
Proof. by case/name_okP=> _ _ h; case: x h => // c x h; rewrite /minus_head /=; apply/eqP => -[E]; apply: (h x); rewrite E. Qed.

Lemma of_equation_matches s : of_equation s -> matches W W' (signed p) s.
Proof.
case=> [[x hx sE]|[d hd sE]].
  have nx : name_ok x := allP (names_are_ok ok) _ hx.
  have npx : name_ok (p x) by rewrite pn.
  have ne y : name_ok y -> (y == [::]) = false by case/name_okP => /negbTE.
  case: sE => ->.
    rewrite /matches signed_name // !ne // !unsigned_plain ?no_name_minus // pf //.
    rewrite -pf // (negbTE (no_name_minus nx)) (negbTE (no_name_minus npx)) name_op_free // pf // values //.
    by have [-> _] := name_not_literal nx; rewrite -pf //; have [-> _] := name_not_literal npx.
  rewrite /matches signed_minus //=; split=> //; first exact: name_op_free.
    by rewrite pf // values.
  by have [-> _] := name_not_literal nx; have [-> _] := name_not_literal npx.
have [nd md] := numeral_plain hd.
have dn V : names_only V -> V d = None.
  by case/and3P: hd => d0 dd _ nV; case: (d) d0 dd => // c t _ /= /andP[dc _]; apply: (no_num nV); rewrite dc.
have mn V t : names_only V -> V ("-"%char :: t) = None by move=> nV; apply: (no_num nV); rewrite eqxx orbT.
have ofd : op_free d by case/and3P: hd => _ dd _; exact: digits_op_free.
have hm c t : d = c :: t -> (c == "-"%char) = false.
  by move=> Ed; move: md; rewrite Ed /minus_head /=; case: (c =P _) => // ->; rewrite eqxx.
case: sE => ->; apply: matches_fixed => //.
- by rewrite signed_other //; case: (d) hm => // c t /(_ c t erefl) ->.
- by rewrite unsigned_plain // !dn.
- by rewrite signed_other ?nd ?andbF.
- by rewrite /= !dn.
- by rewrite signed_other ?andbF.
by rewrite /= !mn.
Qed.

Lemma signed_literal z : signed p ("-"%char :: i32_to_string z) = "-"%char :: i32_to_string z.
Proof.
have nz : name_ok (i32_to_string z) = false.
  have H n : name_ok (dec_N n) = false.
    by have [d _] := dec_N_ok n; case: (dec_N n) d => // c s /= /andP[-> _].
  by case: z => [|k|k]; [exact: (H N0)|exact: (H (Npos k))|].
by rewrite /signed nz andbF pi.
Qed.
End P.

(* The parsed circuit does not depend on how the variables are called, as long as the
   corresponding names have the same values. *)
Theorem C91_renaming_parse input input' :
  cleaned input = equation_text e -> cleaned input' = equation_text (rename_equation f e) ->
  parse W input = parse W' input'.
Proof.
move=> Ei Ei'.
have nr : all name_ok (map f (equation_names e)) by rewrite -renamed_names; apply: names_are_ok.
have [p [q [pK qK pn pi pf]]] := extend_names fi (names_are_ok ok) nr.
have H u : u \in rcons (e_lhs e) (e_rhs e) -> forall t x, t \in u -> f_atom t = Var x -> name_ok x /\ p x = f x.
  move=> hu t x ht Ea; have hx := in_names hu ht Ea; split; last exact: pf.
  exact: (allP (names_are_ok ok)).
have nreq e0 : equation_ok e0 -> "="%char \notin rhs_text e0 by move=> ok0; apply: rhs_no.
apply: (parse_same (p := signed p) (q := signed q) _ _ _ (normalised ok Ei) (lhs_no_eq ok) (nreq _ ok)
  (normalised ok' Ei') (lhs_no_eq ok') (nreq _ ok')).
- exact: signed_keeps.
- by move=> s _; apply: signedK.
- exact: signed_literal.
- move=> ss s; rewrite equation_factors // mem_rcons inE => /orP[/eqP ->|/mapP[u hu ->]] hs; apply: of_equation_matches => //.
    exact: head_of_equation.
  by apply: strings_of_equation hs; rewrite mem_rcons inE hu orbT.
rewrite !equation_factors // map_rcons /= -!map_comp; congr rcons.
  apply/eq_in_map => u hu /=.
  have hu' : u \in rcons (e_lhs e) (e_rhs e) by rewrite mem_rcons inE hu orbT.
  by apply: (renamed_strings (H u hu') _ pi) => t; exact: (factor_of_ok ok hu').
by apply: (renamed_head ok (H (e_rhs e) _) pi); rewrite mem_rcons mem_head.
Qed.

End RenamingParse.

(* ------------------------------------------------------------------ *)
(* the text of an equation is already clean *)
Definition clean_char (c : ascii) : bool := (c != " "%char) && ~~ is_upper c.

Lemma clean_id s : all clean_char s -> cleaned s = s.
Proof.
rewrite /cleaned /to_lowercase; elim: s => //= c s IH /andP[/andP[nb nu] /IH E].
rewrite nb [LHS]/= lower_charK //; congr (_ :: _); exact: E.
Qed.

Lemma clean_join c ss : clean_char c -> all (all clean_char) ss -> all clean_char (join c ss).
Proof.
move=> hc; elim: ss => //= s [|s' ss] IH; first by rewrite andbT.
by case/andP=> hs /IH h; rewrite all_cat hs /= hc.
Qed.

Lemma clean_digits d : all is_digit d -> all clean_char d.
Proof. by apply: sub_all => c /digit_ordinary /and3P[h _ u]; apply/andP. Qed.

Lemma clean_name x : name_ok x -> all clean_char x.
Proof.
case/name_okP=> _ h _; apply: sub_all h => c /and5P[_ _ _ _ /andP[sp up]].
by rewrite /clean_char up andbT; apply: contra sp => /eqP ->.
Qed.

Lemma clean_factor f : factor_ok f -> all clean_char (factor_text f).
Proof.
rewrite /factor_ok /factor_text !all_cat => okf; apply/and3P; split; first by case: (f_neg f).
  move: okf; case: (f_atom f) => [x|k] /= /andP[h _]; first exact: clean_name.
  by apply: clean_digits; case/and3P: h.
move: okf; case: (f_atom f) => [x|k]; case: (f_pow f) => [j|] /andP[h] //=.
by case/and3P=> _ /and3P[_ /clean_digits -> _] _.
Qed.

Lemma cleaned_text e : equation_ok e -> cleaned (equation_text e) = equation_text e.
Proof.
move=> ok; apply: clean_id; rewrite /equation_text all_cat.
have T u : all factor_ok u -> all clean_char (term_text u).
  move=> h; apply: clean_join => //; rewrite all_map; apply: sub_all h => f; exact: clean_factor.
have /and4P[_ hl _ hr] := ok; rewrite /= T // andbT.
apply: clean_join => //; rewrite all_map; apply: sub_all hl => u /andP[_]; exact: T.
Qed.

(* ------------------------------------------------------------------ *)
(* consequence: the preprocessed input of "... = -d" proves nothing about -d *)
Section Unsound.
Variables (F : fieldType) (E : pairing_group F) (X : plonk_env E).
Hypotheses (okE : pairing_ok E) (okX : fft_ok (pk_fft X)) (long : digest_long (pk_sha256 X)).
Local Notation P := (pk_fft X).
Variables (e : equation) (d z : bytes) (t : seq factor) (input : bytes).
Hypotheses (ok : equation_ok e) (neg : negative_head e d t) (written : cleaned input = equation_text e).
Hypothesis can : all (all factor_canonical) (rcons (e_lhs e) (e_rhs e)).
Hypotheses (zok : name_ok z) (fresh : z \notin equation_names e).
Variables (W : bytes -> option F) (names : names_only W) (defd : defined_on W e).

Definition with_value (v : F) (k : bytes) : option F := if k == z then Some v else W k.

Lemma with_names v : names_only (with_value v).
Proof.
move=> k u; rewrite /with_value; case: eqP => [-> _|_]; last exact: names.
by rewrite lower_name.
Qed.

Lemma replaced_names x : x \in equation_names (head_replaced e z t) -> x = z \/ x \in equation_names e.
Proof.
move=> /flattenP[s /mapP[f /flattenP[u hu fu] ->]] hx.
have mem u0 : u0 \in rcons (e_lhs e) (e_rhs e) -> f \in u0 -> x \in equation_names e.
  move=> h0 h1; apply/flattenP; exists (factor_names f) => //.
  by apply: map_f; apply/flattenP; exists u0.
move: hu; rewrite mem_rcons inE => /orP[/eqP Eu|hu].
  move: fu; rewrite Eu inE => /orP[/eqP Ef|fu].
    by left; move: hx; rewrite Ef inE => /eqP.
  by right; apply: (mem (e_rhs e)); rewrite ?mem_rcons ?mem_head // neg inE fu orbT.
by right; apply: (mem u); rewrite // mem_rcons inE hu orbT.
Qed.

Lemma with_defined v : defined_on (with_value v) (head_replaced e z t).
Proof.
apply/allP => x /replaced_names; rewrite /with_value; case: eqP => // _ [//|hx].
exact: (allP defd).
Qed.

Lemma with_term v u : (forall f, f \in u -> z \notin factor_names f) -> term_value (with_value v) u = term_value W u.
Proof.
move=> H; rewrite /term_value big_seq_cond [RHS]big_seq_cond; apply: eq_bigr => f; rewrite andbT => /H.
rewrite /factor_value /factor_names /atom_value; case: (f_atom f) => //= x; rewrite inE => /negbTE ne.
by rewrite /with_value eq_sym ne.
Qed.

Lemma with_holds v : \sum_(u <- e_lhs e) term_value W u = v * term_value W t ->
  equation_holds (with_value v) (head_replaced e z t).
Proof.
move=> H; rewrite /equation_holds /=; apply/eqP.
have fr u f : u \in rcons (e_lhs e) (e_rhs e) -> f \in u -> z \notin factor_names f by apply: fresh_in.
have -> : term_value (with_value v) (Factor false (Var z) None :: t) = v * term_value W t.
  rewrite /term_value big_cons /factor_value /= /with_value eqxx /= expr1; congr (_ * _).
  rewrite -!/(term_value _ t) with_term // => f hf; apply: (fr (e_rhs e)); rewrite ?mem_rcons ?mem_head // neg inE hf orbT //.
rewrite -H big_seq_cond [RHS]big_seq_cond; apply: eq_bigr => u; rewrite andbT => hu.
by apply: with_term => f; apply: fr; rewrite mem_rcons inE hu orbT.
Qed.

Lemma replaced_preprocess : preprocess_ok (head_replaced e z t).
Proof.
by move: can; rewrite /preprocess_ok /= !all_rcons neg /= andbT => /andP[/andP[_ ->] ->].
Qed.

(* Whatever values the variables have, and however large d is, the verifier that works
   from the preprocessed input of the equation accepts a proof. *)
Theorem C91_negated_numeral_not_proved T (s v : F) (m : nat) (c : cpi E) :
  \sum_(u <- e_lhs e) term_value W u = v * term_value W t ->
  compute_cpi P (srs_new_from_secret E s m) input = Ret c -> (cpi_n c <= m)%N ->
  (4 * cpi_n c + 6 <= 2 ^ two_adicity P)%N ->
  exists cc, preprocessed (srs_new_from_secret E s m) cc c /\
  forall b, no_accident X cc b s ->
    exists2 pf, generate_proof X T b cc (srs_new_from_secret E s m) = Ret pf &
    verify X (pk_sha256 X) cc (srs_new_from_secret E s m) pf =
      if ch_zeta X (pk_sha256 X) pf == 1 then Panic else Ret tt.
Proof.
set S := srs_new_from_secret E s m => solved Ec nm big.
pose e' := head_replaced e z t; pose input' := equation_text e'.
have ok' : equation_ok e' := replaced_ok ok neg zok.
have Ei' : cleaned input' = equation_text e' by apply: (cleaned_text ok').
have := C91_negative_right_side P S ok neg zok fresh written Ei'; rewrite Ec => /esym Ec'.
have := C57_parsed_equation ok' (@with_names v) (@with_defined v) Ei'; case=> calls [Ep _].
have pre' := replaced_preprocess.
have [iff _] := C60_preprocessed P S ok' (@with_names v) (@with_defined v) pre' Ei' Ep.
have [cc Ecc pc] := (iff c).1 Ec'.
have En : cpi_n c = cc_size cc by case: pc => -[].
exists cc; split=> // b na; rewrite En in nm big.
exact: (C57_all_solutions ok' (@with_names v) (@with_defined v) Ei' okE okX long Ep Ecc nm T (with_holds solved) big na).
Qed.

End Unsound.
