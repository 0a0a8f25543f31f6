(* From the text of an equation to the terms and factors the parser sees. *)
From Coq Require Import String Ascii NArith ZArith.
Set Warnings "-notation-overridden,-ambiguous-paths".
From mathcomp Require Import all_ssreflect all_algebra.
From mathcomp Require Import zify ring.
From Verif Require Import Base BaseLemmas PlonkModel PlonkSpec ParserModel ParserSpec.
From Verif Require Import ParserStrings ParserGates ParserParse ParserSound.

Set Implicit Arguments.
Unset Strict Implicit.
Unset Printing Implicit Defensive.

Import GRing.Theory.
Local Open Scope ring_scope.

Local Arguments parse_i32 : simpl never.
Local Arguments name_char : simpl never.
Local Arguments digits_val : simpl never.

(* decidable equality on syntax trees *)
Definition factor_code (f : factor) : bool * (bytes + bytes) * option bytes :=
  (f_neg f, match f_atom f with Var x => inl x | Num d => inr d end, f_pow f).
Definition factor_decode (c : bool * (bytes + bytes) * option bytes) : factor :=
  Factor c.1.1 (match c.1.2 with inl x => Var x | inr d => Num d end) c.2.
Lemma factor_codeK : cancel factor_code factor_decode.
Proof. by case=> n [x|d] p. Qed.
Definition factor_eqMixin := CanEqMixin factor_codeK.
Canonical factor_eqType := EqType factor factor_eqMixin.

(* ------------------------------------------------------------------ *)
(* tokens *)
Fixpoint tjoin (c : ascii) (tss : seq (seq token)) : seq token :=
  match tss with
  | [::] => [::]
  | [:: ts] => ts
  | ts :: tss' => ts ++ TChar c :: tjoin c tss'
  end.

Lemma text_cat a b : text (a ++ b) = text a ++ text b.
Proof. by rewrite /text map_cat flatten_cat. Qed.
Lemma expanded_cat a b : expanded (a ++ b) = expanded a ++ expanded b.
Proof. by rewrite /expanded map_cat flatten_cat. Qed.

Lemma text_tjoin c tss : text (tjoin c tss) = join c (map text tss).
Proof. by elim: tss => [|ts [|ts' tss] IH] //; rewrite /= in IH *; rewrite text_cat -IH. Qed.
Lemma expanded_tjoin c tss : expanded (tjoin c tss) = join c (map expanded tss).
Proof. by elim: tss => [|ts [|ts' tss] IH] //; rewrite /= in IH *; rewrite expanded_cat -IH. Qed.

Lemma text_chars s : text (map TChar s) = s.
Proof. by elim: s => //= c s IH; rewrite -{2}IH. Qed.
Lemma expanded_chars s : expanded (map TChar s) = s.
Proof. by elim: s => //= c s IH; rewrite -{2}IH. Qed.

Lemma tokens_ok_cat a b : tokens_ok a -> tokens_ok b -> no_digit_next b -> tokens_ok (a ++ b).
Proof.
move=> + okb nb; elim: a => //= t a IH /and3P[-> h oka] /=; rewrite IH // andbT.
by case: t h => // v ds; case: a {IH} oka.
Qed.

Lemma tokens_ok_chars s : all ordinary s -> tokens_ok (map TChar s).
Proof. by elim: s => //= c s IH /andP[-> /IH ->]. Qed.

Lemma tokens_ok_tjoin c tss : ordinary c -> ~~ is_digit c -> all tokens_ok tss -> tokens_ok (tjoin c tss).
Proof.
move=> oc nc; elim: tss => [|ts [|ts' tss] IH] //; first by rewrite /= andbT.
by case/andP=> h /IH h'; apply: tokens_ok_cat => //=; rewrite oc.
Qed.

(* ------------------------------------------------------------------ *)
(* factors *)
Definition factor_tokens (f : factor) : seq token :=
  (if f_neg f then [:: TChar "-"] else [::]) ++
  match f_atom f, f_pow f with
  | Var (c :: _), Some k => [:: TPow c k]
  | a, _ => map TChar (atom_text a)
  end.
Definition term_tokens (t : seq factor) : seq token := tjoin "*" (map factor_tokens t).
Definition equation_tokens (e : equation) : seq token :=
  tjoin "+" (map term_tokens (e_lhs e)) ++ TChar "=" :: term_tokens (e_rhs e).

(* the factors after expansion *)
Definition factor_count (f : factor) : nat :=
  if f_pow f is Some k then N.to_nat (digits_val k) else 1%N.
Definition signed_text (f : factor) : bytes :=
  (if f_neg f then [:: "-"%char] else [::]) ++ atom_text (f_atom f).
Definition factor_strings (f : factor) : seq bytes :=
  signed_text f :: nseq (factor_count f).-1 (atom_text (f_atom f)).
Definition term_strings (t : seq factor) : seq bytes := flatten (map factor_strings t).

Lemma name_char_ordinary c : name_char c -> ordinary c.
Proof. by case: c => -[] [] [] [] [] [] [] []. Qed.
Lemma digit_ordinary c : is_digit c -> ordinary c.
Proof. by case: c => -[] [] [] [] [] [] [] []. Qed.

Lemma name_okP x : name_ok x -> [/\ x != [::], all name_char x & forall s, x = "-"%char :: s -> False].
Proof. by case: x => // c x /and3P[_ h ->]; split=> // s [e _]; rewrite e in h. Qed.

Lemma join_nseq c v n : v ++ flatten (nseq n (c :: v)) = join c (v :: nseq n v).
Proof.
elim: n => [|n IH]; first by rewrite /= cats0.
by rewrite [nseq n.+1 v]/= join_cons // -IH.
Qed.

Lemma join_head c a s ss : join c ((a ++ s) :: ss) = a ++ join c (s :: ss).
Proof. by case: ss => //= s' ss; rewrite catA. Qed.

Lemma factor_tokensP f : factor_ok f ->
  [/\ tokens_ok (factor_tokens f), text (factor_tokens f) = factor_text f
    & expanded (factor_tokens f) = join "*" (factor_strings f)].
Proof.
case: f => n a p; rewrite /factor_strings /signed_text join_head /factor_ok /factor_tokens /factor_text /factor_count.
cbn [f_neg f_atom f_pow].
move En : (if n then [:: TChar "-"] else [::]) => neg.
have okn ts : tokens_ok ts -> tokens_ok (neg ++ ts) by rewrite -En; case: (n).
have tn ts : text (neg ++ ts) = (if n then [:: "-"%char] else [::]) ++ text ts by rewrite -En; case: (n).
have en ts : expanded (neg ++ ts) = (if n then [:: "-"%char] else [::]) ++ expanded ts by rewrite -En; case: (n).
rewrite tn en; case: a => [[|c x]|d] //.
  case/andP=> /and3P[nd nm nc] hp.
  case: p hp => [k|] hp; last first.
    rewrite [atom_text _]/= text_chars expanded_chars cats0; split=> //.
    by apply/okn/tokens_ok_chars; apply: sub_all nc => e; apply: name_char_ordinary.
  case/and3P: hp => /eqP[] /size0nil -> /and3P[k0 kd kl] k1; split.
  - apply: okn => /=; rewrite k0 kd kl nd !andbT; move: nc => /= /andP[h1 _].
    by rewrite name_char_ordinary.
  - by rewrite /text /= cats0.
  by rewrite [atom_text _]/= -join_nseq /expanded /= cats0.
case/andP=> /and3P[d0 dd dl]; case: p => // _.
rewrite text_chars expanded_chars cats0; split=> //.
by apply/okn/tokens_ok_chars; apply: sub_all dd => e; apply: digit_ordinary.
Qed.

Lemma term_tokensP t : all factor_ok t ->
  [/\ tokens_ok (term_tokens t), text (term_tokens t) = term_text t
    & expanded (term_tokens t) = join "*" (term_strings t)].
Proof.
move/allP=> ok; split.
- by apply: tokens_ok_tjoin => //; rewrite all_map; apply/allP => f /ok /factor_tokensP[].
- rewrite text_tjoin /term_text -map_comp; congr join; apply/eq_in_map => f /ok.
  by case/factor_tokensP.
rewrite expanded_tjoin /term_strings join_flatten.
  by congr join; rewrite -!map_comp; apply/eq_in_map => f /ok /factor_tokensP[].
by apply/allP => ss /mapP[f _ ->].
Qed.

Lemma equation_tokensP e : equation_ok e ->
  [/\ tokens_ok (equation_tokens e), text (equation_tokens e) = equation_text e
    & expanded (equation_tokens e) =
      join "+" (map (fun t => join "*" (term_strings t)) (e_lhs e)) ++ "="%char :: join "*" (term_strings (e_rhs e))].
Proof.
case/and4P=> _ okl _ okr; have [r1 r2 r3] := term_tokensP okr.
have {}okl t : t \in e_lhs e -> all factor_ok t by move/allP: okl => okl /okl /andP[].
rewrite /equation_tokens /equation_text text_cat expanded_cat text_tjoin expanded_tjoin; split.
- apply: tokens_ok_cat => //=; apply: tokens_ok_tjoin => //.
  by rewrite all_map; apply/allP => t /okl /term_tokensP[].
- congr (_ ++ _); last by rewrite -r2.
  by rewrite -map_comp; congr join; apply/eq_in_map => t /okl /term_tokensP[].
congr (_ ++ _); last by rewrite -r3.
by rewrite -map_comp; congr join; apply/eq_in_map => t /okl /term_tokensP[].
Qed.

(* ------------------------------------------------------------------ *)
(* characters of the expanded strings *)
Definition plain_char (c : ascii) : bool :=
  [&& c != "+"%char, c != "*"%char, c != "="%char & ~~ is_space c].
Lemma name_char_plain c : name_char c -> plain_char c.
Proof. by rewrite /name_char /plain_char => /and5P[-> -> -> _ /andP[-> _]]. Qed.
Lemma digit_plain c : is_digit c -> plain_char c.
Proof. by case: c => -[] [] [] [] [] [] [] []. Qed.

Lemma factor_strings_plain f s : factor_ok f -> s \in factor_strings f -> all plain_char s.
Proof.
move=> ok; have pa : all plain_char (atom_text (f_atom f)).
  move: ok; rewrite /factor_ok; case: (f_atom f) => [x|d] /andP[].
    by case/name_okP=> _ h _ _; apply: sub_all h; apply: name_char_plain.
  by case/and3P=> _ h _ _; apply: sub_all h; apply: digit_plain.
rewrite inE => /orP[/eqP ->|/nseqP[-> _] //].
by rewrite /signed_text all_cat pa andbT; case: ifP.
Qed.

Lemma term_strings_plain t s : all factor_ok t -> s \in term_strings t -> all plain_char s.
Proof. by move/allP=> ok /flattenP[ss /mapP[f /ok okf ->]]; apply: factor_strings_plain. Qed.

Lemma plain_notin c s : all plain_char s -> ~~ plain_char c -> c \notin s.
Proof. by move=> /allP h n; apply/negP => /h; apply/negP. Qed.

Lemma plain_trim s : all plain_char s -> str_trim s = s.
Proof. by move=> h; apply: str_trim_id; apply: sub_all h => c /and4P[]. Qed.

Lemma term_strings_neq0 t : (0 < size t)%N -> (0 < size (term_strings t))%N.
Proof. by case: t. Qed.

Lemma notin_join c d (ss : seq bytes) : c != d -> (forall s, s \in ss -> d \notin s) -> d \notin join c ss.
Proof.
by move=> ne H; apply/negP => /mem_join[e|[s /H/negP h]]; [rewrite e eqxx in ne|].
Qed.

Lemma factors_join (ss : seq bytes) : (0 < size ss)%N -> (forall s, s \in ss -> all plain_char s) -> factors (join "*" ss) = ss.
Proof.
move=> s0 H; rewrite /factors split_join //; last first.
  by apply/allP => s /H h; apply: plain_notin.
by rewrite -[RHS]map_id; apply/eq_in_map => s /H; apply: plain_trim.
Qed.

(* the right-hand side, with the minus sign the parser puts in front *)
Definition neg_head (ss : seq bytes) : seq bytes :=
  if ss is s :: ss' then ("-"%char :: s) :: ss' else [::].
Lemma neg_join c ss : (0 < size ss)%N -> "-"%char :: join c ss = join c (neg_head ss).
Proof. by case: ss => // s [|s' ss]. Qed.

Section Equation.
Variable e : equation.
Hypothesis ok : equation_ok e.

Definition lhs_text : bytes := join "+" (map (fun t => join "*" (term_strings t)) (e_lhs e)).
Definition rhs_text : bytes := join "*" (term_strings (e_rhs e)).

Lemma lhs_ok t : t \in e_lhs e -> (0 < size t)%N /\ all factor_ok t.
Proof. by case/and4P: ok => _ /allP h _ _ /h/andP[]. Qed.
Lemma rhs_ok' : (0 < size (e_rhs e))%N /\ all factor_ok (e_rhs e).
Proof. by case/and4P: ok => _ _ h ->; move: h; rewrite /rhs_ok; case: (e_rhs e). Qed.

Lemma normalised input : cleaned input = equation_text e ->
  parse_string input = Ret (lhs_text ++ "="%char :: rhs_text).
Proof.
have [h1 h2 h3] := equation_tokensP ok; rewrite -h2 => E.
by rewrite (parse_string_tokens h1 E) h3.
Qed.

Lemma lhs_no_eq : "="%char \notin lhs_text.
Proof.
apply: notin_join => // s /mapP[t /lhs_ok[_ okt] ->]; apply: notin_join => // s' /(term_strings_plain okt) h.
exact: plain_notin h _.
Qed.
Lemma rhs_no d : ~~ plain_char d -> d != "*"%char -> d \notin rhs_text.
Proof.
move=> nd ns; have [_ okr] := rhs_ok'; apply: notin_join; first by rewrite eq_sym.
by move=> s /(term_strings_plain okr) h; apply: plain_notin h _.
Qed.

Lemma lhs_termsE : lhs_terms lhs_text = map (fun t => join "*" (term_strings t)) (e_lhs e).
Proof.
rewrite /lhs_terms split_join //.
  by rewrite size_map; case/and4P: ok.
apply/allP => s /mapP[t /lhs_ok[_ okt] ->]; apply: notin_join => // s' /(term_strings_plain okt) h.
exact: plain_notin h _.
Qed.

Lemma lhs_terms_no_plus : all (fun t => "+"%char \notin t) (lhs_terms lhs_text).
Proof.
rewrite lhs_termsE; apply/allP => s /mapP[t /lhs_ok[_ okt] ->].
by apply: notin_join => // s' /(term_strings_plain okt) h; apply: plain_notin h _.
Qed.

Lemma lhs_factors t : t \in e_lhs e -> factors (join "*" (term_strings t)) = term_strings t.
Proof.
by case/lhs_ok=> t0 okt; apply: factors_join; [apply: term_strings_neq0|move=> s; apply: term_strings_plain].
Qed.

Lemma rhs_factors : factors ("-"%char :: rhs_text) = neg_head (term_strings (e_rhs e)).
Proof.
have [r0 okr] := rhs_ok'; have s0 := term_strings_neq0 r0.
rewrite /rhs_text neg_join // factors_join //; first by case: (term_strings _) s0.
have H s := @term_strings_plain _ s okr.
case: (term_strings _) H => // s ss H s'; rewrite inE => /orP[/eqP ->|h].
  by rewrite /= H ?inE ?eqxx.
by apply: H; rewrite inE h orbT.
Qed.

End Equation.

(* ------------------------------------------------------------------ *)
(* values *)
Section Values.
Variables (F : fieldType) (W : bytes -> option F).
Hypothesis names : names_only W.

Lemma lower_digit c : is_digit c -> lower_char c = c.
Proof. by case: c => -[] [] [] [] [] [] [] []. Qed.

Lemma no_num c s : is_digit c || (c == "-"%char) -> W (c :: s) = None.
Proof.
move=> h; case E: (W (c :: s)) => [v|] //; have := names E => /= /and3P[n1 n2 _].
by move: n1 n2; case/orP: h => [d|/eqP ->] //; rewrite lower_digit // d.
Qed.

Lemma names_noNum z : W (i32_to_string z) = None.
Proof.
have H n : W (dec_N n) = None.
  have [d _] := dec_N_ok n; case: (dec_N n) d => // c s /= /andP[dc _] _.
  by apply: no_num; rewrite dc.
by case: z => [|p|p]; [apply: H|apply: H|apply: no_num].
Qed.

Lemma fr_i32_N n : fr_i32 F (Z.of_N n) = (N.to_nat n)%:R.
Proof. by case: n. Qed.
Lemma fr_i32_opp n : fr_i32 F (Z.opp (Z.of_N n)) = - (N.to_nat n)%:R.
Proof. by case: n => [|p] /=; rewrite ?oppr0. Qed.

Lemma fval_signed x : (forall s, x = "-"%char :: s -> False) -> x != [::] ->
  fval W x = base_value W x /\ fval W ("-"%char :: x) = - base_value W x.
Proof. by case: x => // c x h _; rewrite /fval /=; case: eqP => // E; case: (h x); rewrite E. Qed.

Definition atom_defined (a : atom) : bool := if a is Var x then isSome (W x) else true.

(* what is needed about one atom *)
Lemma atom_facts n a p : factor_ok (Factor n a p) -> atom_defined a ->
  [/\ atom_text a != [::], (forall s, atom_text a = "-"%char :: s -> False),
      base_value W (atom_text a) = atom_value W a,
      isSome (W (atom_text a)) || isSome (parse_i32 (atom_text a))
    & if a is Num d then W ("-"%char :: d) = None /\
        parse_i32 ("-"%char :: d) = Some (Z.opp (Z.of_N (digits_val d))) else True].
Proof.
rewrite /factor_ok /=; case: a => [x|d] /= /andP[ok _] hd.
  have [x0 _ xm] := name_okP ok; split=> //; last by rewrite hd.
  by rewrite /base_value; case: (W x) hd.
have /and3P[d0 dd dl] := ok.
have Wd : W d = None.
  by case: (d) d0 dd => // c s _ /= /andP[dc _]; apply: no_num; rewrite dc.
have Ed := parse_i32_digits d0 dd; rewrite dl in Ed.
split=> //.
- by move=> s E; move: dd; rewrite E.
- by rewrite /base_value Wd Ed fr_i32_N.
- by rewrite Ed orbT.
split; first exact: no_num.
rewrite parse_i32_neg //; case: N.leb_spec => // lt; move/N.leb_spec0: dl; rewrite /max_i32.
by clear -lt; lia.
Qed.

Lemma unsigned_id x : (forall s, x = "-"%char :: s -> False) -> unsigned x = x.
Proof. by case: x => // c x h /=; case: eqP => // E; case: (h x); rewrite E. Qed.

Lemma factor_strings_value f : factor_ok f -> atom_defined (f_atom f) ->
  \prod_(s <- factor_strings f) fval W s = factor_value W f /\
  all (known_factor W) (factor_strings f).
Proof.
case: f => n a p ok; rewrite [f_atom _]/= => hd; have [a0 am av ak _] := atom_facts ok hd.
have [fp fn] := fval_signed am a0.
have u0 := unsigned_id am.
rewrite /factor_strings /factor_value /factor_count /signed_text [f_atom _]/= [f_neg _]/= [f_pow _]/=.
have [k Ek] : exists k, (if p is Some k then N.to_nat (digits_val k) else 1%N) = k.+1.
  clear -ok; case: p ok => [k|] ok; last by exists 0%N.
  case: a ok => [x|d] /=; rewrite /factor_ok /=; last by rewrite andbF.
  case/andP=> _ /and3P[_ _ /N.leb_spec0 h]; exists (N.to_nat (digits_val k)).-1.
  by rewrite prednK //; clear -h; lia.
rewrite Ek -pred_Sn; split.
  rewrite big_cons big_nseq fp av exprS -Monoid.iteropE.
  have E : iterop k *%R (atom_value W a) 1 = atom_value W a ^+ k by [].
  case: n {ok}; first by rewrite cat1s fn av mulNr.
  by rewrite cat0s fp av.
apply/allP => s; rewrite inE => /orP[/eqP ->|/nseqP[-> _]]; last by rewrite /known_factor a0 u0 ak.
by case: n {ok}; rewrite /known_factor ?cat1s ?cat0s /= ?a0 ?u0 ak.
Qed.

Lemma term_strings_value t : all factor_ok t -> all (fun f => atom_defined (f_atom f)) t ->
  \prod_(s <- term_strings t) fval W s = term_value W t /\ all (known_factor W) (term_strings t).
Proof.
elim: t => [|f t IH]; first by rewrite /term_value !big_nil.
case/andP=> okf okt /andP[df dt]; have [v k] := IH okt dt; have [vf kf] := factor_strings_value okf df.
rewrite [term_strings _](_ : _ = factor_strings f ++ term_strings t) // big_cat all_cat kf k.
by rewrite /term_value big_cons -vf -[\prod_(_ <- t) _]v.
Qed.

Lemma neg_head_value t : rhs_ok t -> all factor_ok t -> all (fun f => atom_defined (f_atom f)) t ->
  \prod_(s <- neg_head (term_strings t)) fval W s = - term_value W t /\
  all (known_factor W) (neg_head (term_strings t)).
Proof.
move=> ht okt dt; have [v k] := term_strings_value okt dt.
rewrite -v; case: t ht okt dt v k => // -[n a p] t ht /andP[ok _] /andP[hd _] _; rewrite [f_atom _]/= in hd.
rewrite [term_strings _](_ : _ = signed_text (Factor n a p) ::
  (nseq (factor_count (Factor n a p)).-1 (atom_text a) ++ term_strings t)) //.
move: (nseq _ _ ++ _) => tl /andP[_ k]; rewrite [neg_head _]/=.
rewrite !big_cons -mulNr; have [a0 am av ak an] := atom_facts ok hd.
have [fp fn] := fval_signed am a0; have u0 := unsigned_id am.
move: ht ok; rewrite /rhs_ok /signed_text; case: n => ha ok; cbn [f_neg f_atom] in *; last first.
  by rewrite cat0s fn fp; split=> //; apply/andP; split; rewrite // /known_factor /= ak.
case: a ok hd a0 am av ak an fp fn u0 ha => // d ok hd a0 am av ak [an1 an2] fp fn u0 _.
rewrite cat1s fn opprK; split; last by apply/andP; split; rewrite // /known_factor /= an1 an2.
by congr (_ * _); rewrite av /fval /= /base_value an1 an2 fr_i32_opp opprK.
Qed.

Lemma defined_atoms (e : equation) : defined_on W e ->
  forall t, t \in rcons (e_lhs e) (e_rhs e) -> all (fun f => atom_defined (f_atom f)) t.
Proof.
move/allP=> H t ht; apply/allP => f ft; case E: (f_atom f) => [x|d] //=; apply: H.
apply/flattenP; exists (factor_names f); last by rewrite /factor_names E inE.
by apply: map_f; apply/flattenP; exists t.
Qed.

End Values.
