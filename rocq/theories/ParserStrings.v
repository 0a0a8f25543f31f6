(* Lemmas on the string functions of the parser model. *)
From Coq Require Import String Ascii NArith ZArith.
Set Warnings "-notation-overridden,-ambiguous-paths".
From mathcomp Require Import all_ssreflect all_algebra.
From mathcomp Require Import zify.
From Verif Require Import Base BaseLemmas PlonkModel PlonkSpec ParserModel ParserSpec.

Set Implicit Arguments.
Unset Strict Implicit.
Unset Printing Implicit Defensive.

Local Arguments N.add : simpl never.
Local Arguments N.mul : simpl never.
Local Arguments N.modulo : simpl never.
Local Arguments N.div : simpl never.
Local Arguments N.sub : simpl never.

(* ------------------------------------------------------------------ *)
(* split and join *)
Lemma split_neq0 c s : exists p ps, split_on c s = p :: ps.
Proof.
elim: s => [|d s [p [ps IH]]] /=; first by exists [::], [::].
by case: eqP => _; [exists [::]; eexists|rewrite IH; exists (d :: p), ps].
Qed.

Lemma split_cat c a b : split_on c (a ++ c :: b) = split_on c a ++ split_on c b.
Proof.
elim: a => [|d a IH] /=; first by rewrite eqxx.
case: eqP => _; first by rewrite IH.
by rewrite IH; have [p [ps ->]] := split_neq0 c a.
Qed.

Lemma split_none c s : c \notin s -> split_on c s = [:: s].
Proof.
elim: s => [|d s IH] //=; rewrite inE negb_or => /andP[ne /IH ->].
by rewrite eq_sym (negbTE ne).
Qed.

Lemma split_join c ss : (0 < size ss)%N -> all (fun s => c \notin s) ss -> split_on c (join c ss) = ss.
Proof.
case: ss => // s ss _; elim: ss s => [|s' ss IH] s /=; first by rewrite andbT; apply: split_none.
by case/andP=> ns h; rewrite split_cat split_none //= IH.
Qed.

Lemma mem_join c ss d : d \in join c ss -> d = c \/ exists2 s, s \in ss & d \in s.
Proof.
elim: ss => [|s [|s' ss] IH] //=; first by move=> h; right; exists s; rewrite ?inE.
rewrite mem_cat inE => /or3P[h|/eqP->|/IH[->|[t ts dt]]]; [|by left|by left|].
  by right; exists s; rewrite ?inE ?eqxx.
by right; exists t => //; rewrite inE ts orbT.
Qed.

Lemma join_cons c s ss : (0 < size ss)%N -> join c (s :: ss) = s ++ c :: join c ss.
Proof. by case: ss. Qed.

Lemma join_cat c s t : (0 < size s)%N -> (0 < size t)%N ->
  join c (s ++ t) = join c s ++ c :: join c t.
Proof.
elim: s => [|a [|b s] IH] // _ t0; first by rewrite cat1s join_cons.
by rewrite cat_cons join_cons // IH // [join c (a :: _)]join_cons // -catA.
Qed.

Lemma join_flatten c (sss : seq (seq bytes)) : all (fun ss => 0 < size ss)%N sss ->
  join c (flatten sss) = join c (map (join c) sss).
Proof.
elim: sss => [|ss sss IH] //= /andP[h0 h]; case: sss IH h => [|ss' sss] IH h.
  by rewrite /= cats0.
rewrite join_cat // ?IH //=.
by rewrite size_cat; case/andP: h => h1 _; rewrite (leq_trans h1) ?leq_addr.
Qed.

(* no '=' : exactly the two-piece splits *)
Lemma split_two c n l r : split_on c n = [:: l; r] <->
  [/\ n = l ++ c :: r, c \notin l & c \notin r].
Proof.
split=> [|[-> cl cr]]; last by rewrite split_cat !split_none.
elim: n l => [|d n IH] l //=; case: eqP => [->|/eqP ne].
  case=> <- E; suff [-> cr] : n = r /\ c \notin r by [].
  elim: n r E {IH} => [|d' n IH] r /=; first by case=> <-.
  case: eqP => [_|/eqP ne']; first by have [p [ps ->]] := split_neq0 c n.
  have [p [ps Ep]] := split_neq0 c n; rewrite Ep => -[<- E0].
  have [|<- cr] := IH p; first by rewrite Ep E0.
  by rewrite inE negb_or eq_sym ne'.
have [p [ps Ep]] := split_neq0 c n; rewrite Ep => -[<- E0].
have [|-> cp cr] := IH p; first by rewrite Ep E0.
by rewrite inE negb_or eq_sym ne.
Qed.

(* ------------------------------------------------------------------ *)
(* trimming *)
Lemma trim_start_id s : (if s is c :: _ then ~~ is_space c else true) -> trim_start s = s.
Proof. by case: s => //= c s /negbTE ->. Qed.

Lemma str_trim_id s : all (fun c => ~~ is_space c) s -> str_trim s = s.
Proof.
move=> h; rewrite /str_trim (@trim_start_id s); last by case: s h => //= c s /andP[].
rewrite trim_start_id ?revK //; have : all (fun c => ~~ is_space c) (rev s) by rewrite all_rev.
by case: (rev s) => //= c t /andP[].
Qed.

(* ------------------------------------------------------------------ *)
(* digits and numerals *)
Lemma N_of_ascii_bounded c : (N_of_ascii c < 256)%num.
Proof. by have := nat_ascii_bounded c; rewrite /nat_of_ascii; clear; lia. Qed.

Lemma digit_char d : (d < 10)%num -> N_of_ascii (ascii_of_N (48 + d)) = (48 + d)%num.
Proof. by move=> h; rewrite N_ascii_embedding //; clear -h; lia. Qed.

Lemma is_digit_char d : (d < 10)%num -> is_digit (ascii_of_N (48 + d)).
Proof.
by move=> h; rewrite /is_digit digit_char //; apply/andP; split; apply/N.leb_spec0; clear -h; lia.
Qed.

Lemma digit_valK d : (d < 10)%num -> digit_val (ascii_of_N (48 + d)) = d.
Proof. by move=> h; rewrite /digit_val digit_char //; clear -h; lia. Qed.

Lemma digits_val_rcons s c : digits_val (rcons s c) = (10 * digits_val s + digit_val c)%num.
Proof. by rewrite /digits_val foldl_rcons. Qed.

Lemma dec_fuel_ok fuel n : (n < 2 ^ N.of_nat fuel)%num ->
  [/\ all is_digit (dec_fuel fuel n), digits_val (dec_fuel fuel n) = n & dec_fuel fuel n != [::]].
Proof.
have m10 m : (m mod 10 < 10)%num by apply: N.mod_lt.
elim: fuel n => [|fuel IH] n lt /=.
  have -> : n = 0%num by move: lt => /=; clear; lia.
  by [].
case: N.ltb_spec => h.
  have -> : (n mod 10 = n)%num by rewrite N.mod_small.
  by rewrite /digits_val /= is_digit_char // digit_valK //; split=> //; clear; lia.
have [] := IH (n / 10)%num.
  apply: N.div_lt_upper_bound => //.
  by move: lt; rewrite Nat2N.inj_succ N.pow_succ_r'; clear; lia.
move=> a e _; split.
- by rewrite all_rcons a is_digit_char.
- by rewrite digits_val_rcons e digit_valK // -N.div_mod.
- by case: dec_fuel.
Qed.

Lemma size_nat_lt n : (n < 2 ^ N.of_nat (N.size_nat n))%num.
Proof.
case: n => // p; elim: p => [p IH|p IH|] //;
  rewrite [N.size_nat _](_ : _ = (N.size_nat (Npos p)).+1) // Nat2N.inj_succ N.pow_succ_r';
  move: IH; clear; move: (N.pow _ _) => x; lia.
Qed.

Lemma dec_N_ok n :
  [/\ all is_digit (dec_N n), digits_val (dec_N n) = n & dec_N n != [::]].
Proof. exact/dec_fuel_ok/size_nat_lt. Qed.

Lemma div10_lt fuel n : (n < 2 ^ N.of_nat fuel.+1)%num -> (n / 10 < 2 ^ N.of_nat fuel)%num.
Proof.
rewrite Nat2N.inj_succ N.pow_succ_r' => lt; apply: N.div_lt_upper_bound => //.
by move: lt; clear; lia.
Qed.

Lemma dec_fuel_irr f f' n : (n < 2 ^ N.of_nat f)%num -> (n < 2 ^ N.of_nat f')%num ->
  dec_fuel f n = dec_fuel f' n.
Proof.
have z (g : nat) : dec_fuel g 0 = [:: "0"%char] by case: g.
elim: f f' n => [|f IH] f' n lt lt'.
  by have -> : n = 0%num; [move: lt => /=; clear; lia|rewrite !z].
case: f' lt' => [|f'] lt'.
  by have -> : n = 0%num; [move: lt' => /=; clear; lia|rewrite !z].
rewrite /=; case: N.ltb_spec => // h; congr rcons.
by apply: IH; apply: div10_lt.
Qed.

Lemma dec_N_step n : dec_N n =
  if (n <? 10)%num then [:: ascii_of_N (48 + n)]
  else rcons (dec_N (n / 10)) (ascii_of_N (48 + n mod 10)).
Proof.
rewrite /dec_N (@dec_fuel_irr (N.size_nat n) (N.size_nat n).+1); last 2 first.
- exact: size_nat_lt.
- rewrite Nat2N.inj_succ N.pow_succ_r'; have := size_nat_lt n; clear; lia.
rewrite [LHS]/=; case: N.ltb_spec => h; first by rewrite N.mod_small.
congr rcons; apply: dec_fuel_irr; last exact: size_nat_lt.
apply: div10_lt; rewrite Nat2N.inj_succ N.pow_succ_r'; have := size_nat_lt n; clear; lia.
Qed.

Lemma digit_of c : is_digit c -> (digit_val c < 10)%num /\ ascii_of_N (48 + digit_val c) = c.
Proof.
case/andP=> /N.leb_spec0 h1 /N.leb_spec0 h2; rewrite /digit_val; split; first by clear -h1 h2; lia.
have -> : (48 + (N_of_ascii c - 48) = N_of_ascii c)%num by clear -h1; lia.
exact: ascii_N_embedding.
Qed.

Lemma digits_val_ge1 s : all is_digit s -> s != [::] -> ohead s != Some "0"%char ->
  (1 <= digits_val s)%num.
Proof.
elim/last_ind: s => // s c IH; rewrite all_rcons => /andP[dc ds] _; rewrite digits_val_rcons.
case: s IH ds => [|c' s] IH ds.
  move=> /= ne; have [_ e] := digit_of dc; rewrite /digits_val /=.
  case: (N.eq_dec (digit_val c) 0) => h; last by clear -h; lia.
  by rewrite -e h in ne.
by move=> /= ne; have := IH ds isT ne; clear; lia.
Qed.

(* a numeral without leading zeros is the printed form of its value *)
Lemma canonicalP d : d != [::] -> all is_digit d -> canonical d -> dec_N (digits_val d) = d.
Proof.
case/lastP: d => // s c _; rewrite all_rcons => /andP[dc ds].
rewrite /canonical => /orP[/eqP -> //|].
elim/last_ind: s c dc ds => [|s c' IH] c dc ds ne.
  have -> : digits_val (rcons [::] c) = digit_val c by rewrite /digits_val /=; clear; lia.
  have [h e] := digit_of dc; rewrite dec_N_step e.
  by case: N.ltb_spec => // h'; exfalso; clear -h h'; lia.
have [h e] := digit_of dc.
have ne' : ohead (rcons s c') != Some "0"%char by move: ne; case: (s).
have d' : all is_digit (rcons s c') by [].
have ge : (1 <= digits_val (rcons s c'))%num by apply: digits_val_ge1 => //; case: (s).
move: ds; rewrite all_rcons => /andP[dc' ds]; have IHs := IH c' dc' ds ne'.
rewrite dec_N_step digits_val_rcons; case: N.ltb_spec => h'; first by exfalso; clear -ge h'; lia.
have -> : ((10 * digits_val (rcons s c') + digit_val c) / 10 = digits_val (rcons s c'))%num.
  by symmetry; apply: (N.div_unique _ _ _ (digit_val c)).
have -> : ((10 * digits_val (rcons s c') + digit_val c) mod 10 = digit_val c)%num.
  by symmetry; apply: (N.mod_unique _ _ (digits_val (rcons s c'))).
by rewrite IHs e.
Qed.

Lemma dec_N_canonical n : canonical (dec_N n).
Proof.
case: (N.eq_dec n 0) => [-> //|n0]; apply/orP; right.
have [k] := ubnP (N.to_nat n); elim: k n n0 => // k IH n n0 ltk.
rewrite dec_N_step; case: N.ltb_spec => h /=.
  apply/eqP => -[e]; have := digit_valK h; rewrite e /digit_val /= => e0.
  by apply: n0; rewrite -e0.
have q0 : (n / 10)%num <> 0%num.
  by have := N.div_str_pos n 10 (conj _ h); move=> /(_ erefl); clear; lia.
have lt : (N.to_nat (n / 10) < k)%N.
  have : (n / 10 < n)%num by apply: N.div_lt => //; clear -h; lia.
  by move: ltk; clear; lia.
have := IH _ q0 lt; have [_ _] := dec_N_ok (n / 10)%num.
by case: (dec_N _).
Qed.

(* parse_i32 *)
Lemma digit_not_sign c : is_digit c -> (c == "-"%char = false) * (c == "+"%char = false).
Proof. by move=> dc; split; apply/eqP => e; rewrite e in dc. Qed.

Lemma parse_i32_digits d : d != [::] -> all is_digit d ->
  parse_i32 d = if (digits_val d <=? max_i32)%num then Some (Z.of_N (digits_val d)) else None.
Proof.
case: d => // c s _ h; have := h => /= /andP[dc _].
rewrite /parse_i32 !digit_not_sign // /parse_digits h /=.
case: N.leb_spec => le; case: ifP => //; last first.
  by move=> /andP[_ /Z.leb_spec0]; move: le; rewrite /max_i32; clear; lia.
by move/negP; case; apply/andP; split; apply/Z.leb_spec0; move: le; rewrite /max_i32; clear; lia.
Qed.

Lemma parse_i32_neg d : d != [::] -> all is_digit d ->
  parse_i32 ("-"%char :: d) =
  if (digits_val d <=? 2147483648)%num then Some (Z.opp (Z.of_N (digits_val d))) else None.
Proof.
move=> d0 h; rewrite /parse_i32 eqxx /parse_digits d0 h /=.
case: N.leb_spec => le; case: ifP => //; last first.
  by move=> /andP[/Z.leb_spec0]; move: le; rewrite /max_i32; clear; lia.
by move/negP; case; apply/andP; split; apply/Z.leb_spec0; move: le; rewrite /max_i32; clear; lia.
Qed.

(* what a parsed literal looks like *)
Lemma parse_i32_range s z : parse_i32 s = Some z ->
  (Z.le (Z.opp (Z.of_N 2147483648)) z) /\ (Z.le z (Z.of_N max_i32)).
Proof.
rewrite /parse_i32; case: s => // c t.
case: eqP => _; [|case: eqP => _]; case: parse_digits => // n;
  by case: ifP => // /andP[/Z.leb_spec0 h1 /Z.leb_spec0 h2] [<-].
Qed.

Lemma parse_i32_nonneg c t z : c != "-"%char -> parse_i32 (c :: t) = Some z -> Z.le Z0 z.
Proof.
move=> /negbTE ne; rewrite /parse_i32 ne.
by case: eqP => _; case: parse_digits => // n; case: ifP => // _ [<-]; clear; lia.
Qed.

Lemma i32_to_stringK z : Z.le (Z.opp (Z.of_N 2147483648)) z -> Z.le z (Z.of_N max_i32) ->
  parse_i32 (i32_to_string z) = Some z.
Proof.
case: z => [|p|p] h1 h2 //; rewrite /i32_to_string.
  rewrite [Z.to_N _]/=; have [d v n0] := dec_N_ok (Npos p).
  by rewrite parse_i32_digits // v; case: N.leb_spec => // lt; exfalso; clear -h2 lt; lia.
have [d v n0] := dec_N_ok (Npos p).
by rewrite parse_i32_neg // v; case: N.leb_spec => // lt; exfalso; clear -h1 lt; lia.
Qed.

(* ------------------------------------------------------------------ *)
(* the normaliser *)
Lemma ofold_cat (A S : Type) (f : S -> A -> outcome S) st s1 s2 :
  ofold f st (s1 ++ s2) = obind (ofold f st s1) (fun st' => ofold f st' s2).
Proof. by elim: s1 st => [|a s1 IH] st //=; case: (f st a) => //= st'; apply: IH. Qed.

Lemma lower_charK c : ~~ is_upper c -> lower_char c = c.
Proof. by rewrite /lower_char => /negbTE ->. Qed.

Lemma lower_not_upper c : ~~ is_upper (lower_char c).
Proof.
rewrite /lower_char; case: ifP => [up|/negbT //].
case/andP: up => /N.leb_spec0 h1 /N.leb_spec0 h2; rewrite /is_upper N_ascii_embedding; last by clear -h2; lia.
by apply/nandP; right; apply/N.leb_spec0; clear -h1; lia.
Qed.

Lemma to_lowercaseK s : all (fun c => ~~ is_upper c) s -> to_lowercase s = s.
Proof. by elim: s => //= c s IH /andP[h /IH ->]; rewrite lower_charK. Qed.

Lemma to_lowercase_idem s : to_lowercase (to_lowercase s) = to_lowercase s.
Proof. by apply: to_lowercaseK; rewrite all_map; apply/allP => c _; apply: lower_not_upper. Qed.

Lemma lower_eq_blank c : (lower_char c == " "%char) = (c == " "%char).
Proof. by case: c => -[] [] [] [] [] [] [] []. Qed.

Lemma cleaned_idem s : cleaned (cleaned s) = cleaned s.
Proof.
rewrite /cleaned; set t := filter _ s.
have -> : [seq c <- to_lowercase t | c != " "%char] = to_lowercase t.
  apply/all_filterP; rewrite all_map; apply/allP => c; rewrite mem_filter /= => /andP[h _].
  by rewrite lower_eq_blank.
exact: to_lowercase_idem.
Qed.

Local Arguments norm_step : simpl never.

Lemma norm_step_blank st : norm_step st " "%char = Ret st.
Proof. by case: st. Qed.

Lemma parse_string_cleaned s : parse_string s = parse_string (cleaned s).
Proof.
rewrite /parse_string; set st := NormState _ _ _ _.
suff -> : forall st, ofold norm_step st (to_lowercase s) =
    ofold norm_step st (to_lowercase (cleaned s)) by [].
rewrite /cleaned to_lowercase_idem; elim: s {st} => [|c s IH] st //=.
case: eqP => [->|ne] /=; first by rewrite norm_step_blank /= IH.
by case: norm_step => //= st'; apply: IH.
Qed.

(* one ordinary character *)
Lemma norm_char st c : ordinary c -> (is_digit c ==> ~~ ns_flag st) -> 
  (ns_flag st -> ns_buffer st != [::]) ->
  norm_step st c =
  if ns_flag st then
    obind (push_power (ns_result st) (ns_last st) (ns_buffer st))
          (fun r => Ret (NormState (rcons r c) c [::] false))
  else Ret (NormState (rcons (ns_result st) c) c (if is_digit c then rcons (ns_buffer st) c else [::]) false).
Proof.
case: st => r l b f /and3P[/negbTE nb /negbTE nc _]; rewrite /norm_step /= nb nc.
case: f => /=; case: is_digit => //= _; last by move=> /(_ isT) ->; case: push_power.
Qed.

Lemma norm_digits st ds : all is_digit ds -> ns_flag st ->
  ofold norm_step st ds =
  Ret (NormState (ns_result st) (ns_last st) (ns_buffer st ++ ds) true).
Proof.
elim: ds st => [|d ds IH] [r l b f] /=; first by move=> _ ->; rewrite cats0.
case/andP=> dd dds ->; have -> /= : norm_step (NormState r l b true) d = Ret (NormState r l (rcons b d) true).
  rewrite /norm_step dd /=; case: eqP => [e|_]; first by rewrite e in dd.
  by case: eqP => [e|_] //; rewrite e in dd.
by rewrite IH //= cat_rcons.
Qed.

(* the text already produced, with a pending power flushed *)
Definition pending (st : norm_state) : bytes :=
  if ns_flag st then
    ns_result st ++ flatten (nseq (N.to_nat (digits_val (ns_buffer st))).-1 [:: "*"%char; ns_last st])
  else ns_result st.
Definition norm_ok (st : norm_state) (ts : seq token) : bool :=
  if ns_flag st then
    [&& ns_buffer st != [::], all is_digit (ns_buffer st),
        (digits_val (ns_buffer st) <=? max_i32)%num & no_digit_next ts]
  else true.

Lemma push_powerE r l b : b != [::] -> all is_digit b -> (digits_val b <=? max_i32)%num ->
  push_power r l b = Ret (r ++ flatten (nseq (N.to_nat (digits_val b)).-1 [:: "*"%char; l])).
Proof.
move=> b0 ds le; rewrite /push_power parse_i32_digits // le /=; congr (Ret (_ ++ flatten (nseq _ _))).
by clear; lia.
Qed.

Lemma norm_tokens ts st : tokens_ok ts -> norm_ok st ts ->
  exists2 st', ofold norm_step st (text ts) = Ret st' &
    norm_ok st' [::] /\ pending st' = pending st ++ expanded ts.
Proof.
elim: ts st => [|t ts IH] st /=.
  by move=> _ ok; exists st => //; rewrite cats0; split.
case/and3P=> tok nd oks ok; rewrite /text /expanded /= ofold_cat -/(text ts) -/(expanded ts).
(* the first character of the token *)
have first c : ordinary c -> (is_digit c ==> ~~ ns_flag st) ->
  exists b, norm_step st c = Ret (NormState (rcons (pending st) c) c b false) /\
            (~~ is_digit c -> b = [::]).
  move=> oc ic; have nb : ns_flag st -> ns_buffer st != [::].
    by move: ok; rewrite /norm_ok; case: ifP => // _ /and4P[].
  move: ok; rewrite /norm_ok /pending norm_char //.
  case: ifP => fl.
    by case/and4P=> b0 ds le _; rewrite push_powerE //=; exists [::].
  by move=> _; exists (if is_digit c then rcons (ns_buffer st) c else [::]); split=> // /negbTE ->.
case: t tok nd ok => [c|v ds] /= tok nd ok.
  have [|b [-> _]] := first c tok.
    by move: ok; rewrite /norm_ok /=; case: (ns_flag st) => /=; [case/and4P=> _ _ _ /negbTE ->|rewrite implybT].
  have [||st' Es [ok' Ep]] := IH (NormState (rcons (pending st) c) c b false) => //.
  by exists st' => //; split=> //; rewrite Ep /pending /= cat_rcons.
case/and5P: tok => ov dv d0 dds le.
have [|b [-> /(_ dv) ->]] := first v ov; first by rewrite (negbTE dv).
rewrite /= norm_digits //=.
have [||st' Es [ok' Ep]] := IH (NormState (rcons (pending st) v) v ds true) => //.
  by rewrite /norm_ok /= d0 dds le.
by exists st' => //; split=> //; rewrite Ep /pending /= cat_rcons -catA.
Qed.

Lemma text_ordinary ts : tokens_ok ts -> to_lowercase (text ts) = text ts.
Proof.
move=> ok; apply: to_lowercaseK; elim: ts ok => [|t ts IH] //= /and3P[tok _ /IH h].
rewrite /text /= all_cat -/(text ts) h andbT.
case: t tok => [c|v ds] /=; first by case/and3P=> _ _ ->.
case/and5P=> /and3P[_ _ ->] _ _ dds _ /=; apply: sub_all dds => d /andP[_ /N.leb_spec0 h2].
by rewrite /is_upper; apply/nandP; left; apply/N.leb_spec0; clear -h2; lia.
Qed.

Lemma parse_string_tokens s ts : tokens_ok ts -> cleaned s = text ts ->
  parse_string s = Ret (expanded ts).
Proof.
move=> ok E; rewrite parse_string_cleaned E /parse_string text_ordinary //.
have [st -> [okst Ep]] := norm_tokens (st := NormState [::] " "%char [::] false) ok isT.
rewrite /= in Ep *; rewrite -{}Ep /pending; move: okst; rewrite /norm_ok.
by case: ifP => //= _ /and4P[b0 ds le _]; rewrite b0 push_powerE.
Qed.
