(* When normalising an input panics, and what it keeps of the input. *)
From Coq Require Import String Ascii NArith ZArith.
Set Warnings "-notation-overridden,-ambiguous-paths".
From mathcomp Require Import all_ssreflect all_algebra.
From mathcomp Require Import zify.
From Verif Require Import Base BaseLemmas PlonkModel PlonkSpec ParserModel ParserSpec.
From Verif Require Import ParserStrings.

Set Implicit Arguments.
Unset Strict Implicit.
Unset Printing Implicit Defensive.

Local Arguments norm_step : simpl never.
Local Arguments parse_i32 : simpl never.
Local Arguments digits_val : simpl never.

Fixpoint bad_from (b : bytes) (f : bool) (s : bytes) : bool :=
  if s is c :: s' then
    if c == "^"%char then bad_from b true s'
    else if is_digit c then bad_from (rcons b c) f s'
    else (f && ((b == [::]) || (max_i32 <? digits_val b)%num)) || bad_from [::] false s'
  else [&& f, b != [::] & (max_i32 <? digits_val b)%num].

Lemma push_power_panic r l b : b != [::] -> all is_digit b ->
  if (max_i32 <? digits_val b)%num then push_power r l b = Panic
  else exists r', push_power r l b = Ret r'.
Proof.
move=> b0 bd; rewrite /push_power (parse_i32_digits b0 bd) N.leb_antisym.
by case: N.ltb => //=; eexists.
Qed.

Definition finish (st : norm_state) : outcome bytes :=
  if ns_flag st && (ns_buffer st != [::])
  then push_power (ns_result st) (ns_last st) (ns_buffer st)
  else Ret (ns_result st).

Lemma norm_panics s r l b f : all (fun c => c != " "%char) s -> all is_digit b ->
  (st <- ofold norm_step (NormState r l b f) s;; finish st) = Panic <-> bad_from b f s.
Proof.
elim: s r l b f => [|c s IH] r l b f /=.
  move=> _ bd; rewrite /finish /=; case: f => //=; case: (altP (b =P [::])) => //= b0.
  have := push_power_panic r l b0 bd; case: N.ltb; first by move=> ->.
  by case=> r' ->.
case/andP=> nb ns bd; rewrite {1}/norm_step (negbTE nb).
case: eqP => _; first exact: IH.
case dc: (is_digit c) => /=.
  have bd' : all is_digit (rcons b c) by rewrite all_rcons dc bd.
  by case: f => /=; apply: IH.
case: f => /=; last exact: IH.
case: (altP (b =P [::])) => //= b0.
have := push_power_panic r l b0 bd; case: N.ltb; first by move=> ->.
by case=> r' -> /=; apply: IH.
Qed.

(* runs *)
Lemma run_prefix (a run b pre : bytes) c s' : all run_char pre -> ~~ run_char c ->
  pre ++ c :: s' = a ++ run ++ b -> all run_char run ->
  ~~ (if a is c :: a' then run_char (last c a') else false) ->
  ~~ (if b is c :: _ then run_char c else false) ->
  "^"%char \in run ->
  [/\ a = [::], run = pre & b = c :: s'] \/
  exists2 a', s' = a' ++ run ++ b & ~~ (if a' is c :: a' then run_char (last c a') else false).
Proof.
move=> hp hc; elim: pre a hp => [|d pre IH] a /=.
  move=> _; case: a => [|e a] /=.
    case: run => [|e run] // -[Ee _] /= /andP[h _]; by rewrite -Ee (negbTE hc) in h.
  case=> <- Es _ ha _ _; right; exists a => //.
  by case: a ha {Es} => //= x a; rewrite /=.
case/andP=> hd hpre; case: a => [|e a] /= E hr ha hb hin.
  clear IH; left; case: run E hr hin => [|e run] // [-> E] /= /andP[_ hr] _.
  have [-> ->] : run = pre /\ b = c :: s'; last by [].
  elim: pre run hpre E hr => [|d' pre IH] [|e' run] //=.
  - by move=> _ [<- _] /andP[h _]; rewrite h in hc.
  - by move=> /andP[h _] Eb _; rewrite -Eb /= h in hb.
  by case/andP=> _ hpre [-> E] /andP[_ hr]; have [-> ->] := IH run hpre E hr.
case: E => Ed E; case: a ha E => [|x a] ha E; first by rewrite -Ed hd in ha.
by have [[]|h] := IH (x :: a) hpre E hr ha hb hin; [|right].
Qed.

Lemma bad_fromP s pre : all run_char pre ->
  bad_from [seq c <- pre | is_digit c] ("^"%char \in pre) s <-> bad_exponent (pre ++ s).
Proof.
elim: s pre => [|c s IH] pre hp /=.
  rewrite cats0; split.
    case/and3P=> f b0 /N.ltb_spec0 h; exists [::], pre, [::]; split; last by right.
    by rewrite cats0; split.
  case=> a [run [b [[E hr hin ha hb] H]]].
  have [Ea Eb] : a = [::] /\ b = [::].
    split.
      case: a E ha {H} => // x a; rewrite /= => E /negP[]; move/allP: hp; apply.
      by rewrite E -cat_cons mem_cat mem_last.
    case: b E hb {H} => // x b E /negP[]; move/allP: hp; apply.
    by rewrite E !mem_cat inE eqxx !orbT.
  move: E H; rewrite Ea Eb cats0 /= => -> [[_ //]|h]; rewrite hin /=; apply/andP; split; last exact/N.ltb_spec0.
  by apply/eqP => E0; move: h; rewrite E0.
have step : (c == "^"%char) || is_digit c -> bad_exponent (pre ++ c :: s) <-> bad_exponent (rcons pre c ++ s).
  by rewrite cat_rcons.
case: (altP (c =P "^"%char)) => [Ec|nc].
  rewrite step ?Ec // -IH ?all_rcons /= ?hp //.
  by rewrite filter_rcons /= mem_rcons inE eqxx.
case: ifP => dc.
  rewrite step ?dc ?orbT // -IH ?all_rcons /= ?hp /run_char ?dc //.
  by rewrite filter_rcons dc mem_rcons inE eq_sym (negbTE nc).
have hc : ~~ run_char c by rewrite /run_char dc (negbTE nc).
split.
  case/orP=> [/andP[f hb]|].
    exists [::], pre, (c :: s); split=> //; lazy zeta.
    by case/orP: hb => [/eqP ->|/N.ltb_spec0 h]; [left|right].
  move/(IH [::] isT)=> [a [run [b [[E hr hin ha hb] H]]]].
  exists (pre ++ c :: a), run, b; split=> //; split=> //; first by rewrite -catA /= -E.
  case E' : (pre ++ c :: a) => [|x y] //; suff -> : last x y = last c a.
    by case: a ha {E E'} => //= *; rewrite hc.
  by have := congr1 (last "0"%char) E'; rewrite last_cat /= => ->.
case=> a [run [b [[E hr hin ha hb] H]]].
have [[Ea Er Eb]|[a' Es ha']] := run_prefix hp hc E hr ha hb hin.
  apply/orP; left; rewrite -Er hin /=; case: H => [[/eqP -> _] //|/N.ltb_spec0 ->]; by rewrite orbT.
apply/orP; right; apply/(IH [::] isT); exists a', run, b; split=> //; by split.
Qed.

Lemma cleaned_no_blank s : all (fun c => c != " "%char) (cleaned s).
Proof.
rewrite /cleaned /to_lowercase all_map; apply/allP => c; rewrite mem_filter => /andP[h _] /=.
by rewrite lower_eq_blank.
Qed.

Lemma cleaned_lower s : to_lowercase (cleaned s) = cleaned s.
Proof. by rewrite /cleaned to_lowercase_idem. Qed.

Lemma parse_string_panics s : parse_string s = Panic <-> bad_exponent (cleaned s).
Proof.
rewrite parse_string_cleaned /parse_string cleaned_lower.
rewrite -[bad_exponent _]/(bad_exponent ([::] ++ cleaned s)) -bad_fromP //.
exact: norm_panics (cleaned_no_blank s) _.
Qed.

(* what the result is made of *)
Definition made_of (st : norm_state) (done : bytes) : Prop :=
  [/\ forall c, c \in ns_result st -> [|| c \in done, c == "*"%char | c == " "%char],
      (ns_last st \in done) || (ns_last st == " "%char)
    & forall c, ~~ is_digit c -> c != "^"%char -> c != " "%char ->
      (count_mem c done <= count_mem c (ns_result st))%N].

Lemma push_power_made r l b r' : push_power r l b = Ret r' -> exists k, r' = r ++ flatten (nseq k [:: "*"%char; l]).
Proof. by rewrite /push_power; case: parse_i32 => //= k [<-]; eexists. Qed.

Lemma mem_stars k l c : c \in flatten (nseq k [:: "*"%char; l]) -> (c == "*"%char) || (c == l).
Proof. by move=> /flattenP[x /nseqP[-> _]]; rewrite !inE. Qed.

Lemma norm_step_made st c st' done : norm_step st c = Ret st' -> made_of st done -> made_of st' (rcons done c).
Proof.
case: st => r l b f; rewrite /norm_step; case: (altP (c =P " "%char)) => [->|nb].
  case=> <- [/= h1 h2 h3]; split=> /= [x|| x nd nc nx].
  - by move/h1; rewrite mem_rcons inE => /or3P[]->; rewrite ?orbT.
  - by rewrite mem_rcons inE; case/orP: h2 => ->; rewrite ?orbT.
  by rewrite -cats1 count_cat /= eq_sym (negbTE nx) !addn0 h3.
case: (altP (c =P "^"%char)) => [->|nc].
  case=> <- [/= h1 h2 h3]; split=> /= [x|| x nd ncx nx].
  - by move/h1; rewrite mem_rcons inE => /or3P[]->; rewrite ?orbT.
  - by rewrite mem_rcons inE; case/orP: h2 => ->; rewrite ?orbT.
  by rewrite -cats1 count_cat /= eq_sym (negbTE ncx) !addn0 h3.
case dc: (is_digit c) => /=.
  case: f => /= -[<-] [/= h1 h2 h3]; split=> /= [x|| x nd ncx nx].
  - by move/h1; rewrite mem_rcons inE => /or3P[]->; rewrite ?orbT.
  - by rewrite mem_rcons inE; case/orP: h2 => ->; rewrite ?orbT.
  - have ne : c != x by apply: contraNneq nd => <-.
    by rewrite -cats1 count_cat /= (negbTE ne) !addn0 h3.
  - by rewrite !mem_rcons !inE => /orP[->//|/h1/or3P[]->]; rewrite ?orbT.
  - by rewrite mem_rcons inE eqxx.
  by rewrite -!cats1 !count_cat leq_add // h3.
have H r' : (exists t, r' = r ++ t /\ forall x, x \in t -> (x == "*"%char) || (x == l)) ->
    made_of (NormState r l b f) done -> made_of (NormState (rcons r' c) c [::] false) (rcons done c).
  case=> t [-> ht] [/= h1 h2 h3]; split=> /= [x|| x nd ncx nx].
  - rewrite !mem_rcons !inE mem_cat => /or3P[->//|/h1/or3P[]->|/ht/orP[->|/eqP ->]]; rewrite ?orbT //.
    by case/orP: h2 => ->; rewrite ?orbT.
  - by rewrite mem_rcons inE eqxx.
  rewrite -!cats1 !count_cat leq_add // (leq_trans (h3 x nd ncx nx)) ?leq_addr //.
case: f H => /= H.
  case: ifP => //= _; case E: push_power => [r'||] //= -[<-]; apply: H.
  have [k ->] := push_power_made E; exists (flatten (nseq k [:: "*"%char; l])); split=> // x.
  exact: mem_stars.
by case=> <-; apply: H; exists [::]; rewrite cats0.
Qed.

Lemma ofold_made s st st' done : ofold norm_step st s = Ret st' -> made_of st done -> made_of st' (done ++ s).
Proof.
elim: s st done => [|c s IH] st done /=; first by case=> <-; rewrite cats0.
case E: (norm_step st c) => [st1||] //= /IH H /(norm_step_made E) /H.
by rewrite cat_rcons.
Qed.

Lemma parse_string_made s n : parse_string s = Ret n ->
  (forall c, c \in n -> [|| c \in cleaned s, c == "*"%char | c == " "%char]) /\
  (forall c, ~~ is_digit c -> c != "^"%char -> c != " "%char ->
     (count_mem c (cleaned s) <= count_mem c n)%N).
Proof.
rewrite parse_string_cleaned /parse_string cleaned_lower.
case E: (ofold _ _ _) => [st||] //=.
have [h1 h2 h3] : made_of st (cleaned s) by apply: (ofold_made (done := [::]) E); split.
case: ifP => _; last by case=> <-.
move/push_power_made=> [k ->]; split=> [c|c nd nc nb].
  rewrite mem_cat => /orP[/h1//|/mem_stars/orP[->|/eqP ->]]; rewrite ?orbT //.
  by case/orP: h2 => ->; rewrite ?orbT.
by rewrite count_cat (leq_trans (h3 c nd nc nb)) ?leq_addr.
Qed.
