(* C55-C59: the equation parser. *)
From Coq Require Import String Ascii NArith ZArith.
Set Warnings "-notation-overridden,-ambiguous-paths".
From mathcomp Require Import all_ssreflect all_algebra.
From mathcomp Require Import zify ring.
From Verif Require Import Base BaseLemmas ArkPoly ArkDomain ArkDomainLemmas ArkPolyFft KzgModel KzgSpec
  PlonkModel PlonkSpec PlonkLemmas PlonkCompile PlonkRefine PlonkProps.
From Verif Require Import ParserModel ParserSpec ParserStrings ParserGates ParserParse ParserSound
  ParserAst ParserCircuit ParserNorm.

Set Implicit Arguments.
Unset Strict Implicit.
Unset Printing Implicit Defensive.

Import GRing.Theory.
Local Open Scope ring_scope.

Local Arguments parse_i32 : simpl never.
Local Arguments norm_step : simpl never.
Local Arguments digits_val : simpl never.

(* ------------------------------------------------------------------ *)
(* The character classes, the reading of numerals, splitting and trimming, which
   the statements below share with the model, are the usual ones. *)
Theorem C55_characters (c : ascii) :
  [/\ is_digit c = (c \in str "0123456789"),
      is_upper c = (c \in str "ABCDEFGHIJKLMNOPQRSTUVWXYZ"),
      lower_char c = nth c (str "abcdefghijklmnopqrstuvwxyz") (index c (str "ABCDEFGHIJKLMNOPQRSTUVWXYZ"))
    & is_space c = (c \in [seq ascii_of_nat k | k <- [:: 9; 10; 11; 12; 13; 32]%N])].
Proof. by case: c => -[] [] [] [] [] [] [] []; split; vm_compute. Qed.

Theorem C55_numerals (ds : bytes) : all is_digit ds ->
  N.to_nat (digits_val ds) =
  (\sum_(i < size ds) index (nth zero ds (size ds - i.+1)) (str "0123456789") * 10 ^ i)%N.
Proof.
elim/last_ind: ds => [|ds c IH] alld; first by rewrite big_ord0.
move: alld; rewrite all_rcons => /andP[dc alld].
rewrite size_rcons big_ord_recl subSS subn0 nth_rcons ltnn eqxx expn0 muln1.
rewrite /digits_val foldl_rcons -/(digits_val ds).
have -> : N.to_nat (10 * digits_val ds + digit_val c)%num = (index c (str "0123456789") + 10 * N.to_nat (digits_val ds))%N.
  have [E _ _ _] := C55_characters c; rewrite E in dc.
  have -> : index c (str "0123456789") = N.to_nat (digit_val c).
    by move: dc; case: (c) => -[] [] [] [] [] [] [] []; vm_compute.
  lia.
congr addn; rewrite IH // big_distrr /=; apply: eq_bigr => i _.
rewrite /bump /= add1n subSS nth_rcons; have -> : (size ds - i.+1 < size ds)%N.
  by rewrite ltn_subrL /= (leq_ltn_trans _ (ltn_ord i)).
by rewrite expnS mulnCA.
Qed.

Theorem C59_pieces (c : ascii) (s : bytes) (ss : seq bytes) :
  split_on c s = ss <->
  [/\ (0 < size ss)%N, all (fun p => c \notin p) ss & s = join c ss].
Proof.
split=> [<-|[ne free ->]]; last exact: split_join.
have [p [ps E]] := split_neq0 c s; split; first by rewrite E.
  apply/allP => q /mem_split mq; apply/negP => /mq; by rewrite eqxx andbF.
elim: s {p ps E} => //= d s IH; have [p [ps E]] := split_neq0 c s.
rewrite E in IH *; case: eqP => [->|_] /=; first by rewrite IH.
by rewrite {1}IH; case: (ps).
Qed.

Definition no_outer_blank (t : bytes) : bool :=
  if t is u :: t' then ~~ is_space u && ~~ is_space (last u t') else true.
Lemma trim_start_blanks a s : all is_space a -> trim_start (a ++ s) = trim_start s.
Proof. by elim: a => //= c a IH /andP[-> /IH]. Qed.
Lemma trim_start_split s : exists2 a, all is_space a & s = a ++ trim_start s.
Proof.
elim: s => [|c s [a alla E]] /=; first by exists [::].
by case: ifP => h; [exists (c :: a); rewrite /= ?h // -E|exists [::]].
Qed.
Lemma trim_start_head s u t : trim_start s = u :: t -> ~~ is_space u.
Proof. by elim: s => //= c s IH; case: ifP => // h [<- _]; rewrite h. Qed.

Theorem C59_trimming (s t : bytes) : str_trim s = t <->
  no_outer_blank t /\ exists a b, [/\ s = a ++ t ++ b, all is_space a & all is_space b].
Proof.
rewrite /str_trim; split=> [<-|[ok [a [b [-> alla allb]]]]].
  have [a alla Es] := trim_start_split s; set x := trim_start s in Es *.
  have [b allb Ex] := trim_start_split (rev x); set y := trim_start (rev x) in Ex *.
  have Exy : x = rev y ++ rev b by rewrite -rev_cat -Ex revK.
  split; last by exists a, (rev b); split; rewrite ?all_rev // {1}Es {1}Exy.
  case Ey: (rev y) => [|u t'] //=; apply/andP; split.
    by apply: (@trim_start_head s u (t' ++ rev b)); rewrite -/x Exy Ey.
  have Eyy : y = rev (u :: t') by rewrite -Ey revK.
  move: Eyy; rewrite lastI rev_rcons => Eyy.
  exact: (@trim_start_head (rev x) _ _ Eyy).
rewrite trim_start_blanks //; case: t ok => [_|u t' /andP[hu hl]].
  have -> : trim_start b = [::] by rewrite -[b]cats0 trim_start_blanks.
  by [].
have -> : trim_start ((u :: t') ++ b) = (u :: t') ++ b by rewrite /= (negbTE hu).
rewrite rev_cat trim_start_blanks ?all_rev //.
by rewrite {1}lastI rev_rcons /= (negbTE hl) rev_cons revK -lastI.
Qed.

(* ------------------------------------------------------------------ *)
(* C55 *)
Theorem C55_expansion (s : bytes) (ts : seq token) :
  tokens_ok ts -> cleaned s = text ts -> parse_string s = Ret (expanded ts).
Proof. exact: parse_string_tokens. Qed.

Theorem C55_case_and_blanks (s s' : bytes) : cleaned s = cleaned s' -> parse_string s = parse_string s'.
Proof. by move=> E; rewrite parse_string_cleaned E -parse_string_cleaned. Qed.

(* exponent 0 is treated like exponent 1 *)
Theorem C55_power_zero (v : ascii) : ordinary v -> ~~ is_digit v ->
  parse_string (v :: str "^0") = Ret [:: v].
Proof.
move=> ov nd; rewrite (@parse_string_tokens _ [:: TPow v (str "0")]) //=; first by rewrite ov nd.
by rewrite /cleaned /=; case/and3P: ov => -> _ nu /=; rewrite lower_charK.
Qed.

(* the power of a longer name repeats its last letter only *)
Theorem C55_power_of_name (x : bytes) (v : ascii) (ds : bytes) :
  all ordinary x -> token_ok (TPow v ds) ->
  parse_string (x ++ v :: "^"%char :: ds) =
  Ret (x ++ v :: flatten (nseq (N.to_nat (digits_val ds)).-1 [:: "*"%char; v])).
Proof.
move=> ox okp; have ok : tokens_ok (rcons (map TChar x) (TPow v ds)).
  by rewrite -cats1; apply: tokens_ok_cat; [apply: tokens_ok_chars|apply/and3P|].
have Et : text (rcons (map TChar x) (TPow v ds)) = x ++ v :: "^"%char :: ds.
  by rewrite -cats1 text_cat text_chars /text /= cats0.
rewrite (@parse_string_tokens _ (rcons (map TChar x) (TPow v ds))) //.
  by rewrite -cats1 expanded_cat expanded_chars /expanded /= cats0.
rewrite -Et /cleaned -[RHS](text_ordinary ok); congr to_lowercase.
apply/all_filterP; rewrite Et all_cat /=.
case/and5P: okp => /and3P[-> _ _] _ _ dd _ /=; apply/andP; split.
  by apply: sub_all ox => c /and3P[].
by apply: sub_all dd => c /digit_ordinary/and3P[].
Qed.

Lemma norm_digits_plain r l b ds : all is_digit ds ->
  ofold norm_step (NormState r l b false) ds = Ret (NormState (r ++ ds) (last l ds) (b ++ ds) false).
Proof.
elim: ds r l b => [|c ds IH] r l b /=; first by rewrite !cats0.
case/andP=> dc dd; have /and3P[nb nc _] := digit_ordinary dc.
by rewrite /norm_step (negbTE nb) (negbTE nc) dc /= IH // -!cats1 -!catA.
Qed.

(* the power of a numeral: the digits of numeral and exponent together are
   the number of factors, each of them the numeral's last digit *)
Theorem C55_power_of_numeral (d : bytes) (ds : bytes) :
  d != [::] -> all is_digit d -> all is_digit ds -> (digits_val (d ++ ds) <=? max_i32)%num ->
  parse_string (d ++ "^"%char :: ds) =
  Ret (d ++ flatten (nseq (N.to_nat (digits_val (d ++ ds))).-1 [:: "*"%char; last "0"%char d])).
Proof.
move=> d0 dd dds le; rewrite /parse_string.
have lw : to_lowercase (d ++ "^"%char :: ds) = d ++ "^"%char :: ds.
  apply: to_lowercaseK; rewrite all_cat /=; apply/andP; split.
    by apply: sub_all dd => c /digit_ordinary/and3P[].
  by apply: sub_all dds => c /digit_ordinary/and3P[].
rewrite lw ofold_cat norm_digits_plain // bindRet [ofold _ _ (_ :: _)]/= {1}/norm_step /=.
rewrite norm_digits // bindRet /=.
have cd : d ++ ds != [::] by case: (d) d0.
rewrite cd push_powerE //; first by rewrite (_ : last " "%char d = last "0"%char d) //; case: (d) d0.
by rewrite all_cat dd.
Qed.

(* ------------------------------------------------------------------ *)
(* C56 *)
Section C56.
Variables (F : fieldType) (W : bytes -> option F).

(* the expression on the wire of each slot *)
Definition row_labels (calls : seq (gate_call F)) (L : slot -> bytes) : Prop :=
  forall i c, (i < size calls)%N ->
  match call_type (nth c calls i) with
  | Addition => L (2%N, i) = L (0%N, i) ++ "+"%char :: L (1%N, i)
  | Multiplication => L (2%N, i) = L (0%N, i) ++ "*"%char :: L (1%N, i)
  | Constant => L (1%N, i) = str "0" /\ L (2%N, i) = L (0%N, i) ++ str "+0"
  end.

Theorem C56_positions_permute input cir : parse W input = Ret cir ->
  exists2 calls, cir = build calls & forall n, (size calls <= n)%N -> positions_permute calls n.
Proof.
case/parse_inv=> l [r [_ ->]]; eexists; first by [].
by move=> n; rewrite size_calls_of; apply: positions_permute_calls.
Qed.

(* Every slot is sent to a slot with the same expression, slots with the same
   expression are on one cycle; rows combine expressions as their gates do,
   and the last row's output is the whole equation "lhs + -rhs". *)
Theorem C56_subexpressions input cir : parse W input = Ret cir ->
  exists calls L l r,
  [/\ cir = build calls, parse_string input = Ret (l ++ "="%char :: r), row_labels calls L
    & L (2%N, (size calls).-1) =
      join "+" [seq join "*" [seq str_trim f | f <- split_on "*"%char t] |
                t <- rcons (split_on "+"%char l) ("-"%char :: r)]] /\
  [/\ (0 < size calls)%N,
      forall x, x \in slots (size calls) -> L (slot_pos calls x) = L x
    & forall x y, x \in slots (size calls) -> y \in slots (size calls) -> L x = L y ->
      exists k, iter k (slot_pos calls) x = y].
Proof.
case/parse_inv=> l [r [[En nl nr kn] ->]]; set gl := parsed_gates W l r.
have [lb ll] := parsed_labels W l r; rewrite -/gl in lb ll.
have [n Es] : exists n, size gl = n.+1 by rewrite /gl /parsed_gates size_rcons; eexists.
exists (calls_of gl), (label gl), l, r; split; split=> //.
- move=> i c; rewrite size_calls_of => li; have g0 : pgate F := PGate ([::], 0) ([::], 0) ([::], 0) Addition.
  rewrite (nth_calls_of c g0) // /gate_call_of /=.
  have := all_nthP g0 lb _ li; rewrite /glabels !(labelE g0) //= /gwire /=.
  by case: pg_type => [/eqP||/andP[/eqP -> /eqP ->]] // /eqP.
- by rewrite size_calls_of Es -(ll n Es).
- by rewrite size_calls_of Es.
- by move=> x; rewrite size_calls_of; apply: label_pos.
move=> x y; rewrite size_calls_of -!(perm_mem (perm_rowslots _)) => xs ys El.
by have [k <-] := target_connects xs ys El; exists k; have [] := iter_pos k xs.
Qed.

End C56.

(* ------------------------------------------------------------------ *)
(* C57 *)
Section C57.
Variables (F : fieldType) (W : bytes -> option F).
Variables (e : equation) (input : bytes).
Hypotheses (ok : equation_ok e) (names : names_only W) (defd : defined_on W e).
Hypothesis written : cleaned input = equation_text e.

Lemma parse_equation : parse W input = Ret (build (calls_of (parsed_gates W (lhs_text e) (rhs_text e)))).
Proof.
rewrite (parseE W (normalised ok written) (lhs_no_eq ok) (rhs_no ok _ _)) //.
by rewrite equation_known.
Qed.

(* the gate relations hold exactly for solutions, and then the copy
   constraints hold as well *)
Theorem C57_parsed_equation : exists2 calls, parse W input = Ret (build calls) &
  all (@call_holds F) calls = equation_holds W e /\
  forall n, (size calls <= n)%N ->
    positions_permute calls n /\ (equation_holds W e -> copies_hold calls n).
Proof.
exists (calls_of (parsed_gates W (lhs_text e) (rhs_text e))); first exact: parse_equation.
have [gl [wl [wr [Eh Ep hs vl vr]]]] := honest_last ok names defd.
rewrite /equation_holds -subr_eq0 -vl -vr; split; last first.
  move=> n; rewrite size_calls_of => le; split; first exact: positions_permute_calls.
  move/eqP=> E0; have Ehp : honest_gates W e = parsed_gates W (lhs_text e) (rhs_text e) by rewrite Eh Ep E0.
  by rewrite -Ehp (sound_copies hs) // Ehp.
case: eqP => E0.
  have Ehp : honest_gates W e = parsed_gates W (lhs_text e) (rhs_text e) by rewrite Eh Ep E0.
  by rewrite -Ehp (sound_holds hs).
apply/negbTE/negP => H; apply: E0; apply/eqP.
set P := parsed_gates W (lhs_text e) (rhs_text e) in Ep H *.
have lt : (size gl < size P)%N by rewrite Ep size_rcons.
pose g := PGate wl wr (wl.1 ++ str "+" ++ wr.1, 0) Addition : pgate F.
pose c0 := gate_call_of P 0 g.
have := all_nthP c0 H (size gl); rewrite size_calls_of => /(_ lt).
rewrite (nth_calls_of c0 g) // Ep nth_rcons ltnn eqxx /call_holds /=.
by rewrite addr0.
Qed.

(* ------------------------------------------------------------------ *)
(* C58: some other assignment satisfies the same circuit, whatever the
   witness values. *)
Theorem C58_not_enforced : exists calls calls',
  [/\ parse W input = Ret (build calls), same_circuit calls calls', all (@call_holds F) calls'
    & forall n, (size calls' <= n)%N -> positions_permute calls' n && copies_hold calls' n].
Proof.
exists (calls_of (parsed_gates W (lhs_text e) (rhs_text e))), (calls_of (honest_gates W e)).
have [gl [wl [wr [Eh Ep hs vl vr]]]] := honest_last ok names defd; split.
- exact: parse_equation.
- exact: honest_same.
- exact: sound_holds hs.
move=> n; rewrite size_calls_of => le.
by rewrite positions_permute_calls // (sound_copies hs).
Qed.

(* with the prover and verifier of the plonk crate *)
Section EndToEnd.
Variables (E : pairing_group F) (X : plonk_env E).
Hypotheses (okE : pairing_ok E) (okX : fft_ok (pk_fft X)).
Hypothesis long : digest_long (pk_sha256 X).
Variables (cir : circuit F) (cc : compiled_circuit F).
Hypotheses (parsed : parse W input = Ret cir) (compiled : compile (pk_fft X) cir = Ret cc).
Variables (s : F) (m : nat).
Hypothesis nm : (cc_size cc <= m)%N.
Local Notation srs := (srs_new_from_secret E s m).

(* a proof is only ever produced from a solution *)
Theorem C57_only_solutions T b pf : generate_proof X T b cc srs = Ret pf -> equation_holds W e.
Proof.
have [calls Ec [H _]] := C57_parsed_equation; move: parsed; rewrite Ec => -[Eb] gen.
have comp := compiled; rewrite -Eb in comp; rewrite -H; exact: (C50_gates okX long comp nm gen).
Qed.

(* and from every solution, up to the accidents named in C51 *)
Theorem C57_all_solutions T b : equation_holds W e ->
  (4 * cc_size cc + 6 <= 2 ^ two_adicity (pk_fft X))%N -> no_accident X cc b s ->
  exists2 pf, generate_proof X T b cc srs = Ret pf &
    verify X (pk_sha256 X) cc srs pf = if ch_zeta X (pk_sha256 X) pf == 1 then Panic else Ret tt.
Proof.
have [calls Ec [H1 H2]] := C57_parsed_equation; move: parsed; rewrite Ec => -[Eb] sol bd na.
have comp := compiled; rewrite -Eb in comp; have [le _ _] := C45_compiled_size comp.
have [h1 h2] := H2 _ le.
by apply: (C51_satisfied_circuits okE okX long comp nm) => //; [rewrite H1|apply: h2].
Qed.

(* C58: from any witness values, solution or not, a prover gets a proof that
   the verifier accepts for the parsed circuit *)
Theorem C58_forged_proof : exists cir' cc',
  [/\ gates cir' = gates cir, compile (pk_fft X) cir' = Ret cc', cc_size cc' = cc_size cc &
  forall T b, (4 * cc_size cc + 6 <= 2 ^ two_adicity (pk_fft X))%N -> no_accident X cc' b s ->
  exists2 pf, generate_proof X T b cc' srs = Ret pf &
    verify X (pk_sha256 X) cc srs pf = if ch_zeta X (pk_sha256 X) pf == 1 then Panic else Ret tt].
Proof.
have [calls [calls' [Ep same hold H]]] := C58_not_enforced.
move: parsed; rewrite Ep => -[Eb]; have comp := compiled; rewrite -Eb in comp *.
have [cc' Ec' Epub] := same_compile same comp.
have Es : cc_size cc' = cc_size cc by case: Epub.
have nm' : (cc_size cc' <= m)%N by rewrite Es.
exists (build calls'), cc'; split=> // T b bd na; rewrite -Es in bd.
have [le _ _] := C45_compiled_size Ec'; have /andP[h1 h2] := H _ le.
have [pf g v] := C51_satisfied_circuits okE okX long Ec' nm' T bd hold h1 h2 na.
by exists pf => //; rewrite -(verify_public _ _ _ _ Epub).
Qed.

End EndToEnd.

End C57.

(* ------------------------------------------------------------------ *)
(* C59 *)
Section C59.
Variables (F : fieldType) (W : bytes -> option F).

Theorem C59_never_errors input m : parse W input <> Err m.
Proof. exact: parse_noerr. Qed.

(* parse returns exactly on inputs whose normalised text is one equation
   between known terms *)
Theorem C59_returns_iff input :
  (exists cir, parse W input = Ret cir) <->
  (exists2 n, parse_string input = Ret n & acceptable W n).
Proof.
split=> [[cir /parse_inv[l [r [[En nl nr /andP[k1 k2]] _]]]]|[n En [l [r [E nl nr k1 k2]]]]].
  by exists (l ++ "="%char :: r) => //; exists l, r.
rewrite E in En; rewrite (parseE W En nl nr) k1 k2; by eexists.
Qed.

(* normalising panics exactly on bad exponents *)
Theorem C59_normalise_panics_iff input : parse_string input = Panic <-> bad_exponent (cleaned input).
Proof. exact: parse_string_panics. Qed.

Theorem C59_normalise_never_errors input m : parse_string input <> Err m.
Proof. exact: parse_noerr_string. Qed.

(* not exactly one equals sign *)
Theorem C59_equals_signs input : count_mem "="%char (cleaned input) != 1%N -> parse W input = Panic.
Proof.
move=> ne; case E: (parse W input) => [cir|m|] //; last by case: (parse_noerr E).
have [l [r [[En nl nr _] _]]] := parse_inv E; have [h1 h2] := parse_string_made En.
have c1 : count_mem "="%char (l ++ "="%char :: r) = 1%N.
  by rewrite count_cat /= (count_memPn nl) (count_memPn nr).
have := h2 "="%char isT isT isT; rewrite c1; case Ec: (count_mem _ _) ne => [|[|k]] // _ _.
have /h1 : "="%char \in l ++ "="%char :: r by rewrite mem_cat inE eqxx orbT.
by rewrite -has_pred1 has_count Ec.
Qed.

(* only lower-case names are ever looked up *)
Theorem C59_lower_case_names W' input :
  (forall k, all (fun c => ~~ is_upper c) k -> W k = W' k) -> parse W input = parse W' input.
Proof.
move=> H; rewrite /parse; case En: (parse_string input) => [n|m|] //=.
have low : all (fun c => ~~ is_upper c) n.
  have [h1 _] := parse_string_made En; apply/allP => c /h1/or3P[hc|/eqP ->|/eqP ->] //.
  by move: hc; rewrite /cleaned => /mapP[d _ ->]; apply: lower_not_upper.
have Hf (st : pstate F) f : all (fun c => ~~ is_upper c) f -> get_witness_value W st f = get_witness_value W' st f.
  case: f => // c f lf; rewrite /get_witness_value; suff -> : W (if c == "-"%char then f else c :: f) =
     W' (if c == "-"%char then f else c :: f) by [].
  by apply: H; case: ifP => // _; case/andP: lf.
have Ht (st : pstate F) t : all (fun c => ~~ is_upper c) t -> term_wire W st t = term_wire W' st t.
  move=> lt; rewrite /term_wire; congr obind; rewrite /term_wires.
  have : forall p, p \in split_on "*"%char t -> all (fun c => ~~ is_upper c) (str_trim p).
    move=> p hp; apply/allP => c /mem_str_trim cp; have /andP[ct _] := mem_split hp cp.
    by move/allP: lt; apply.
  elim: (split_on _ t) (_, _) => [|p ps IH] acc hp //=.
  rewrite Hf ?hp ?mem_head //; case: get_witness_value => [[v st']||] //=.
  by apply: IH => q hq; apply: hp; rewrite inE hq orbT.
congr obind; rewrite /prepare_gen_circuit.
case Es: (split_on "="%char n) => [|l [|r [|]]] //; have /split_two[E _ _] := Es.
move: low; rewrite E all_cat => /andP[ll /andP[_ lr]].
congr obind; set ts := rcons _ _.
have : forall t, t \in ts -> all (fun c => ~~ is_upper c) t.
  move=> t; rewrite mem_rcons inE => /orP[/eqP -> //|ht]; apply/allP => c ct.
  by have /andP[h _] := mem_split ht ct; move/allP: ll; apply.
case: ts => // t ts lts; rewrite /sum_gates Ht ?lts ?mem_head //.
case: term_wire => [[w st]||] //=; congr obind.
have {}lts : forall t, t \in ts -> all (fun c => ~~ is_upper c) t.
  by move=> t' h; apply: lts; rewrite inE h orbT.
elim: ts (w, st) lts => [|t' ts IH] acc lts //=.
rewrite Ht ?lts ?mem_head //; case: term_wire => [[cur st']||] //=.
by apply: IH => q hq; apply: lts; rewrite inE hq orbT.
Qed.

(* so registering a name with an upper-case letter has no effect *)
Theorem C59_upper_case_witness k v input : has is_upper k ->
  parse (add_witness W k v) input = parse W input.
Proof.
move=> up; apply/esym/C59_lower_case_names => k' low; rewrite /add_witness; case: eqP => // E.
rewrite -E in up; have [c h1 h2] := has_all up low; by rewrite h1 in h2.
Qed.

End C59.

(* 32-bit literals: an optional sign, at least one digit, in range *)
Theorem C59_literals (s : bytes) (z : Z) : parse_i32 s = Some z <->
  exists sg ds, [/\ s = sg ++ ds, sg \in [:: [::]; str "-"; str "+"], ds != [::], all is_digit ds &
    [/\ z = (if sg == str "-" then Z.opp (Z.of_N (digits_val ds)) else Z.of_N (digits_val ds)),
        Z.le (Z.opp (Z.of_N 2147483648)) z & Z.le z (Z.of_N max_i32)]].
Proof.
split=> [h|[sg [ds [-> + d0 dd [Ez h1 h2]]]]].
  have [r1 r2] := parse_i32_range h; move: h; rewrite /parse_i32; case: s => // c t.
  have H sg u : (if parse_digits u is Some n then
      let z := if sg == str "-" then Z.opp (Z.of_N n) else Z.of_N n in
      if Z.leb (Z.opp (Z.of_N 2147483648%num)) z && Z.leb z (Z.of_N 2147483647%num) then Some z else None
    else None) = Some z -> sg \in [:: [::]; str "-"; str "+"] ->
    exists sg0 ds, [/\ sg ++ u = sg0 ++ ds, sg0 \in [:: [::]; str "-"; str "+"], ds != [::], all is_digit ds &
    [/\ z = (if sg0 == str "-" then Z.opp (Z.of_N (digits_val ds)) else Z.of_N (digits_val ds)),
        Z.le (Z.opp (Z.of_N 2147483648)) z & Z.le z (Z.of_N max_i32)]].
    rewrite /parse_digits; case: ifP => // /andP[u0 du]; lazy zeta; case: ifP => // _ [Ez] hs.
    by exists sg, u; split.
  case: (c =P "-"%char) => [->|_]; first by move=> h; apply: (H (str "-") t).
  case: (c =P "+"%char) => [->|_]; first by move=> h; apply: (H (str "+") t).
  by move=> h; apply: (H [::] (c :: t)).
rewrite !inE; case/or3P=> /eqP Es; rewrite Es in Ez *.
- rewrite cat0s parse_i32_digits //; case: N.leb_spec => le; first by rewrite Ez.
  by exfalso; have {}Ez : z = Z.of_N (digits_val ds) := Ez; rewrite /max_i32 in le h2; clear -le h2 Ez; lia.
- rewrite [_ ++ _]/= parse_i32_neg //; case: N.leb_spec => le; first by rewrite Ez.
  by exfalso; have {}Ez : z = Z.opp (Z.of_N (digits_val ds)) := Ez; clear -le h1 Ez; lia.
have := parse_i32_digits d0 dd; case: N.leb_spec => le; last first.
  by exfalso; have {}Ez : z = Z.of_N (digits_val ds) := Ez; rewrite /max_i32 in le h2; clear -le h2 Ez; lia.
have -> : z = Z.of_N (digits_val ds) by exact: Ez.
move=> <-.
by rewrite /parse_i32 /=; case: (ds) d0 dd => // c t _ /= /andP[dc _]; rewrite !digit_not_sign.
Qed.
