(* C93: numerals with leading zeros. *)
From Coq Require Import String Ascii NArith ZArith.
Set Warnings "-notation-overridden,-ambiguous-paths".
From mathcomp Require Import all_ssreflect all_algebra.
From mathcomp Require Import zify ring.
From Verif Require Import Base BaseLemmas ArkPoly ArkDomain ArkDomainLemmas ArkPolyFft ArkPolyLemmas ArkPolyFftLemmas KzgModel KzgSpec
  PlonkModel PlonkSpec PlonkLemmas PlonkCompile PlonkRefine PlonkProve PlonkVerify PlonkProps.
From Verif Require Import ParserModel ParserSpec ParserStrings ParserGates ParserParse ParserSound
  ParserAst ParserCircuit ParserProps CpiLemmas CpiProps ParserRename RenameProps.

Set Implicit Arguments.
Unset Strict Implicit.
Unset Printing Implicit Defensive.

Import GRing.Theory.
Local Open Scope ring_scope.

Local Arguments parse_i32 : simpl never.
Local Arguments digits_val : simpl never.

(* ------------------------------------------------------------------ *)
(* three gates: a product, a numeral, and their sum; the sum uses the name b *)
Section ThreeGates.
Variables (F : fieldType) (xv yv w v v0 v1 : F).

Definition three_gates (nx ny p a z a0 b s : bytes) : seq (pgate F) :=
  [:: PGate (nx, xv) (ny, yv) (p, w) Multiplication;
      PGate (a, v) (z, 0) (a0, v0) Constant;
      PGate (p, w) (b, v1) (s, 0) Addition].
Definition three_calls (linked : bool) : seq (gate_call F) :=
  [:: GateCall Multiplication ((0, 0)%N, xv) ((1, 0)%N, yv) ((0, 2)%N, w) 0;
      GateCall Constant (if linked then (1, 2)%N else (0, 1)%N, v) ((1, 1)%N, 0) ((2, 1)%N, v0) 0;
      GateCall Addition ((2, 0)%N, w) (if linked then (0, 1)%N else (1, 2)%N, v1) ((2, 2)%N, 0) 0].

Lemma three_linked nx ny p a z a0 s : uniq [:: nx; ny; p; a; z; a0; s] ->
  calls_of (three_gates nx ny p a z a0 a s) = three_calls true.
Proof.
rewrite /= !inE !negb_or => /and5P[/and5P[h1 h2 h3 h4 /andP[h5 h6]] /and5P[h7 h8 h9 h10 h11] /and4P[h12 h13 h14 h15] /and3P[h16 h17 h18] /andP[/andP[h19 h20] /andP[h21 _]]].
have E (u t : bytes) : u != t -> ((u == t) = false) * ((t == u) = false) by move/negbTE => e; split; rewrite // eq_sym.
set H := (E _ _ h1, E _ _ h2, E _ _ h3, E _ _ h4, E _ _ h5, E _ _ h6, E _ _ h7, E _ _ h8, E _ _ h9, E _ _ h10,
  (E _ _ h11, E _ _ h12, E _ _ h13, E _ _ h14, E _ _ h15, E _ _ h16, E _ _ h17, E _ _ h18, E _ _ h19, E _ _ h20), E _ _ h21, @eqxx).
rewrite /calls_of /calls_from /= /gate_call_of /target /occ /label /= /gwire /=.
by rewrite ?H /=.
Qed.
Lemma three_unlinked nx ny p a z a0 b s : uniq [:: nx; ny; p; a; z; a0; s] -> b \notin [:: nx; ny; p; a; z; a0; s] ->
  calls_of (three_gates nx ny p a z a0 b s) = three_calls false.
Proof.
rewrite /= !inE !negb_or => /and5P[/and5P[h1 h2 h3 h4 /andP[h5 h6]] /and5P[h7 h8 h9 h10 h11] /and4P[h12 h13 h14 h15] /and3P[h16 h17 h18] /andP[/andP[h19 h20] /andP[h21 _]]].
case/and5P=> g1 g2 g3 g4 /and3P[g5 g6 g7].
have E (u t : bytes) : u != t -> ((u == t) = false) * ((t == u) = false) by move/negbTE => e; split; rewrite // eq_sym.
set H := (E _ _ h1, E _ _ h2, E _ _ h3, E _ _ h4, E _ _ h5, E _ _ h6, E _ _ h7, E _ _ h8, E _ _ h9, E _ _ h10,
  (E _ _ h11, E _ _ h12, E _ _ h13, E _ _ h14, E _ _ h15, E _ _ h16, E _ _ h17, E _ _ h18, E _ _ h19, E _ _ h20), E _ _ h21,
  (E _ _ g1, E _ _ g2, E _ _ g3, E _ _ g4, E _ _ g5, E _ _ g6, E _ _ g7), @eqxx).
rewrite /calls_of /calls_from /= /gate_call_of /target /occ /label /= /gwire /=.
by rewrite ?H /=.
Qed.
End ThreeGates.

(* ------------------------------------------------------------------ *)
Lemma numeral_dec d : numeral_ok d -> numeral_ok (dec_N (digits_val d)).
Proof.
case/and3P=> d0 dd dl; have [h1 h2 h3] := dec_N_ok (digits_val d).
by apply/and3P; split; rewrite ?h2.
Qed.

Lemma name_fresh (d d' : bytes) : all is_digit d -> d != d' ->
  "-"%char :: d \notin [:: str "x"; str "y"; str "x*y"; "-"%char :: d'; str "0"; ("-"%char :: d') ++ str "+" ++ str "0";
           str "x*y+-" ++ d].
Proof.
move=> dd ne; rewrite !inE !negb_or.
have dash : "-"%char :: d != "-"%char :: d' by rewrite eqseq_cons eqxx.
have sum : "-"%char :: d != ("-"%char :: d') ++ str "+" ++ str "0".
  rewrite eqseq_cons eqxx /=; apply/eqP => E.
  by move: dd; rewrite E all_cat /= andbF.
by do ! (apply/andP; split=> //); apply/eqP.
Qed.

(* ------------------------------------------------------------------ *)
(* x*y=d *)
Section Family.
Variables (F : fieldType) (P : fft_field F) (E : pairing_group F).

Definition num_eq (d : bytes) : equation := Equation [:: xy] [:: Factor false (Num d) None].

Lemma num_eq_text d : equation_text (num_eq d) = str "x*y=" ++ d.
Proof. by rewrite /equation_text /= /term_text /= /factor_text /= cats0. Qed.

Lemma num_eq_ok d : numeral_ok d -> equation_ok (num_eq d).
Proof. by move=> h; rewrite /equation_ok /= /factor_ok /= h. Qed.

Lemma digits_clean' d : all is_digit d -> cleaned (str "x*y=" ++ d) = str "x*y=" ++ d.
Proof.
move=> h; have E1 : cleaned d = d.
  elim: d h => //= c d IH /andP[hc /IH]; rewrite /cleaned /= => Ed.
  by case/and3P: (digit_ordinary hc) => -> _ nu /=; rewrite lower_charK // Ed.
by rewrite -[in RHS]E1.
Qed.

Lemma num_normal d : numeral_ok d -> parse_string (str "x*y=" ++ d) = Ret (str "x*y" ++ "="%char :: d).
Proof.
move=> kd; have /and3P[d0 dd dl] := kd.
rewrite (normalised (num_eq_ok kd) (etrans (digits_clean' dd) (esym (num_eq_text d)))).
by rewrite /lhs_text /rhs_text /=.
Qed.

Lemma digits_no d c : all is_digit d -> ~~ is_digit c -> c \notin d.
Proof. by move=> /allP h nc; apply/negP => /h; rewrite (negbTE nc). Qed.

Lemma num_factors d : all is_digit d -> factors ("-"%char :: d) = [:: "-"%char :: d].
Proof.
move=> dd; rewrite /factors split_none /=; last by rewrite inE negb_or /= digits_no.
by rewrite plain_trim //=; apply: sub_all dd; apply: digit_plain.
Qed.

Definition neg_value (d : bytes) : F := - (N.to_nat (digits_val d))%:R.

Definition num_gates (xv yv w v v0 v1 : F) (d' d : bytes) : seq (pgate F) :=
  three_gates xv yv w v v0 v1 (str "x") (str "y") (str "x*y") ("-"%char :: d') (str "0")
    (("-"%char :: d') ++ str "+" ++ str "0") ("-"%char :: d) (str "x*y+-" ++ d).

Lemma num_parse d : numeral_ok d ->
  parse_i32 d = Some (Z.of_N (digits_val d)) /\ parse_i32 ("-"%char :: d) = Some (Z.opp (Z.of_N (digits_val d))).
Proof.
case/and3P=> d0 dd dl; rewrite parse_i32_digits // dl parse_i32_neg //; split=> //.
by case: N.leb_spec => // lt; move/N.leb_spec0: dl; rewrite /max_i32; clear -lt; lia.
Qed.

(* the preprocessor's gates *)
Lemma num_cpi_gates d : numeral_ok d ->
  map (@lift F) (cpi_gates (str "x*y") d) = num_gates 0 0 0 (neg_value d) 0 0 d d.
Proof.
move=> kd; have /and3P[d0 dd dl] := kd; have [Ed En] := num_parse kd.
have Et : lhs_terms (str "x*y") = [:: str "x*y"] by [].
rewrite /cpi_gates Et [head _ _]/= [behead _]/= [rcons _ _]/= /csum [foldl _ _ _]/= /cadd.
have Ed' st : cterm st ("-"%char :: d) = (("-"%char :: d, tt), check_constant st ("-"%char :: d)).
  by rewrite /cterm num_factors.
rewrite !Ed' /check_constant En.
have Ex : cterm (pstate0 [eqType of unit]) (str "x*y") = ((str "x*y", tt),
  emit (pstate0 [eqType of unit]) (PGate (str "x", tt) (str "y", tt) (str "x*y", tt) Multiplication)) by [].
rewrite Ex /cpi_constant_gate /cpi_additional_gate /=.
by rewrite /num_gates /three_gates /lift /vw /= En fr_i32_opp.
Qed.

Section Values.
Variables (W : bytes -> option F) (x y : F).
Hypothesis names : names_only W.
Hypotheses (Wx : W (str "x") = Some x) (Wy : W (str "y") = Some y).

(* the parser's gates *)
Lemma num_parsed_gates d : numeral_ok d ->
  parsed_gates W (str "x*y") d =
  num_gates x y (x * y) (neg_value d) (neg_value d + 0) (neg_value d) (dec_N (digits_val d)) d.
Proof.
move=> kd; have /and3P[d0 dd dl] := kd; have [Ed En] := num_parse kd.
have Wd : W d = None.
  case: (d) d0 dd => // c s _ /= /andP[dc _]; apply: no_num => //; by rewrite dc.
have Et : lhs_terms (str "x*y") = [:: str "x*y"] by [].
rewrite /parsed_gates Et [head _ _]/= [behead _]/=; lazy zeta; rewrite /psum [foldl _ _ _]/=.
have Ex : pterm W (pstate0 F) (str "x*y") = ((str "x*y", x * y),
  emit (pstate0 F) (PGate (str "x", x) (str "y", y) (str "x*y", x * y) Multiplication)).
  by rewrite /pterm /= /fval /base_value /cstate /= Wx Wy.
have Ed' st : pterm W st ("-"%char :: d) =
  (("-"%char :: d, fval W ("-"%char :: d)), cstate W st ("-"%char :: d)).
  by rewrite /pterm num_factors.
rewrite Ex !Ed' /cstate /fval /= /base_value Wd Ed fr_i32_N /generate_constant_gate /const_wire /=.
have -> : i32_to_string (Z.of_N (digits_val d)) = dec_N (digits_val d) by case: (digits_val d).
by rewrite fr_i32_N.
Qed.
Lemma num_parse_text d : numeral_ok d ->
  parse W (str "x*y=" ++ d) = Ret (build (calls_of (parsed_gates W (str "x*y") d))).
Proof.
move=> kd; have /and3P[d0 dd dl] := kd.
have defd : defined_on W (num_eq d) by rewrite /defined_on /= Wx Wy.
have := equation_known (num_eq_ok kd) names defd.
rewrite (parseE W (num_normal kd)) //; last exact: digits_no.
by rewrite (_ : rhs_text (num_eq d) = d) // => ->.
Qed.
End Values.

Lemma num_uniq d' d : numeral_ok d' -> all is_digit d ->
  uniq [:: str "x"; str "y"; str "x*y"; "-"%char :: d'; str "0"; ("-"%char :: d') ++ str "+" ++ str "0";
           str "x*y+-" ++ d].
Proof.
case/and3P=> d0' dd' _ dd; rewrite /= !inE !negb_or.
have plus : "-"%char :: d' != ("-"%char :: d') ++ str "+" ++ str "0".
  by apply/eqP => /(congr1 size); rewrite size_cat /= => /eqP; rewrite -[X in X == _]addn0 eqn_add2l.
by do ! (apply/andP; split=> //); apply/eqP.
Qed.

(* C93: the preprocessed input depends on the value of the numeral only *)
Theorem C93_preprocessor_ignores_zeros (S : srs E) d d' : numeral_ok d -> numeral_ok d' ->
  digits_val d = digits_val d' ->
  compute_cpi P S (str "x*y=" ++ d) = compute_cpi P S (str "x*y=" ++ d').
Proof.
suff H k : numeral_ok k -> compute_cpi P S (str "x*y=" ++ k) =
    (c <- cpi_compile P (map (@gate_of F) (three_calls 0 0 0 (neg_value k) 0 0 true));; cpi_new S c).
  by move=> kd kd' Ev; rewrite !H // /neg_value Ev.
move=> kk; have /and3P[_ dd _] := kk; rewrite (compute_pure _ _ (num_normal kk)) //; last exact: digits_no.
by rewrite num_cpi_gates // three_linked // num_uniq.
Qed.

(* the circuit a prover parses from a text with superfluous zeros *)
Section Circuit.
Variables (W : bytes -> option F) (x y : F).
Hypothesis names : names_only W.
Hypotheses (Wx : W (str "x") = Some x) (Wy : W (str "y") = Some y).

Lemma num_circuit d : numeral_ok d -> 
  parse W (str "x*y=" ++ d) = Ret (build (three_calls x y (x * y) (neg_value d) (neg_value d + 0) (neg_value d) (canonical d))).
Proof.
move=> kd; have /and3P[d0 dd _] := kd; have kd' := numeral_dec kd.
rewrite (num_parse_text names Wx Wy kd) (num_parsed_gates names Wx Wy kd) /num_gates.
case cd: (canonical d).
  by rewrite (canonicalP d0 dd cd) three_linked // num_uniq.
rewrite three_unlinked ?num_uniq // name_fresh //.
by apply/eqP => Ed; move: cd; rewrite Ed dec_N_canonical.
Qed.

Lemma three_compiles v v0 v1 w b : (2 <= two_adicity P)%N -> exists2 cc, compile P (build (three_calls x y w v v0 v1 b)) = Ret cc & cc_size cc = 4%N.
Proof.
move=> S2; rewrite compileE.
have -> : size (three_calls x y w v v0 v1 b) = 3%N by [].
have up3 : up_log 2 3 = 2%N by [].
rewrite up3 S2 [(1 < 3)%N]/= !andTb.
by have -> : positions_ok (three_calls x y w v v0 v1 b) (csize (three_calls x y w v v0 v1 b)) = true;
  [case: b|eexists].
Qed.

(* C93: but the prover's circuit does not: when the numeral has a superfluous
   leading zero, the preprocessed input computed from the same text already
   disagrees with it on the commitment to the first permutation column, except
   for at most three trapdoors of the SRS. *)
Theorem C93_leading_zeros_mismatch d : fft_ok P -> (2 <= two_adicity P)%N -> g1_gen E != 0 ->
  2%:R != 0 :> F -> 3%:R != 0 :> F -> 2%:R ^+ 4 != 1 :> F -> 3%:R ^+ 4 != 1 :> F -> 2%:R ^+ 4 != 3%:R ^+ 4 :> F ->
  numeral_ok d -> ~~ canonical d ->
  exists cir cc, [/\ parse W (str "x*y=" ++ d) = Ret cir, compile P cir = Ret cc, cc_size cc = 4%N &
    forall ss, uniq ss ->
      (forall s, s \in ss -> exists m c, let S := srs_new_from_secret E s m in
         compute_cpi P S (str "x*y=" ++ d) = Ret c /\
         kzg_commit S (s_sigma_1 (cc_copy cc)) = Ret (com_s_sigma_1 c)) ->
      (size ss <= 3)%N].
Proof.
move=> ok S2 g0 n2 n3 n21 n31 n23 kd ncan; have kd' := numeral_dec kd.
have can := dec_N_canonical (digits_val d); set d' := dec_N _ in kd' can.
have Ec := num_circuit kd; rewrite (negbTE ncan) in Ec.
have Ec' := num_circuit kd'; rewrite can in Ec'.
have [_ Ev _] := dec_N_ok (digits_val d); rewrite -/d' in Ev.
set calls := three_calls _ _ _ _ _ _ _ in Ec; set calls' := three_calls _ _ _ _ _ _ _ in Ec'.
have [cc Ecc sz] : exists2 cc, compile P (build calls) = Ret cc & cc_size cc = 4%N by apply: three_compiles.
have [cc' Ecc' sz'] : exists2 cc, compile P (build calls') = Ret cc & cc_size cc = 4%N by apply: three_compiles.
exists (build calls), cc; split=> // ss us H.
have defd : defined_on W (num_eq d') by rewrite /defined_on /= Wx Wy.
have pre : preprocess_ok (num_eq d') by rewrite /preprocess_ok /= /factor_canonical /= can.
have [prim wf] := C46_wf ok Ecc; have [prim' wf'] := C46_wf ok Ecc'; rewrite sz in prim.
pose q := Poly (s_sigma_1 (cc_copy cc)) - Poly (s_sigma_1 (cc_copy cc')).
have st : s_sigma_1 (cc_copy cc) \in stored_polys cc by rewrite /stored_polys !inE eqxx ?orbT.
have st' : s_sigma_1 (cc_copy cc') \in stored_polys cc' by rewrite /stored_polys !inE eqxx ?orbT.
have [t1 s1] := wf _ st; have [t1' s1'] := wf' _ st'; rewrite sz in s1; rewrite sz' in s1'.
have Ew : omega_of P cc = omega_of P cc' by rewrite /omega_of sz sz'.
have q0 : q != 0.
  apply/eqP => /(congr1 (fun p => p.[omega_of P cc ^+ 1])).
  rewrite /q !hornerE.
  have l1 : (1 < cc_size cc)%N by rewrite sz.
  have l1' : (1 < cc_size cc')%N by rewrite sz'.
  have [-> _ _ _] := C47_sigma_rows ok Ecc l1.
  have [] := C47_sigma_rows ok Ecc' l1'; rewrite -Ew => -> _ _ _ _ _.
  move/eqP; rewrite subr_eq0 => /eqP /(C47_code_injective prim n2 n3 n21 n31 n23).
  have -> : slot_pos calls (0, 1)%N = (0, 1)%N by [].
  have -> : slot_pos calls' (0, 1)%N = (1, 2)%N by [].
  by move=> /(_ isT isT).
have sq : (size q <= 4)%N.
  apply: leq_trans (size_add _ _) _; rewrite size_opp geq_max.
  by rewrite !(leq_trans (size_Poly _)).
rewrite -ltnS; apply: leq_trans sq; apply: max_poly_roots => //.
apply/allP => s /H [m [c [Eq com]]].
have Eq' : compute_cpi P (srs_new_from_secret E s m) (str "x*y=" ++ d') = Ret c.
  by rewrite -Eq; apply: C93_preprocessor_ignores_zeros.
have [/(_ c)[/(_ Eq')[cc'' Ecc'' pr] _] _] := C60_preprocessed P (srs_new_from_secret E s m) (num_eq_ok kd')
  names defd pre (etrans (digits_clean' (proj1 (andP (proj2 (andP kd'))))) (esym (num_eq_text d'))) Ec'.
move: Ecc''; rewrite Ecc' => -[Ecc'']; rewrite -Ecc'' in pr.
have com' : kzg_commit (srs_new_from_secret E s m) (s_sigma_1 (cc_copy cc')) = Ret (com_s_sigma_1 c).
  by case: pr => _ [_ []].
have N : normal (s_sigma_1 (cc_copy cc)) by rewrite -t1 normal_trim.
have N' : normal (s_sigma_1 (cc_copy cc')) by rewrite -t1' normal_trim.
move: com com'; rewrite !commit_normal //.
case: ifP => // _ [<-]; case: ifP => // _ [] /eqP.
rewrite -subr_eq0 /commitment_of -scalerBl scaler_eq0 (negbTE g0) orbF subr_eq0 => /eqP e.
by rewrite /q rootE !hornerE e subrr.
Qed.

End Circuit.
End Family.
