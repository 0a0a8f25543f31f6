(* C60: the common preprocessed input against the parsed circuit. *)
From Coq Require Import String Ascii NArith ZArith.
Set Warnings "-notation-overridden,-ambiguous-paths".
From mathcomp Require Import all_ssreflect all_algebra.
From mathcomp Require Import zify ring.
From Verif Require Import Base BaseLemmas ArkPoly ArkDomain ArkDomainLemmas ArkPolyFft KzgModel KzgSpec
  PlonkModel PlonkSpec PlonkLemmas PlonkCompile.
From Verif Require Import ParserModel ParserSpec ParserStrings ParserGates ParserParse ParserSound
  ParserAst ParserCircuit CpiLemmas.

Set Implicit Arguments.
Unset Strict Implicit.
Unset Printing Implicit Defensive.

Import GRing.Theory.
Local Open Scope ring_scope.

Local Arguments parse_i32 : simpl never.
Local Arguments digits_val : simpl never.

(* ------------------------------------------------------------------ *)
(* Specification: c is the preprocessed input of the compiled circuit cc, i.e.
   its size, coset constants and public input polynomial and the commitments to
   its selector and permutation polynomials. *)
Definition preprocessed (F : fieldType) (E : pairing_group F) (S : srs E)
  (cc : compiled_circuit F) (c : cpi E) : Prop :=
  [/\ cpi_n c = cc_size cc, cpi_k1 c = cc_k1 (cc_copy cc), cpi_k2 c = cc_k2 (cc_copy cc)
    & cpi_pi_x c = pi_x (cc_gate cc)] /\
  [/\ kzg_commit S (q_lx (cc_gate cc)) = Ret (com_q_lx c),
      kzg_commit S (q_rx (cc_gate cc)) = Ret (com_q_rx c),
      kzg_commit S (q_mx (cc_gate cc)) = Ret (com_q_mx c),
      kzg_commit S (q_ox (cc_gate cc)) = Ret (com_q_ox c)
    & kzg_commit S (q_cx (cc_gate cc)) = Ret (com_q_cx c)] /\
  [/\ kzg_commit S (s_sigma_1 (cc_copy cc)) = Ret (com_s_sigma_1 c),
      kzg_commit S (s_sigma_2 (cc_copy cc)) = Ret (com_s_sigma_2 c)
    & kzg_commit S (s_sigma_3 (cc_copy cc)) = Ret (com_s_sigma_3 c)].

Section Agreement.
Variables (F : fieldType) (P : fft_field F) (E : pairing_group F) (S : srs E).

Lemma cpi_newP (cc : compiled_circuit F) c :
  cpi_new S (public_gc (cc_gate cc), cc_copy cc, cc_size cc) = Ret c <-> preprocessed S cc c.
Proof.
case: cc => n g k; rewrite /cpi_new /preprocessed /=; split.
  case E1: kzg_commit => [v1||] //=; case E2: kzg_commit => [v2||] //=.
  case E3: kzg_commit => [v3||] //=; case E4: kzg_commit => [v4||] //=.
  case E5: kzg_commit => [v5||] //=; case E6: kzg_commit => [v6||] //=.
  case E7: kzg_commit => [v7||] //=; case E8: kzg_commit => [v8||] //=.
  by case=> <-.
case=> [[h1 h2 h3 h4] [[-> -> -> -> ->] [-> -> ->]]] /=.
by rewrite -h1 -h2 -h3 -h4; case: c {h1 h2 h3 h4}.
Qed.

(* For an equation with canonical numerals and no minus sign at the head of the
   right side, preprocessing returns exactly the preprocessed input of the
   circuit any prover with values for the variables parses and compiles, and
   panics when that circuit does not compile. *)
Theorem C60_preprocessed (W : bytes -> option F) (e : equation) (input : bytes) (cir : circuit F) :
  equation_ok e -> names_only W -> defined_on W e -> preprocess_ok e ->
  cleaned input = equation_text e ->
  parse W input = Ret cir ->
  (forall c, compute_cpi P S input = Ret c <->
     exists2 cc, compile P cir = Ret cc & preprocessed S cc c) /\
  (compile P cir = Panic -> compute_cpi P S input = Panic).
Proof.
move=> ok names defd pre Ei Ep; rewrite (compute_cpiE names ok defd pre P S Ei) Ep /=.
case Ec: (compile P cir) => [cc|m|] /=; split=> //.
- move=> c; rewrite cpi_newP; split=> [h|[cc' [<-]] //]; by exists cc.
- by move=> c; split=> // -[].
- by move=> c; split=> // -[].
Qed.

(* The same input can be verified by everybody: it does not depend on the
   values the prover uses. *)
Theorem C60_witness_independent (W W' : bytes -> option F) (e : equation) (input : bytes) cir cir' cc cc' :
  equation_ok e -> names_only W -> names_only W' -> defined_on W e -> defined_on W' e -> preprocess_ok e ->
  cleaned input = equation_text e ->
  parse W input = Ret cir -> parse W' input = Ret cir' ->
  compile P cir = Ret cc -> compile P cir' = Ret cc' ->
  forall c, preprocessed S cc c <-> preprocessed S cc' c.
Proof.
move=> ok n1 n2 d1 d2 pre Ei Ep Ep' Ec Ec' c.
have [h _] := C60_preprocessed ok n1 d1 pre Ei Ep; have [h' _] := C60_preprocessed ok n2 d2 pre Ei Ep'.
split=> H.
  by have /h' [cc2] : compute_cpi P S input = Ret c by [apply/h; exists cc]; rewrite Ec' => -[<-].
by have /h [cc2] : compute_cpi P S input = Ret c by [apply/h'; exists cc']; rewrite Ec => -[<-].
Qed.

End Agreement.

(* ------------------------------------------------------------------ *)
(* no Err, for any text *)
Section NoErr.
Variables (F : fieldType) (P : fft_field F) (E : pairing_group F) (S : srs E).

Lemma no_err_ofold (A St : Type) (f : St -> A -> outcome St) st s :
  (forall st a, no_err (f st a)) -> no_err (ofold f st s).
Proof. by move=> H; elim: s st => //= a s IH st; apply: no_err_bind => // st' _. Qed.

Lemma no_err_pop m k : no_err (pm_pop m k).
Proof. by apply: no_err_bind => [|[|x v] _] //; apply: no_err_unwrap. Qed.

Lemma no_err_commit p : no_err (kzg_commit S p).
Proof.
apply: no_err_bind => [|d _]; first by rewrite /pdegree; case: (pis_zero _) => //; case: (_ == 0).
by apply: no_err_bind => //; rewrite /oassert; case: (_ < _)%N.
Qed.

Theorem C60_never_errors input m : compute_cpi P S input <> Err m.
Proof.
suff : no_err (compute_cpi P S input) by case: compute_cpi.
apply: no_err_bind => [|s _].
  by case Ep: parse_string => //; case: (parse_noerr_string Ep).
apply: no_err_bind => [|[gs pm] _].
  rewrite /prepare_generation; case: split_on => [|l [|r [|]]] //.
  have [t [ts ->]] := split_neq0 "+"%char l.
  by rewrite rcons_cons cpi_sum_gatesE.
apply: no_err_bind => [|g _].
  apply: no_err_bind => [|[? ?] _] //; apply: no_err_ofold => -[? ?] g.
  apply: no_err_bind => [|[? ?] _]; first exact: no_err_pop.
  apply: no_err_bind => [|[? ?] _]; first exact: no_err_pop.
  apply: no_err_bind => [|[? ?] _]; first exact: no_err_pop.
  by case: pg_type => //; apply: no_err_bind => [|? _] //; apply: no_err_unwrap.
apply: no_err_bind => [|[[gc cc] n] _].
  apply: no_err_bind => [|gs' _].
    rewrite /cpi_pad; case: (size g) => // k; apply: no_err_bind => //.
    by case: k.
  apply: no_err_bind => [|d _]; first exact: no_err_unwrap.
  apply: no_err_bind => [|c _] //.
  apply: no_err_bind => [|d' _]; first exact: no_err_unwrap.
  apply: no_err_bind => [|[[[? ?] ?] ?] _].
    by apply: no_err_bind => [|? _] //; apply: no_err_index.
  apply: no_err_bind => [|? _] //; apply: no_err_omapM => -[i h].
  case: ifP => // _; have me (p : position) a b c : no_err (cpi_map_element (F := F) a b c p).
    by case: p => [|[|[|?]] ?] //=; apply: no_err_index.
  by apply: no_err_bind => [|? _] //; apply: no_err_bind => [|? _] //; apply: no_err_bind.
by rewrite /cpi_new; do 8! (apply: no_err_bind => [|? _]; first exact: no_err_commit).
Qed.

End NoErr.

(* ------------------------------------------------------------------ *)
(* A negated numeral on the right: the parser adds a constant gate, the
   preprocessor does not, so the preprocessed input does not even depend on the
   numeral. *)
Section Negative.
Variables (F : fieldType) (P : fft_field F) (E : pairing_group F) (S : srs E).

Definition xy : seq factor := [:: Factor false (Var (str "x")) None; Factor false (Var (str "y")) None].
Definition neg_eq (d : bytes) : equation := Equation [:: xy] [:: Factor true (Num d) None].

Lemma neg_eq_text d : equation_text (neg_eq d) = str "x*y=-" ++ d.
Proof. by rewrite /equation_text /= /term_text /= /factor_text /= cats0. Qed.

Lemma neg_eq_ok d : numeral_ok d -> equation_ok (neg_eq d).
Proof. by move=> h; rewrite /equation_ok /= /factor_ok /= h. Qed.

Lemma digits_clean d : all is_digit d -> cleaned (str "x*y=-" ++ d) = str "x*y=-" ++ d.
Proof.
move=> h; have E1 : cleaned d = d.
  elim: d h => //= c d IH /andP[hc /IH]; rewrite /cleaned /= => Ed.
  by case/and3P: (digit_ordinary hc) => -> _ nu /=; rewrite lower_charK // Ed.
by rewrite -[in RHS]E1.
Qed.

Lemma neg_gates (x y p u v : bytes) : uniq [:: x; y; p; u; v] ->
  let st := emit (emit (pstate0 [eqType of unit]) (PGate (x, tt) (y, tt) (p, tt) Multiplication))
    (PGate (p, tt) (u, tt) (v, tt) Addition) in
  cpi_gen_circuit F (ps_list st) (ps_pos st) =
  Ret [:: new_mul_gate (Pos 0 0) (Pos 1 0) (Pos 0 1) 0; new_add_gate (Pos 2 0) (Pos 1 1) (Pos 2 1) 0].
Proof.
rewrite /= !inE !negb_or => /and5P[/and4P[] /negbTE xy /negbTE xp /negbTE xu /negbTE xv].
case/and3P=> /negbTE yp /negbTE yu /negbTE yv /andP[/negbTE pu /negbTE pv] /negbTE uv _.
set H := (xy, xp, xu, xv, (yp, yu, yv, pu, pv, uv), @eqxx).
set st := emit _ _.
have Es : st = PState
  [:: PGate (x, tt) (y, tt) (p, tt) Multiplication; PGate (p, tt) (u, tt) (v, tt) Addition]
  [:: PGate (x, tt) (y, tt) (p, tt) Multiplication; PGate (p, tt) (u, tt) (v, tt) Addition]
  [:: (x, [:: (0, 0)]); (y, [:: (1, 0)]); (p, [:: (2, 0); (0, 1)]); (u, [:: (1, 1)]); (v, [:: (2, 1)])]%N.
  have hd : pgate_eqb (PGate (x, tt) (y, tt) (p, tt) Multiplication : pgate [eqType of unit])
    (PGate (p, tt) (u, tt) (v, tt) Addition) = false by rewrite /pgate_eqb !andbF.
  rewrite /st /emit /= hd /= /push_position /=.
  by do 12! rewrite ?H /=.
rewrite Es /cpi_gen_circuit /cpi_gen_gate /pm_pop /=.
by do 20! rewrite ?H /=.
Qed.

Theorem C60_negative_right_side (W : bytes -> option F) (x y : F) (d d' : bytes) :
  names_only W -> W (str "x") = Some x -> W (str "y") = Some y ->
  numeral_ok d -> numeral_ok d' -> (2 <= two_adicity P)%N ->
  (* the preprocessed inputs of x*y=-d and x*y=-d' are the same and have size 2 *)
  compute_cpi P S (str "x*y=-" ++ d) = compute_cpi P S (str "x*y=-" ++ d') /\
  (forall c, compute_cpi P S (str "x*y=-" ++ d) = Ret c -> cpi_n c = 2%N) /\
  (* the prover's circuit has size 4 *)
  exists cir cc, [/\ parse W (str "x*y=-" ++ d) = Ret cir, compile P cir = Ret cc & cc_size cc = 4%N].
Proof.
move=> names Wx Wy kd kd' S2.
pose gs : seq (PlonkModel.gate F) := [:: new_mul_gate (Pos 0 0) (Pos 1 0) (Pos 0 1) 0;
  new_add_gate (Pos 2 0) (Pos 1 1) (Pos 2 1) 0].
have cpiE k : numeral_ok k -> compute_cpi P S (str "x*y=-" ++ k) = (c <- cpi_compile P gs;; cpi_new S c).
  move=> kk; have /and3P[k0 kdig kl] := kk.
  have En := normalised (neg_eq_ok kk) (etrans (digits_clean kdig) (esym (neg_eq_text k))).
  rewrite /compute_cpi En.
  have -> : lhs_text (neg_eq k) = str "x*y" by [].
  have -> : rhs_text (neg_eq k) = "-"%char :: k by rewrite /rhs_text /= /term_strings /=.
  have nstar : "*"%char \notin "-"%char :: "-"%char :: k.
    by rewrite !inE /=; apply/negP => /(allP kdig).
  have neq : "="%char \notin "-"%char :: k by rewrite inE /=; apply/negP => /(allP kdig).
  have nsp : str_trim ("-"%char :: "-"%char :: k) = "-"%char :: "-"%char :: k.
    apply: plain_trim => /=; apply: sub_all kdig; exact: digit_plain.
  have Ef : factors ("-"%char :: "-"%char :: k) = [:: "-"%char :: "-"%char :: k].
    by rewrite /factors split_none //= nsp.
  have Ei : parse_i32 ("-"%char :: "-"%char :: k) = None by [].
  rewrite bindRet /prepare_generation.
  have -> : split_on "="%char (str "x*y" ++ "="%char :: "-"%char :: k) = [:: str "x*y"; "-"%char :: k].
    by apply/split_two.
  have -> : rcons (split_on "+"%char (str "x*y")) ("-"%char :: "-"%char :: k) =
    [:: str "x*y"; "-"%char :: "-"%char :: k] by [].
  rewrite cpi_sum_gatesE bindRet.
  have Ec : (csum (pstate0 [eqType of unit]) (str "x*y") [:: "-"%char :: "-"%char :: k]).2 =
    emit (emit (pstate0 [eqType of unit]) (PGate (str "x", tt) (str "y", tt) (str "x*y", tt) Multiplication))
    (PGate (str "x*y", tt) ("-"%char :: "-"%char :: k, tt) (str "x*y+" ++ "-"%char :: "-"%char :: k, tt) Addition).
    by rewrite /csum /foldl /cadd /cterm Ef.
  have Es : (let st := (csum (pstate0 [eqType of unit]) (str "x*y") [:: "-"%char :: "-"%char :: k]).2 in
    cpi_gen_circuit F (ps_list st) (ps_pos st)) = Ret gs.
    by rewrite Ec; apply: neg_gates.
  by lazy zeta in Es; rewrite bindRet Es.
split; first by rewrite !cpiE.
split.
  move=> c; rewrite cpiE // /cpi_compile [cpi_pad _]/= bindRet [size _]/=.
  case: domain_new => //= dom; case: cpi_cal_permutation => //= k; rewrite /cpi_new.
  by do ! (case: kzg_commit => //= ?); case=> <-.
have ok := neg_eq_ok kd; have /and3P[d0 ddig dl] := kd.
have defd : defined_on W (neg_eq d) by rewrite /defined_on /= Wx Wy.
have En := normalised ok (etrans (digits_clean ddig) (esym (neg_eq_text d))).
have nl := lhs_no_eq ok; have nr : "="%char \notin rhs_text (neg_eq d) by apply: rhs_no.
rewrite (parseE W En nl nr) (equation_known ok names defd).
set gl := parsed_gates W _ _.
have sz : size gl = 3%N.
  rewrite /gl /parsed_gates; lazy zeta; rewrite size_rcons; congr _.+1.
  rewrite /pterm (rhs_factors ok) /=.
  have cx : cstate W (pstate0 F) (str_trim [:: "x"%char]) = pstate0 F by rewrite /cstate /unsigned /= Wx.
  have cy : cstate W (pstate0 F) (str_trim [:: "y"%char]) = pstate0 F by rewrite /cstate /unsigned /= Wy.
  rewrite cx cy; set g1 := PGate _ _ _ _.
  have okf : factor_ok (Factor true (Num d) None) by case/and4P: ok => _ _ _ /andP[].
  have [_ _ _ _ [En1 En2]] := atom_facts names okf isT.
  by rewrite /cstate /= En1 En2 /generate_constant_gate /=.
exists (build (calls_of gl)), (compiled_of P (calls_of gl)); split=> //; last first.
  by rewrite /= /csize size_calls_of sz.
have up3 : up_log 2 3 = 2%N by [].
rewrite compileE size_calls_of sz up3 S2 [(1 < 3)%N]/= !andTb.
have le : (size gl <= csize (calls_of gl))%N by rewrite -(size_calls_of gl); apply: next_pow2_ge.
by rewrite (_ : positions_ok _ _) //; apply/allP => z; apply: slot_pos_in.
Qed.

End Negative.
