(* C88: from an equation to an accepted proof. *)
From Coq Require Import String Ascii NArith ZArith.
Set Warnings "-notation-overridden,-ambiguous-paths".
From mathcomp Require Import all_ssreflect all_algebra.
From mathcomp Require Import zify ring.
From Verif Require Import Base BaseLemmas ArkPoly ArkDomain ArkPolyFft ArkDomainLemmas KzgModel KzgSpec PlonkModel PlonkSpec
  PlonkLemmas PlonkCompile PlonkProps ParserModel ParserSpec ParserStrings ParserGates ParserParse ParserSound
  ParserAst ParserCircuit ParserProps EquationSpec.

Set Implicit Arguments.
Unset Strict Implicit.
Unset Printing Implicit Defensive.

Import GRing.Theory.
Local Open Scope ring_scope.

Section Count.
Variables (F : fieldType) (W : bytes -> option F).
Local Notation wire := (pwire F).
Local Notation state := (pstate F).
Local Notation gcount st := (size (ps_list st)).
Implicit Types (st : state) (f t : bytes) (ts fs : seq bytes).

Lemma emit_count st (g : pgate F) : (gcount st <= gcount (emit st g) <= (gcount st).+1)%N.
Proof. by rewrite /emit; case: ifP => _ /=; rewrite ?size_rcons ?leqnn ?leqnSn. Qed.

Lemma emit_some st (g : pgate F) : recorded st -> (0 < gcount (emit st g))%N.
Proof.
case=> E _; rewrite /emit; case: ifP => [|_] /=; last by rewrite size_rcons.
by rewrite E; case: (ps_list st).
Qed.

(* the factors without a registered value *)
Definition consts fs : nat := count (fun f => ~~ isSome (W (unsigned f))) fs.

Lemma cstates_count st fs : (gcount st <= gcount (foldl (cstate W) st fs) <= gcount st + consts fs)%N.
Proof.
rewrite /consts; elim: fs st => [|f fs IH] st /=; first by rewrite addn0 leqnn.
have /andP[h1 h2] := IH (cstate W st f).
have /andP[h3 h4] : (gcount st <= gcount (cstate W st f) <= gcount st + ~~ isSome (W (unsigned f)))%N.
  rewrite /cstate; case: (W _) => [v|] /=; first by rewrite addn0 leqnn.
  by case: parse_i32 => [z|]; rewrite ?addn1 ?leqnn ?leqnSn // emit_count.
by rewrite (leq_trans h3 h1) (leq_trans h2) // addnA leq_add2r.
Qed.

Lemma cstates_some st fs : recorded st -> all (known_factor W) fs -> (0 < consts fs)%N ->
  (0 < gcount (foldl (cstate W) st fs))%N.
Proof.
rewrite /consts; elim: fs st => [|f fs IH] st //= rec /andP[/andP[_ kf] kfs].
case Ef: (W (unsigned f)) kf => [v|] /= kf; first by move=> h; apply: IH => //; apply: cstate_recorded.
move=> _; have /andP[le _] := cstates_count (cstate W st f) fs; apply: leq_trans le.
by rewrite /cstate Ef; case: parse_i32 kf => // z _; apply: emit_some.
Qed.

Lemma mults_count (ws : seq wire) (acc : wire * state) :
  (gcount acc.2 <=
   gcount (foldl (fun acc right => generate_multiplication_gate acc.2 acc.1 right) acc ws).2 <=
   gcount acc.2 + size ws)%N.
Proof.
elim: ws acc => [|w ws IH] acc /=; first by rewrite addn0 leqnn.
have /andP[h1 h2] := IH (generate_multiplication_gate acc.2 acc.1 w).
have /andP[h3 h4] := emit_count acc.2 (PGate acc.1 w (acc.1.1 ++ str "*" ++ w.1, acc.1.2 * w.2) Multiplication).
by rewrite (leq_trans h3 h1) (leq_trans h2) // addnS -addSn leq_add2r.
Qed.

Lemma pterm_count st t : (gcount st <= gcount (pterm W st t).2 <=
  gcount st + consts (factors t) + (size (factors t)).-1)%N.
Proof.
rewrite /pterm; set ws := map _ _; set a := (head _ _, _).
have /andP[h1 h2] := mults_count (behead ws) a.
have /andP[h3 h4] := cstates_count st (factors t).
rewrite (leq_trans h3 h1) (leq_trans h2) // size_behead size_map leq_add2r; exact: h4.
Qed.

Lemma pterm_some st t : recorded st -> known_term W t ->
  [|| 0 < gcount st, 0 < consts (factors t) | 1 < size (factors t)]%N -> (0 < gcount (pterm W st t).2)%N.
Proof.
rewrite known_termE => rec kt; case/or3P=> h.
- by have /andP[le _] := pterm_count st t; apply: leq_trans le.
- rewrite /pterm; set ws := map _ _; set a := (head _ _, _).
  have /andP[le _] := mults_count (behead ws) a; apply: leq_trans le.
  exact: cstates_some.
rewrite /pterm; set st' := foldl (cstate W) st (factors t).
have rec' : recorded st' by apply: (@foldl_inv _ _ (@recorded _)) => // y a; apply: cstate_recorded.
move: h; case: (factors t) => [|f [|f' fs]] // _ /=.
set acc := generate_multiplication_gate _ _ _.
have /andP[le _] := mults_count [seq (f0, fval W f0) | f0 <- fs] acc; apply: leq_trans le.
exact: emit_some.
Qed.

Lemma psum_count st t ts : (gcount st <= gcount (psum W st t ts).2 <=
  gcount st + (sumn [seq consts (factors t) + size (factors t) | t <- t :: ts]).-1)%N.
Proof.
have pos u : (0 < size (factors u))%N by have [f [fs ->]] := factors_neq0 u.
rewrite /psum.
have base : (gcount st <= gcount (pterm W st t).2 <= gcount st + (consts (factors t) + size (factors t)).-1)%N.
  have /andP[-> h] := pterm_count st t; apply: leq_trans h _.
  by have := pos t; clear; lia.
have step acc : (gcount acc.2 <= gcount (foldl (padd W) acc ts).2 <=
    gcount acc.2 + sumn [seq consts (factors t) + size (factors t) | t <- ts]%N)%N.
  elim: ts acc => [|u ts IH] acc /=; first by rewrite addn0 leqnn.
  have /andP[h1 h2] := IH (padd W acc u); have /andP[h3 h4] := pterm_count acc.2 u.
  have /andP[h5 h6] := emit_count (pterm W acc.2 u).2
    (PGate acc.1 (pterm W acc.2 u).1 (acc.1.1 ++ str "+" ++ (pterm W acc.2 u).1.1, acc.1.2 + (pterm W acc.2 u).1.2) Addition).
  rewrite -[emit _ _]/(padd W acc u).2 in h5 h6.
  by move: h1 h2 h3 h4 h5 h6 (pos u); clear; lia.
have /andP[h1 h2] := step (pterm W st t); case/andP: base => h3 h4 /=.
by move: h1 h2 h3 h4 (pos t); clear; lia.
Qed.

Lemma psum_some st t ts : recorded st -> all (known_term W) (t :: ts) ->
  [|| ts != [::], 0 < gcount st, 0 < consts (factors t) | 1 < size (factors t)]%N ->
  (0 < gcount (psum W st t ts).2)%N.
Proof.
move=> rec /= /andP[kt kts].
have grow acc us : (gcount acc.2 <= gcount (foldl (padd W) acc us).2)%N.
  elim: us acc => [|u us IH] acc //=; apply: leq_trans (IH _).
  have /andP[h3 _] := pterm_count acc.2 u; apply: leq_trans h3 _.
  by have /andP[] := emit_count (pterm W acc.2 u).2 (PGate acc.1 (pterm W acc.2 u).1
    (acc.1.1 ++ str "+" ++ (pterm W acc.2 u).1.1, acc.1.2 + (pterm W acc.2 u).1.2) Addition).
case/orP=> h; last by apply: leq_trans (grow _ _); apply: pterm_some.
case: ts h kts => // u ts _ _; apply: leq_trans (grow (padd W (pterm W st t) u) ts).
by apply: emit_some; do 2 apply: pterm_recorded.
Qed.

Lemma parsed_count l r : all (known_term W) (lhs_terms l) -> known_term W ("-"%char :: r) ->
  let ts := rcons (lhs_terms l) ("-"%char :: r) in
  let bound := (sumn [seq consts (factors t) + size (factors t) | t <- ts]%N).-1 in
  (0 < size (parsed_gates W l r) <= bound)%N /\
  ((size (parsed_gates W l r) == 1%N) = (bound == 1%N)).
Proof.
move=> kl kr; have [t [ts E]] := split_neq0 "+"%char l; rewrite -/(lhs_terms l) in E.
rewrite /parsed_gates E [head _ _]/= [behead _]/= in kl *.
have pos u : (0 < size (factors u))%N by have [f [fs ->]] := factors_neq0 u.
have := psum_count (pstate0 F) t ts; set p := psum _ _ _ _; rewrite [gcount (pstate0 F)]/= add0n => hp.
have := pterm_count p.2 ("-"%char :: r); set q := pterm _ _ _ => hq.
have rec0 := recorded0 [eqType of F].
have recp : recorded p.2 by apply: psum_recorded.
rewrite size_rcons map_rcons sumn_rcons /= in hp *.
have bnd : (gcount q.2 < (consts (factors t) + size (factors t) + sumn [seq consts (factors t) + size (factors t) | t <- ts] +
    (consts (factors ("-"%char :: r)) + size (factors ("-"%char :: r)))).-1)%N.
  move: hp hq (pos t) (pos ("-"%char :: r)); clear; lia.
split; first exact: bnd.
rewrite eqSS; apply/eqP/eqP => [q0|b1]; last by move: bnd; rewrite b1 ltnS leqn0 => /eqP.
have hr := contraNN (pterm_some recp kr) _; rewrite -/q q0 in hr.
have {hr}/norP[p0 /norP[c0 s0]] := hr isT.
have hl := contraNN (psum_some rec0 kl) _; rewrite -/p in hl.
have {hl}/norP[t0 /norP[_ /norP[c1 s1]]] := hl p0.
move: t0 c0 s0 c1 s1 (pos t) (pos ("-"%char :: r)); rewrite negbK => /eqP ->; rewrite [sumn _]/= addn0.
move: (consts _) (size _) (consts _) (size _); clear; lia.
Qed.
End Count.

Section Equation.
Variables (F : fieldType) (W : bytes -> option F) (e : equation) (input : bytes).
Hypotheses (ok : equation_ok e) (names : names_only W) (defd : defined_on W e).
Hypothesis written : cleaned input = equation_text e.

Lemma num_none n d p : factor_ok (Factor n (Num d) p) -> W d = None.
Proof.
case/andP=> /and3P[d0 dd _] _; case: (d) d0 dd => // c s _ /= /andP[dc _].
by apply: (no_num names); rewrite dc.
Qed.

Lemma factor_strings_count f : factor_ok f -> atom_defined W (f_atom f) ->
  size (factor_strings f) = factor_degree f /\ consts W (factor_strings f) = is_numeral f.
Proof.
case: f => n a p okf hd.
have [a0 am av ak an] := atom_facts names okf hd; have u0 := unsigned_id am.
rewrite /factor_strings /= size_nseq /factor_degree /factor_count /is_numeral /=.
have Eu : unsigned (signed_text (Factor n a p)) = atom_text a.
  by rewrite /signed_text /=; case: (n) => //=; rewrite u0.
split.
  clear -okf; case: p okf => [k|] //; rewrite /factor_ok /=; case: a => [x|d]; last by rewrite andbF.
  case/andP=> _ /and3P[_ _ /N.leb_spec0 h]; rewrite prednK //; clear -h; lia.
rewrite /consts /= Eu count_nseq u0.
move: okf hd ak; rewrite /factor_ok /= => okf hd ak.
case: a okf hd a0 am av ak an u0 Eu => [x|d] okf hd a0 am av ak an u0 Eu /=.
  by move: hd; rewrite /= => ->; rewrite mul0n.
have Wd := @num_none n d p okf.
by case/andP: okf => _; rewrite Wd /=; case: (p) => // _; rewrite muln0.
Qed.

Lemma term_strings_count t : all factor_ok t -> all (fun f => atom_defined W (f_atom f)) t ->
  size (term_strings t) = sumn (map factor_degree t) /\ consts W (term_strings t) = count is_numeral t.
Proof.
elim: t => [|f t IH] // /andP[okf okt] /andP[df dt].
have [h1 h2] := IH okt dt; have [h3 h4] := factor_strings_count okf df.
rewrite [term_strings _](_ : _ = factor_strings f ++ term_strings t) // size_cat /consts count_cat.
by rewrite -/(consts W _) -/(consts W _) h1 h2 h3 h4.
Qed.

Lemma neg_head_count t : rhs_ok t -> all factor_ok t -> all (fun f => atom_defined W (f_atom f)) t ->
  size (neg_head (term_strings t)) = size (term_strings t) /\
  consts W (neg_head (term_strings t)) = consts W (term_strings t).
Proof.
case: t => [|[n a p] t] // ht /andP[okf _] /andP[hd _].
rewrite [term_strings _](_ : _ = signed_text (Factor n a p) ::
  (nseq (factor_count (Factor n a p)).-1 (atom_text a) ++ term_strings t)) //.
split=> //; rewrite /consts /=; congr (_ + _)%N; congr (nat_of_bool _).
have [a0 am av ak an] := atom_facts names okf hd; have u0 := unsigned_id am.
move: ht; rewrite /rhs_ok /signed_text /=; case: (n) => /=; last by rewrite u0.
by case: a okf an {hd a0 am av ak u0} => // d okf [-> _] _; rewrite /= (num_none okf).
Qed.

(* The circuit of an equation has at most one gate per operation and numeral, and
   only one gate exactly when both sides are single variables. *)
Theorem C88_gate_count : exists2 calls, parse W input = Ret (build calls) &
  (0 < size calls <= equation_size e)%N /\ ((size calls == 1%N) = (equation_size e == 1%N)).
Proof.
exists (calls_of (parsed_gates W (lhs_text e) (rhs_text e))); first exact: (parse_equation ok names defd written).
rewrite size_calls_of; have /andP[kl kr] := equation_known ok names defd.
have := parsed_count kl kr; lazy zeta; set b := (_.-1)%N; suff -> : b = equation_size e by [].
have dl := defined_atoms defd; have [r0 okr] := rhs_ok' ok; have rok : rhs_ok (e_rhs e) by case/and4P: ok.
have dr : all (fun f => atom_defined W (f_atom f)) (e_rhs e) by apply: dl; rewrite mem_rcons mem_head.
rewrite /b map_rcons sumn_rcons (rhs_factors ok).
have [-> ->] := neg_head_count rok okr dr; have [sr cr] := term_strings_count okr dr; rewrite sr cr.
rewrite (lhs_termsE ok) -map_comp.
rewrite (@eq_in_map _ _ _ (fun t => count is_numeral t + sumn (map factor_degree t))%N (e_lhs e)).1; last first.
  move=> t th /=; rewrite (lhs_factors ok th).
  have [_ okt] := lhs_ok ok th; have dt : all (fun f => atom_defined W (f_atom f)) t.
    by apply: dl; rewrite mem_rcons inE th orbT.
  by have [-> ->] := term_strings_count okt dt.
have S1 (ts : seq (seq factor)) : sumn [seq (count is_numeral t + sumn (map factor_degree t))%N | t <- ts] =
    (count is_numeral (flatten ts) + sumn (map factor_degree (flatten ts)))%N.
  by elim: ts => //= t ts ->; rewrite count_cat map_cat sumn_cat; clear; lia.
have pr : (0 < sumn (map factor_degree (e_rhs e)))%N by rewrite -sr; apply: term_strings_neq0.
rewrite S1 /equation_size /equation_factors flatten_rcons count_cat map_cat sumn_cat.
by move: pr; clear; lia.
Qed.

Variables (P : fft_field F).

Theorem C88_compiles : (equation_size e <= 2 ^ two_adicity P)%N ->
  exists2 cir, parse W input = Ret cir &
  (compile P cir = Panic <-> equation_size e = 1%N) /\
  ((1 < equation_size e)%N -> exists2 cc, compile P cir = Ret cc &
     forall j, (equation_size e <= 2 ^ j)%N -> (cc_size cc <= 2 ^ j)%N).
Proof.
move=> fits; have Ep := parse_equation ok names defd written.
have [calls Ec [/andP[s0 sz] one]] := C88_gate_count; rewrite Ep in Ec.
set gl := parsed_gates _ _ _ in Ep Ec *.
have Es : size calls = size gl.
  have := congr1 (fun o => if o is Ret c then size (gates c) else 0%N) Ec.
  have sb (cs : seq (gate_call F)) : size (gates (build cs)) = size cs by rewrite buildE /= size_map.
  by rewrite !sb size_calls_of => ->.
rewrite Es in s0 sz one.
have iff := @C45_compile_returns_iff F P (calls_of gl).
exists (build (calls_of gl)) => //.
have ret : (1 < equation_size e)%N -> exists2 cc, compile P (build (calls_of gl)) = Ret cc &
     forall j, (equation_size e <= 2 ^ j)%N -> (cc_size cc <= 2 ^ j)%N.
  move=> e1; have [cc Ecc] : exists cc, compile P (build (calls_of gl)) = Ret cc.
    apply/iff; rewrite size_calls_of; split; last 2 first.
    - exact: leq_trans sz fits.
    - by apply/allP => x; apply: slot_pos_in; rewrite next_pow2_ge.
    by rewrite ltn_neqAle s0 andbT eq_sym one neq_ltn e1 orbT.
  exists cc => // j le; have [_ _] := C45_compiled_size Ecc; apply.
  by rewrite size_calls_of (leq_trans sz).
split=> //; split=> [pan|e1].
  case: (ltngtP (equation_size e) 1) => // [lt|/ret[cc]]; last by rewrite pan.
  by move: (leq_trans s0 sz); rewrite leqNgt lt.
by apply: C45_short_circuits_panic; rewrite size_calls_of leq_eqVlt one e1 eqxx.
Qed.
End Equation.

(* ------------------------------------------------------------------ *)
From Verif Require Import PlonkFsSpec HonestErrorSpec HonestErrorProps PlonkErrorProps PlonkFsProps.
From Verif Require Import Concrete ConcreteProps.

Section Bls.
Variables (F : finFieldType) (E : pairing_group F) (X : plonk_env E) (K : nat) (K0 : (0 < K)%N).
Hypotheses (cF : #|F| = N.to_nat bls_r) (Ef : pk_fft X = bls_fft F) (okE : pairing_ok E) (eK : K = (2 ^ 64)%N).
Hypothesis long : digest_long (pk_sha256 X).
Variables (W : bytes -> option F) (e : equation) (input : bytes).
Hypotheses (ok : equation_ok e) (names : names_only W) (defd : defined_on W e).
Hypothesis written : cleaned input = equation_text e.
Hypotheses (e1 : (1 < equation_size e)%N).
Variables (j m : nat).
Hypotheses (ej : (equation_size e <= 2 ^ j)%N) (j28 : (j <= 28)%N) (jm : (2 ^ j <= m)%N).

Lemma compiled : exists cir cc, [/\ parse W input = Ret cir, compile (pk_fft X) cir = Ret cc,
  (cc_size cc <= 2 ^ 28)%N & (cc_size cc <= m)%N].
Proof.
have fits : (equation_size e <= 2 ^ two_adicity (pk_fft X))%N.
  by rewrite Ef; apply: leq_trans ej _; rewrite leq_exp2l //; apply: leq_trans j28 _.
have [cir Ep [_ ret]] := C88_compiles ok names defd written fits.
have [cc Ec le] := ret e1; exists cir, cc; split=> //; last exact: leq_trans (le j ej) jm.
by apply: leq_trans (le j ej) _; rewrite leq_exp2l.
Qed.

(* A solution of the equation leads from text to an accepted proof, for all but one in
   2^219 tables; without a solution there is no proof. *)
Theorem C88_solution_bls : exists cir cc,
  [/\ parse W input = Ret cir, compile (pk_fft X) cir = Ret cc,
      ~~ equation_holds W e -> forall Y, pk_fft Y = pk_fft X -> digest_long (pk_sha256 Y) ->
        forall T b s pf, generate_proof Y T b cc (srs_new_from_secret E s m) <> Ret pf
    & equation_holds W e -> forall T b s (tbls : seq (rand_table F K)), good_blinders b -> uniq tbls ->
        (forall t, t \in tbls -> run_seeds_differ (with_table K0 X t) cc b s /\
           ~ proved_and_accepted (with_table K0 X t) T cc b s m) ->
        (2 ^ 219 * size tbls <= #|{: rand_table F K}|)%N].
Proof.
have [cir [cc [Ep Ec n28 nm]]] := compiled; exists cir, cc.
have char : N.to_nat bls_r \in [char F] by exact: (char_of_card cF C63_bls_prime).
have okX : fft_ok (pk_fft X) by rewrite Ef; exact: (C63_bls char).
have [calls Ecs [H1 H2]] := C57_parsed_equation ok names defd written.
have Eb : build calls = cir by move: Ep; rewrite Ecs => -[].
split; [exact: Ep|exact: Ec| |].
  move=> ns Y EY lY T b s pf gen; case/negP: ns.
  have okY : fft_ok (pk_fft Y) by rewrite EY.
  have EcY : compile (pk_fft Y) cir = Ret cc by rewrite EY.
  exact: (C57_only_solutions ok names defd written okY lY Ep EcY nm gen).
move=> sol T b s tbls good ut Ht; rewrite -Eb in Ec.
have [le _ _] := C45_compiled_size Ec; have [h1 h2] := H2 _ le.
have hold : all (@call_holds F) calls by rewrite H1.
exact: (C85_plonk_bls cF Ef okE eK long Ec n28 nm good hold h1 (h2 sol) ut Ht).
Qed.

(* But the verifier cannot tell: whatever the witness values, a prover that changes
   wire values of the compiled circuit gets accepted proofs just as often. *)
Theorem C88_no_solution_bls : exists cir cc cir' cc',
  [/\ parse W input = Ret cir, compile (pk_fft X) cir = Ret cc,
      gates cir' = gates cir /\ compile (pk_fft X) cir' = Ret cc' &
      forall T b s (tbls : seq (rand_table F K)), good_blinders b -> uniq tbls ->
        (forall t, t \in tbls -> let Y := with_table K0 X t in
           let srs := srs_new_from_secret E s m in
           run_seeds_differ Y cc' b s /\
           ~ exists2 pf, generate_proof Y T b cc' srs = Ret pf & verify Y (pk_sha256 Y) cc srs pf = Ret tt) ->
        (2 ^ 219 * size tbls <= #|{: rand_table F K}|)%N].
Proof.
have [cir [cc [Ep Ec n28 nm]]] := compiled.
have [calls [calls' [Ecs same hold H]]] := C58_not_enforced ok names defd written.
have Eb : build calls = cir by move: Ep; rewrite Ecs => -[].
have comp := Ec; rewrite -Eb in comp.
have [cc' Ec' Epub] := same_compile same comp.
have Es : cc_size cc' = cc_size cc by case: Epub.
have Eg : gates (build calls') = gates cir by rewrite -Eb.
exists cir, cc, (build calls'), cc'; split; [exact: Ep|exact: Ec|exact: (conj Eg Ec')|].
move=> T b s tbls good ut Ht.
have [le _ _] := C45_compiled_size Ec'; have /andP[h1 h2] := H _ le.
have n28' : (cc_size cc' <= 2 ^ 28)%N by rewrite Es.
have nm' : (cc_size cc' <= m)%N by rewrite Es.
have Ht' t : t \in tbls -> run_seeds_differ (with_table K0 X t) cc' b s /\
    ~ proved_and_accepted (with_table K0 X t) T cc' b s m.
  move=> ti; have [d nf] := Ht t ti; split=> [//|[pf g v]]; case: nf; exists pf => //.
  by rewrite -(verify_public _ _ _ _ Epub).
exact: (C85_plonk_bls cF Ef okE eK long Ec' n28' nm' good hold h1 h2 ut Ht').
Qed.

End Bls.
