(* The PLONK properties C44-C53. *)
From Coq Require Import String Ascii NArith.
Set Warnings "-notation-overridden,-ambiguous-paths".
From mathcomp Require Import all_ssreflect all_algebra.
From mathcomp Require Import zify ring.
From Verif Require Import Base BaseLemmas ArkPoly ArkPolyLemmas ArkDomain ArkDomainLemmas
  ArkPolyFft ArkPolyFftLemmas KzgModel KzgSpec PlonkModel PlonkSpec PlonkLemmas PlonkRefine
  PlonkProve PlonkVerify PlonkCompile.

Set Implicit Arguments.
Unset Strict Implicit.
Unset Printing Implicit Defensive.

Import GRing.Theory.
Local Open Scope ring_scope.

(* ------------------------------------------------------------------ *)
(* C44 *)
Section C44.
Variables (F : fieldType).
Implicit Types (a b c p k : F) (x y z : position).

Theorem C44_add_gate x y z a b c p :
  gate_value (new_add_gate x y z p) a b c = 0 <-> a + b = c + p.
Proof.
rewrite /gate_value /=; set e := (X in X = 0).
have -> : e = (a + b) - (c + p) by rewrite /e; ring.
by split=> [/eqP|->]; rewrite ?subrr // subr_eq0 => /eqP.
Qed.

Theorem C44_mul_gate x y z a b c p :
  gate_value (new_mul_gate x y z p) a b c = 0 <-> a * b = c + p.
Proof.
rewrite /gate_value /=; set e := (X in X = 0).
have -> : e = (a * b) - (c + p) by rewrite /e; ring.
by split=> [/eqP|->]; rewrite ?subrr // subr_eq0 => /eqP.
Qed.

Theorem C44_constant_gate x y z a b c k p :
  gate_value (new_constant_gate x y z k p) a b c = 0 <-> a = k + p.
Proof.
rewrite /gate_value /=; set e := (X in X = 0).
have -> : e = a - (k + p) by rewrite /e; ring.
by split=> [/eqP|->]; rewrite ?subrr // subr_eq0 => /eqP.
Qed.

Theorem C44_dummy_gate a b c : gate_value (new_dummy_gate F) a b c = 0.
Proof. by rewrite /gate_value /=; ring. Qed.

End C44.

Section CompileProps.
Variables (F : fieldType) (P : fft_field F).
Hypothesis ok : fft_ok P.
Implicit Types (calls : seq (gate_call F)) (cc : compiled_circuit F) (g : gate_call F).

Lemma compile_inv calls cc : compile P (build calls) = Ret cc ->
  [/\ cc = compiled_of P calls, (1 < size calls)%N, (up_log 2 (size calls) <= two_adicity P)%N
    & positions_ok calls (csize calls)].
Proof. by rewrite compileE; case: ifP => // /and3P[h1 h2 h3] [<-]. Qed.

(* C44: in a compiled circuit the gate constraint vanishes at row i exactly
   when the relation of the i-th call holds. *)
Theorem C44_compiled_rows calls cc (i : nat) g0 :
  compile P (build calls) = Ret cc -> (i < cc_size cc)%N ->
  (gate_poly cc (Poly (f_ax (cc_gate cc))) (Poly (f_bx (cc_gate cc)))
     (Poly (f_cx (cc_gate cc)))).[omega_of P cc ^+ i] = 0 <->
  ((i < size calls)%N -> call_holds (nth g0 calls i)).
Proof.
case/compile_inv=> -> _ dle _; rewrite /cc_size [X in (_ < X)%N]/= => li.
rewrite omega_compiled; have := gate_at ok dle li; case: ltnP => ls.
  by rewrite (drop_nth g0 ls) [ohead _]/= => <-; split=> [->|/(_ isT)/eqP].
by rewrite drop_oversize // => /eqP ->; split.
Qed.

(* ------------------------------------------------------------------ *)
(* C45 *)
Theorem C45_compile_returns_iff calls :
  (exists cc, compile P (build calls) = Ret cc) <->
  [/\ (2 <= size calls)%N, (size calls <= 2 ^ two_adicity P)%N
    & positions_ok calls (next_power_of_two (size calls))].
Proof.
have upE : (up_log 2 (size calls) <= two_adicity P)%N = (size calls <= 2 ^ two_adicity P)%N.
  apply/idP/idP => h; last by apply: up_log_min.
  by apply: leq_trans (up_logP (size calls) (isT : (1 < 2)%N)) _; rewrite leq_exp2l.
rewrite compileE -upE; split=> [[cc]|[-> -> h]].
  by case: ifP => // /and3P[].
by rewrite -/(csize calls) in h; rewrite h; eexists.
Qed.

Theorem C45_never_errors calls m : compile P (build calls) <> Err m.
Proof. by rewrite compileE; case: ifP. Qed.

Theorem C45_short_circuits_panic calls : (size calls <= 1)%N -> compile P (build calls) = Panic.
Proof. by move=> le; rewrite compileE ltnNge le. Qed.

Theorem C45_compiled_size calls cc : compile P (build calls) = Ret cc ->
  [/\ (size calls <= cc_size cc)%N, exists k, cc_size cc = (2 ^ k)%N
    & forall j, (size calls <= 2 ^ j)%N -> (cc_size cc <= 2 ^ j)%N].
Proof.
case/compile_inv=> -> _ _ _; split; first exact: next_pow2_ge.
  by exists (up_log 2 (size calls)).
by move=> j; apply: next_pow2_min.
Qed.

(* ------------------------------------------------------------------ *)
(* C46 *)

(* The selectors (q_L, q_R, q_O, q_M, q_C, PI) each call stands for. *)
Definition selectors_of g : F * F * F * F * F * F :=
  match call_type g with
  | Addition => (1, 1, -1, 0, 0, - call_pi g)
  | Multiplication => (0, 0, -1, 1, 0, - call_pi g)
  | Constant => (1, 0, 0, 0, - (call_a g).2, - call_pi g)
  end.

Theorem C46_call_rows calls cc (i : nat) g0 :
  compile P (build calls) = Ret cc -> (i < size calls)%N ->
  let g := nth g0 calls i in let x := omega_of P cc ^+ i in let gc := cc_gate cc in
  ((Poly (f_ax gc)).[x], (Poly (f_bx gc)).[x], (Poly (f_cx gc)).[x]) =
    ((call_a g).2, (call_b g).2, (call_c g).2) /\
  ((Poly (q_lx gc)).[x], (Poly (q_rx gc)).[x], (Poly (q_ox gc)).[x], (Poly (q_mx gc)).[x],
     (Poly (q_cx gc)).[x], (Poly (pi_x gc)).[x]) = selectors_of g.
Proof.
case/compile_inv=> -> _ dle _ li; rewrite omega_compiled.
have ln := leq_trans li (csize_ge calls).
rewrite /= !(col_at ok dle _ ln) (drop_nth g0 li) /=; split=> //.
by rewrite /gate_of /selectors_of; case: call_type.
Qed.

Theorem C46_padding_rows calls cc (i : nat) :
  compile P (build calls) = Ret cc -> (size calls <= i < cc_size cc)%N ->
  forall p, p \in [:: f_ax (cc_gate cc); f_bx (cc_gate cc); f_cx (cc_gate cc); q_lx (cc_gate cc);
    q_rx (cc_gate cc); q_ox (cc_gate cc); q_mx (cc_gate cc); q_cx (cc_gate cc); pi_x (cc_gate cc)] ->
  (Poly p).[omega_of P cc ^+ i] = 0.
Proof.
case/compile_inv=> -> _ dle _; rewrite omega_compiled => /andP[le li].
have col0 f : (Poly (interpolate (cdom P calls) (map f calls))).[cgen P calls ^+ i] = 0.
  by rewrite (col_at ok dle _ li) drop_oversize.
by move=> p; rewrite /= !inE; do 8 (case/orP=> [/eqP ->|]; first exact: col0); move/eqP=> ->; apply: col0.
Qed.

(* the rows are distinct points, and the polynomials have degree below their number *)
Theorem C46_wf calls cc : compile P (build calls) = Ret cc ->
  (cc_size cc).-primitive_root (omega_of P cc) /\
  forall p, p \in stored_polys cc -> trim p = p /\ (size p <= cc_size cc)%N.
Proof.
case/compile_inv=> -> _ dle _; rewrite omega_compiled; split; first exact: cprim.
move=> p hp; have /and3P[/allP H _ _] := wf_compiled_of dle.
by have /andP[/eqP] := H _ hp.
Qed.

(* ------------------------------------------------------------------ *)
(* C47 *)
Theorem C47_sigma_rows calls cc (i : nat) :
  compile P (build calls) = Ret cc -> (i < cc_size cc)%N ->
  let w := omega_of P cc in let k := cc_copy cc in
  [/\ (Poly (s_sigma_1 k)).[w ^+ i] = slot_code w (slot_pos calls (0%N, i)),
      (Poly (s_sigma_2 k)).[w ^+ i] = slot_code w (slot_pos calls (1%N, i)),
      (Poly (s_sigma_3 k)).[w ^+ i] = slot_code w (slot_pos calls (2%N, i)),
      cc_k1 k = 2%:R & cc_k2 k = 3%:R].
Proof.
case/compile_inv=> -> _ dle _ li; rewrite omega_compiled.
by have [h1 h2 h3] := sigmas_at ok dle li.
Qed.

Theorem C47_positions_outside_panic calls (x : slot) :
  (x.1 < 3)%N -> (x.2 < size calls)%N ->
  ~~ (((slot_pos calls x).1 < 3)%N && ((slot_pos calls x).2 < next_power_of_two (size calls))%N) ->
  compile P (build calls) = Panic.
Proof.
move=> x1 x2 bad; rewrite compileE.
case: (positions_ok calls (csize calls)) / allP => H; last by rewrite !andbF.
have := H x; rewrite !mem_slots x1 (leq_trans x2 (csize_ge calls)) (negbTE bad).
by move/(_ isT).
Qed.

Theorem C47_code_injective n (w : F) :
  n.-primitive_root w -> 2%:R != 0 :> F -> 3%:R != 0 :> F ->
  2%:R ^+ n != 1 :> F -> 3%:R ^+ n != 1 :> F -> 2%:R ^+ n != 3%:R ^+ n :> F ->
  forall x y, x \in slots n -> y \in slots n -> slot_code w x = slot_code w y -> x = y.
Proof.
move=> prim nz2 nz3 n21 n31 n23 [l i] [m j]; rewrite !mem_slots => /= /andP[l3 li] /andP[m3 mj] e.
have pw (a b : nat) : (a%:R * w ^+ b) ^+ n = a%:R ^+ n :> F.
  by rewrite exprMn -exprM mulnC exprM (prim_expr_order prim) expr1n mulr1.
have lm : l = m.
  have := congr1 (fun z => z ^+ n) e; rewrite /slot_code !pw.
  case: l m l3 m3 {e} => [|[|[|l]]] [|[|[|m]]] //= _ _ /eqP; rewrite ?expr1n ?[1 == _]eq_sym
    ?(negbTE n21) ?(negbTE n31) ?(negbTE n23) // [_ == 2%:R ^+ n]eq_sym (negbTE n23) //.
have nz : (l.+1)%:R != 0 :> F by case: l l3 {e lm} => [|[|[|l]]] //= _; rewrite oner_eq0.
congr (_, _) => //; move: e; rewrite /slot_code -lm => /(mulfI nz)/eqP /=.
by rewrite (eq_prim_root_expr prim) !modn_small // => /eqP.
Qed.

End CompileProps.

(* ------------------------------------------------------------------ *)
(* C48 *)
Section C48.
Variable F : fieldType.
Implicit Types (p : seq F).

Theorem C48_split p : trim p = p -> Poly p != 0 ->
  exists sp lo mid hi, [/\ slice_new p = Ret sp, sl_slices sp = [:: lo; mid; hi],
    all (fun q => size q <= (sl_degree sp).+1)%N [:: lo; mid; hi],
    Poly p = Poly lo + 'X^(sl_degree sp).+1 * Poly mid + 'X^(2 * (sl_degree sp).+1) * Poly hi
    & forall z, exists2 r, slice_compact sp z = Ret r & peval r z = peval p z].
Proof.
move=> tp nz; have := slice_newP true (introT eqP tp : trimmed p).
case Es: slice_new => [sp||] //=; last by move/(_ isT nz).
case=> _ [sz dg H]; case Esl: (sl_slices sp) sz H => [|lo [|mid [|hi []]]] // _ H.
have [e0 t0] := H 0%N isT; have [e1 t1] := H 1%N isT; have [e2 t2] := H 2%N isT.
rewrite /= in e0 e1 e2 t0 t1 t2.
have len0 : (0 < slice_len (Poly p))%N.
  rewrite /slice_len divn_gt0 //; have := nz; rewrite -size_poly_gt0.
  by move: (size _) => m; clear; lia.
have dS : (sl_degree sp).+1 = slice_len (Poly p) by rewrite dg subn1 prednK.
exists sp, lo, mid, hi; rewrite dS.
have decomp : Poly p = Poly lo + 'X^(slice_len (Poly p)) * Poly mid +
    'X^(2 * slice_len (Poly p)) * Poly hi.
  rewrite e0 e1 e2 /slice_of; set d := slice_len _ in len0 dS *.
  apply/polyP => j; rewrite !coefD !coefXnM !coef_poly mul0n mul1n add0n.
  have big : (3 * d <= j)%N -> (Poly p)`_j = 0.
    move=> lj; apply: nth_default; apply: leq_trans lj; rewrite /d /slice_len.
    by move: (size _) => m; clear; lia.
  case: (ltnP j d) => h1; first by rewrite ifT ?addr0 //; clear -h1; lia.
  case: (ltnP j (2 * d)) => h2.
    rewrite ifT ?add0r; last by clear -h1 h2; lia.
    by rewrite subnKC // addr0.
  rewrite ifF ?add0r; last by apply/negbTE; clear -h1 h2; lia.
  case: ifP => h3; first by rewrite subnKC.
  by apply: big; clear -h1 h2 h3; lia.
split=> //.
- by rewrite (trimmed_size t0) (trimmed_size t1) (trimmed_size t2) e0 e1 e2 /slice_of !size_poly.
- move=> z; rewrite /slice_compact Esl /=; eexists; first by [].
  rewrite addn1 dS !pevalE !(Poly_padd, Poly_pscale) [Poly p in RHS]decomp.
  by rewrite !(hornerD, hornerZ, hornerM, hornerXn) muln0 muln1 expr0 mul1r mulnC.
Qed.

Theorem C48_zero_panics p : trim p = p -> Poly p = 0 -> slice_new p = Panic.
Proof.
move=> tp z; have := slice_newP true (introT eqP tp : trimmed p).
by case: slice_new => //= sp []; rewrite z eqxx.
Qed.

End C48.

(* ------------------------------------------------------------------ *)
(* C49-C53.  The reference string is `Srs::new_from_secret(s, m)` with m at
   least the compiled size; s is the trapdoor. *)
Section ProverVerifier.
Variables (F : fieldType) (E : pairing_group F) (X : plonk_env E).
Hypotheses (okE : pairing_ok E) (ok : fft_ok (pk_fft X)).
Hypothesis long : digest_long (pk_sha256 X).
Variables (calls : seq (gate_call F)) (cc : compiled_circuit F).
Hypothesis compiled : compile (pk_fft X) (build calls) = Ret cc.
Variables (s : F) (m : nat).
Hypothesis nm : (cc_size cc <= m)%N.
Variable b : nat -> F.
Local Notation srs := (srs_new_from_secret E s m).
Local Notation w := (omega_of (pk_fft X) cc).

Lemma compiled_wf : wf_compiled (pk_fft X) cc.
Proof. by have [-> _ h _] := compile_inv compiled; apply: wf_compiled_of. Qed.

Lemma generate_ois T : ois (4 * cc_size cc + 6 <= 2 ^ two_adicity (pk_fft X))%N
    [&& rows_hold X cc, (hr_alpha X cc b s == 0) || product_holds X cc b s & no_accident X cc b s]
    (generate_proof X T b cc srs) (fun pf => pf = honest_proof X cc b s).
Proof. exact: (generate_proofE b ok compiled_wf s nm long). Qed.

Lemma generate_inv T pf : generate_proof X T b cc srs = Ret pf ->
  [/\ pf = honest_proof X cc b s, rows_hold X cc,
       (hr_alpha X cc b s == 0) || product_holds X cc b s & no_accident X cc b s].
Proof. by move=> Er; have := generate_ois T; rewrite Er /= => -[/and3P[]]. Qed.

(* C49 *)
Theorem C49_completeness T pf :
  generate_proof X T b cc srs = Ret pf ->
  verify X (pk_sha256 X) cc srs pf =
  if ch_zeta X (pk_sha256 X) pf == 1 then Panic else Ret tt.
Proof.
case/generate_inv=> -> rows prod na.
rewrite verifyE //; last exact: compiled_wf.
rewrite eqxx /=; case: eqP => // /eqP z1.
have wf := compiled_wf; case/andP: (na) => dn _.
rewrite honest_equation //.
- by apply: constraint_dvd.
- by move: na; rewrite /no_accident; do 8 (case/andP=> _); case/andP.
Qed.

(* ------------------------------------------------------------------ *)
(* C50 *)

(* every gate relation holds *)
Theorem C50_gates T pf : generate_proof X T b cc srs = Ret pf -> all (@call_holds F) calls.
Proof.
case/generate_inv=> _ rows _ _; have [Ecc _ dle _] := compile_inv compiled.
by rewrite -(rows_holdE ok dle) -Ecc.
Qed.

(* the permutation product at the drawn challenges *)
Theorem C50_permutation_product T pf :
  generate_proof X T b cc srs = Ret pf ->
  let beta := ch_beta X (pk_sha256 X) pf in let gamma := ch_gamma X (pk_sha256 X) pf in
  ch_alpha X (pk_sha256 X) pf != 0 ->
  \prod_(x <- slots (cc_size cc)) (slot_value calls x + beta * slot_code w x + gamma) =
  \prod_(x <- slots (cc_size cc)) (slot_value calls x + beta * slot_code w (slot_pos calls x) + gamma).
Proof.
case/generate_inv=> -> _ prod _ beta gamma; rewrite -[ch_alpha _ _ _]/(hr_alpha X cc b s) => al.
have [Ecc _ dle _] := compile_inv compiled.
move: prod; rewrite (negbTE al) /= /product_holds -[hr_beta _ _ _ _]/beta -[hr_gamma _ _ _ _]/gamma.
rewrite Ecc omega_compiled => /eqP; rewrite -(product_numE ok dle) -(product_denE ok dle) //.
Qed.

(* When some copy constraint fails, all but few challenges make the two sides
   of that product different: for all beta outside a list of at most (3n)^2
   values, at most 3n values of gamma make them equal. *)
Theorem C50_copy_soundness :
  2%:R ^+ cc_size cc != 1 :> F -> 3%:R ^+ cc_size cc != 1 :> F ->
  2%:R ^+ cc_size cc != 3%:R ^+ cc_size cc :> F -> 3%:R != 0 :> F ->
  ~~ copies_hold calls (cc_size cc) ->
  exists2 bad_beta : seq F, (size bad_beta <= (3 * cc_size cc) ^ 2)%N &
  forall beta, beta \notin bad_beta ->
  forall gammas, uniq gammas ->
  (forall gamma, gamma \in gammas ->
   \prod_(x <- slots (cc_size cc)) (slot_value calls x + beta * slot_code w x + gamma) =
   \prod_(x <- slots (cc_size cc)) (slot_value calls x + beta * slot_code w (slot_pos calls x) + gamma)) ->
  (size gammas <= 3 * cc_size cc)%N.
Proof.
have [Ecc _ dle pos] := compile_inv compiled => n21 n31 n23 nz3 bad.
set n := cc_size cc; set sl := slots n.
have szs : size sl = (3 * n)%N by rewrite size_allpairs !size_iota.
set c := slot_code w; set v := slot_value calls.
exists [seq (v p.1 - v p.2) / (c (slot_pos calls p.2) - c p.1) | p <- [seq (x, y) | x <- sl, y <- sl]].
  by rewrite size_map size_allpairs szs mulnn.
move=> beta nb gs ug Hg; rewrite leqNgt; apply/negP => big.
pose f x := v x + beta * c x; pose h x := v x + beta * c (slot_pos calls x).
have rp (e : slot -> F) gamma :
    (\prod_(x <- sl) ('X - (- e x)%:P)).[gamma] = \prod_(x <- sl) (e x + gamma).
  rewrite horner_prod; apply: eq_bigr => x _.
  by rewrite hornerD hornerN hornerX hornerC opprK addrC.
have sp (e : slot -> F) : size (\prod_(x <- sl) ('X - (- e x)%:P) : {poly F}) = (3 * n).+1.
  by rewrite -(big_map (fun x => - e x) xpredT (fun a => 'X - a%:P)) size_prod_XsubC size_map szs.
have Epoly : \prod_(x <- sl) ('X - (- f x)%:P) = \prod_(x <- sl) ('X - (- h x)%:P) :> {poly F}.
  apply/eqP; rewrite -subr_eq0; apply/negPn/negP => nz.
  have : (size gs < (3 * n).+1)%N.
    apply: leq_trans (max_poly_roots nz _ ug) _.
      apply/allP => gamma gi; rewrite /root hornerD hornerN !rp subr_eq0; apply/eqP.
      exact: Hg.
    by apply: size_sub_le; rewrite sp.
  by rewrite ltnS leqNgt big.
case/allPn: bad => y ys /negP[]; apply/eqP.
have yp : slot_pos calls y \in sl.
  by move: pos; rewrite /sl /n Ecc => /allP; apply; rewrite -[csize _]/(cc_size (compiled_of (pk_fft X) calls)) -Ecc.
have : root (\prod_(x <- sl) ('X - (- h x)%:P)) (- h y).
  by rewrite -(big_map (fun x => - h x) xpredT (fun a => 'X - a%:P)) root_prod_XsubC; apply: (map_f (fun x => - h x)).
rewrite -Epoly -(big_map (fun x => - f x) xpredT (fun a => 'X - a%:P)) root_prod_XsubC.
case/mapP => x xs /oppr_inj e.
have [ec|ne] := eqVneq (c (slot_pos calls y)) (c x); last first.
  case/negP: nb; apply/mapP; exists (x, y); first by apply/allpairsP; exists (x, y).
  have d0 : c (slot_pos calls y) - c x != 0 by rewrite subr_eq0.
  apply: (mulIf d0); rewrite mulfVK // /=; move: e; rewrite /h /f mulrBr.
  move: (beta * _) (beta * _) (v x) (v y) => p q vx vy e.
  by rewrite -[q](addKr vy) e; ring.
have prim : n.-primitive_root w.
  by rewrite /n Ecc omega_compiled; apply: cprim.
have -> : slot_pos calls y = x by apply: (C47_code_injective prim (two_neq0 ok) nz3 n21 n31 n23) yp xs ec.
by apply/esym; move: e; rewrite /h /f ec => /addIr.
Qed.

(* ------------------------------------------------------------------ *)
(* C51 *)
Theorem C51_returns_iff T :
  (4 * cc_size cc + 6 <= 2 ^ two_adicity (pk_fft X))%N ->
  generate_proof X T b cc srs =
  if [&& all (@call_holds F) calls, (hr_alpha X cc b s == 0) || product_holds X cc b s
       & no_accident X cc b s]
  then Ret (honest_proof X cc b s) else Panic.
Proof.
move=> bd; have [Ecc _ dle _] := compile_inv compiled.
have := generate_ois T; rewrite [rows_hold X cc](_ : _ = all (@call_holds F) calls) ?bd; last first.
  by rewrite Ecc (rows_holdE ok dle).
case: (generate_proof _ _ _ _ _) => [pf||] //=; first by case=> -> ->.
by case: ifP => // h /(_ isT isT).
Qed.

Theorem C51_satisfied_circuits T :
  (4 * cc_size cc + 6 <= 2 ^ two_adicity (pk_fft X))%N ->
  all (@call_holds F) calls ->
  positions_permute calls (cc_size cc) -> copies_hold calls (cc_size cc) ->
  no_accident X cc b s ->
  exists2 pf, generate_proof X T b cc srs = Ret pf &
    verify X (pk_sha256 X) cc srs pf = if ch_zeta X (pk_sha256 X) pf == 1 then Panic else Ret tt.
Proof.
move=> bd hold perm copies na; have [Ecc _ dle _] := compile_inv compiled.
exists (honest_proof X cc b s); last first.
  apply: (@C49_completeness T); rewrite C51_returns_iff // hold na andbT /=.
  rewrite ifT //; apply/orP; right; rewrite /product_holds; apply/eqP.
  move: perm copies; rewrite Ecc omega_compiled; exact: (products_copies ok dle).
rewrite C51_returns_iff // hold na andbT /= ifT //; apply/orP; right.
rewrite /product_holds; apply/eqP.
move: perm copies; rewrite Ecc omega_compiled; exact: (products_copies ok dle).
Qed.

End ProverVerifier.

(* ------------------------------------------------------------------ *)
(* C52, C53 *)
Section Verifier.
Variables (F : fieldType) (E : pairing_group F) (X : plonk_env E).
Hypotheses (okE : pairing_ok E) (ok : fft_ok (pk_fft X)).
Variables (calls : seq (gate_call F)) (cc : compiled_circuit F).
Hypothesis compiled : compile (pk_fft X) (build calls) = Ret cc.
Variables (s : F) (m : nat).
Hypothesis nm : (cc_size cc <= m)%N.
Local Notation srs := (srs_new_from_secret E s m).

Theorem C52_verify T (pf : proof E) : digest_long T ->
  verify X T cc srs pf =
  if pf_u pf != ch_u X T pf then Err "Verify: Challenge verification failed."
  else if ch_zeta X T pf == 1 then Panic
  else if verifier_equation X cc s T pf then Ret tt
  else Err "Verify: Pairing failed, rejected".
Proof. by move=> long; rewrite verifyE //; exact: (compiled_wf compiled). Qed.

Theorem C53_prover_ignores_digest T T' b :
  generate_proof X T b cc srs = generate_proof X T' b cc srs.
Proof. by []. Qed.

Theorem C53_mismatch_rejected T T' b pf : digest_long (pk_sha256 X) -> digest_long T' ->
  generate_proof X T b cc srs = Ret pf ->
  ch_u X T' pf != ch_u X (pk_sha256 X) pf ->
  verify X T' cc srs pf = Err "Verify: Challenge verification failed.".
Proof.
move=> long long' /(generate_inv ok long compiled nm)[-> _ _ _] ne.
by rewrite C52_verify // -[pf_u _]/(ch_u X (pk_sha256 X) (honest_proof X cc b s)) eq_sym ne.
Qed.

(* for a generator that is not constant there is such a digest *)
Theorem C53_some_digest_rejects T b pf (d1 d2 : bytes) : digest_long (pk_sha256 X) ->
  generate_proof X T b cc srs = Ret pf ->
  (8 <= size d1)%N -> (8 <= size d2)%N ->
  pk_rand X (le_decode (take 8 d1)) 0 != pk_rand X (le_decode (take 8 d2)) 0 ->
  exists2 T', digest_long T' & verify X T' cc srs pf = Err "Verify: Challenge verification failed.".
Proof.
move=> long gen l1 l2 ne.
have cu d : (8 <= size d)%N -> ch_u X (fun=> d) pf = pk_rand X (le_decode (take 8 d)) 0 by [].
have [e|n1] := eqVneq (ch_u X (fun=> d1) pf) (ch_u X (pk_sha256 X) pf).
  exists (fun=> d2); first by move=> ?.
  by apply: C53_mismatch_rejected gen _ => //; rewrite -e cu // eq_sym (cu d1).
exists (fun=> d1); first by move=> ?.
by apply: C53_mismatch_rejected gen _.
Qed.

End Verifier.
