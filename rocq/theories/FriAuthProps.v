(* C70: what FRI verification establishes when the opened paths do end in the
   published roots. *)
From Coq Require Import String Ascii NArith.
Set Warnings "-notation-overridden,-ambiguous-paths".
From mathcomp Require Import all_ssreflect all_algebra.
From mathcomp Require Import zify ring.
From Verif Require Import Base BaseLemmas ArkPoly ArkPolyLemmas ArkDomain ArkDomainLemmas.
From Verif Require Import FriModel FriSpec FriMerkle FriTranscript FriFold FriComplete FriSound.
From Verif Require Import FriSpecLemmas FriProps FriAuthSpec ArkPolyFft ArkPolyFftLemmas.

Set Implicit Arguments.
Unset Strict Implicit.
Unset Printing Implicit Defensive.

Import GRing.Theory.
Local Open Scope ring_scope.
Local Opaque le_bytes.

Section Auth.
Variables (F : fieldType) (X : fri_env F) (H : bytes -> bytes).
Hypothesis ok : fft_consts_ok X.

Lemma pow2_half n j : (j < n)%N -> (2 ^ (n - j) = 2 ^ (n - j.+1) + 2 ^ (n - j.+1))%N.
Proof. by move=> lt; rewrite addnn -mul2n -expnS subnS prednK // subn_gt0. Qed.

Lemma pow2_div n j : (j <= n)%N -> (2 ^ n %/ 2 ^ j = 2 ^ (n - j))%N.
Proof. by move=> le; rewrite -{1}(subnK le) expnD mulnK // expn_gt0. Qed.

Lemma opened_is_committed k (layer : seq F) (p : merkle_proof F) :
  size layer = (2 ^ k)%N -> verify_merkle_proof X p -> mp_root p = merkle_root X k layer ->
  size (mp_hash_proof p) = k -> (mp_index p < 2 ^ k)%N ->
  mp_leaf_val p = nth 0 layer (mp_index p) \/
  exists2 p', mt_generate_proof (mt_new X layer) (mp_index p) = Ret p' & collision_between X p p'.
Proof.
move=> Sl V Er Ss lt; rewrite -Sl in lt.
have [p' [Eg [Ei El] [Er' _] Ss' V']] := C01_merkle_completeness X Sl lt.
have := C03_merkle_binding V V'; rewrite Er Er' Ei Ss Ss' => /(_ erefl erefl erefl)[E|B].
  by left; rewrite -El -E.
by right; exists p' => //; rewrite /collision_between Ei Ss.
Qed.

Lemma fold_valueE (r x v sv : F) : 2%:R * x != 0 ->
  (r + x) * v / (2%:R * x) - (r - x) * sv / (2%:R * x) = fold_value r x v sv.
Proof.
rewrite mulf_eq0 negb_or => /andP[h2 hx]; rewrite /fold_value; field.
by rewrite h2 hx.
Qed.

(* an accepted decommitment whose paths end in the roots shows that the
   committed layers are folds of each other at the query position - or exhibits
   a hash collision *)
Theorem C70_authenticated_query (pf : fri_proof F) (n k : nat) (layer : nat -> seq F) :
  let d := nth (deco0 F) (fp_decommitment_list pf) k in
  let roots := fp_layers_root pf in
  let q := (fri_query X H roots (fp_const_val pf) k %% 2 ^ n)%N in
  digest_8_bytes H ->
  fri_verify X H pf = Ret tt -> fp_domain_size pf = (2 ^ n)%N ->
  (k < fp_number_of_queries pf)%N -> (k < size (fp_decommitment_list pf))%N ->
  layers_of X n roots layer -> authenticated n roots d ->
  (forall j, (j < n)%N ->
     fold_consistent X H n roots layer (fp_coset pf) (fp_const_val pf) q j) \/
  collides_with_layers X n layer d.
Proof.
move=> d roots q Hl /(C10_verifier_decision X pf Hl)[_ acc] ED kq ks [Sr HL] [S1 S2 S3 S4 HA].
have {}acc j : (j < n)%N -> layer_check X H pf d q j.
  move=> lt; have := acc k kq ks; rewrite -/d -/roots ED -/q => /(_ j); apply.
  by rewrite /paired S1 S2 S3 S4 Sr !minnn.
pose col p j := exists2 p', mt_generate_proof (mt_new X (layer j)) (mp_index p) = Ret p'
  & collision_between X p p'.
pose pa j := nth (path0 F) (dc_auth_paths d) j.
pose ps j := nth (path0 F) (dc_sym_auth_paths d) j.
have idx j : (j < n)%N ->
   [/\ mp_index (pa j) = (q %% 2 ^ (n - j))%N,
       mp_index (ps j) = ((q %% 2 ^ (n - j) + 2 ^ (n - j.+1)) %% 2 ^ (n - j))%N,
       (mp_index (pa j) < 2 ^ (n - j))%N & (mp_index (ps j) < 2 ^ (n - j))%N].
  move=> lt; have [_ [I1 I2] _ _ _] := acc j lt.
  move: I1 I2; rewrite ED pow2_div ?(ltnW lt) // -/(pa j) -/(ps j).
  have -> : (2 ^ (n - j) %/ 2 = 2 ^ (n - j.+1))%N.
    by rewrite (pow2_half lt) addnn -muln2 mulnK.
  by move=> -> ->; split=> //; rewrite ltn_mod expn_gt0.
have step j : (j < n)%N ->
   (nth 0 (dc_evaluations d) j = nth 0 (layer j) (q %% 2 ^ (n - j)) /\
    nth 0 (dc_sym_evaluations d) j = nth 0 (layer j) (mp_index (ps j))) \/
   (col (pa j) j \/ col (ps j) j).
  move=> lt; have [I1 I2 L1 L2] := idx j lt; have [_ _ [E1 E2] [V1 V2] _] := acc j lt.
  have [Sl El] := HL j lt; have [R1 R2 Z1 Z2] := HA j lt.
  have [e1|] := opened_is_committed Sl V1 (etrans R1 El) Z1 L1; last by right; left.
  have [e2|] := opened_is_committed Sl V2 (etrans R2 El) Z2 L2; last by right; right.
  by left; rewrite -E1 -E2 e1 e2 -/(pa j) I1.
have [all_ok|[j lt cj]] : (forall j, (j < n)%N ->
   nth 0 (dc_evaluations d) j = nth 0 (layer j) (q %% 2 ^ (n - j)) /\
    nth 0 (dc_sym_evaluations d) j = nth 0 (layer j) (mp_index (ps j))) \/
   exists2 j, (j < n)%N & (col (pa j) j \/ col (ps j) j).
  suff : forall m, (m <= n)%N -> (forall j, (j < m)%N ->
     nth 0 (dc_evaluations d) j = nth 0 (layer j) (q %% 2 ^ (n - j)) /\
      nth 0 (dc_sym_evaluations d) j = nth 0 (layer j) (mp_index (ps j))) \/
     exists2 j, (j < n)%N & (col (pa j) j \/ col (ps j) j) by move/(_ n (leqnn n)).
  elim=> [|m IH] lt; first by left.
  case: (IH (ltnW lt)) => [A|B]; last by right.
  case: (step m lt) => [C|C]; last by right; exists m.
  by left=> j; rewrite ltnS leq_eqVlt => /orP[/eqP ->|/A].
- left=> j lt; have [_ _ _ _ [nz E]] := acc j lt; have [I1 I2 L1 L2] := idx j lt.
  have [e1 e2] := all_ok j lt.
  move: nz E; rewrite ED pow2_div ?(ltnW lt) // up_expnK //.
  move=> nz; rewrite fold_valueE // /fold_consistent -/roots e1 e2 I2 S1 => ->.
  case: eqP => // ne; apply: (proj1 (all_ok j.+1 _)); move: lt ne; clear; lia.
- right; case: cj => -[p' G C]; [exists j, (pa j), p'|exists j, (ps j), p']; split=> //.
    by left.
  by right.
Qed.

Lemma foldedS (f : {poly F}) roots j :
  folded X H f roots j.+1 = fold_poly (folded X H f roots j) (fri_challenge X H roots j).
Proof. by rewrite /folded mkseqS -cats1 foldl_cat. Qed.

Lemma size_fold_poly (f : {poly F}) r k : (size f <= 2 ^ k.+1)%N -> (size (fold_poly f r) <= 2 ^ k)%N.
Proof.
move=> le; have := C05_fold_identity f r; rewrite polyseqK => -[<- le2 _ _].
apply: leq_trans (size_Poly _) _; apply: leq_trans le2 _; exact: uphalf_pow2.
Qed.

Lemma size_folded (f : {poly F}) roots n j : (size f <= 2 ^ n)%N -> (j <= n)%N ->
  (size (folded X H f roots j) <= 2 ^ (n - j))%N.
Proof.
move=> sf; elim: j => [|j IH] lt; first by rewrite subn0.
rewrite foldedS; apply: size_fold_poly; rewrite -subSn // subSS; exact: IH (ltnW lt).
Qed.

Lemma fold_poly_value (f : {poly F}) r x : x != 0 ->
  (fold_poly f r).[x ^+ 2] = fold_value r x f.[x] f.[- x].
Proof.
move=> x0; have := C05_fold_identity f r; rewrite polyseqK => -[<- _ _ h].
by rewrite h ?polyseqK // (two_neq0 ok).
Qed.

Lemma omega_sqr k : (k < two_adicity (fft X))%N -> omega X k.+1 ^+ 2 = omega X k.
Proof. by move=> lt; rewrite !omegaE root_of_unity_sqr. Qed.

Lemma omega_neq0 k : (k <= two_adicity (fft X))%N -> omega X k != 0.
Proof. by move=> le; rewrite omegaE; apply: (root_of_unity_neq0 ok). Qed.

Lemma point_sqr n j i (c : F) : (j < n)%N -> (n <= two_adicity (fft X))%N ->
  (omega X (n - j) ^+ i * c ^+ (2 ^ j)) ^+ 2 = omega X (n - j.+1) ^+ i * c ^+ (2 ^ j.+1).
Proof.
move=> lt le; rewrite exprMn -exprM mulnC exprM.
have -> : (n - j = (n - j.+1).+1)%N by move: lt; clear; lia.
rewrite omega_sqr; last by move: lt le; clear; lia.
by rewrite -[(c ^+ _) ^+ 2]exprM -expnSr.
Qed.

(* the next layer of a layer of values of f holds, at a consistent position,
   the value of the folded polynomial *)
Lemma consistent_step n roots layer (c v : F) (f : {poly F}) q j :
  (j < n)%N -> (n <= two_adicity (fft X))%N -> c != 0 ->
  layer j = coset_values X f (c ^+ (2 ^ j)) (n - j) ->
  fold_consistent X H n roots layer c v q j <->
  (fold_poly f (fri_challenge X H roots j)).[omega X (n - j.+1) ^+ q * c ^+ (2 ^ j.+1)] =
  if j.+1 == n then v else nth 0 (layer j.+1) (q %% 2 ^ (n - j.+1)).
Proof.
move=> lt le c0 E; rewrite /fold_consistent E.
have nS : (n - j = (n - j.+1).+1)%N by move: lt; clear; lia.
have lt' : (n - j.+1 < two_adicity (fft X))%N by move: lt le; clear; lia.
set m := (n - j.+1)%N in nS lt' *; rewrite nS.
set w := omega X m.+1; set cj := c ^+ (2 ^ j).
have wp : (2 ^ m.+1).-primitive_root w by rewrite /w omegaE; apply: (root_of_unity_prim ok).
have pos : (0 < 2 ^ m.+1)%N by rewrite expn_gt0.
have wm a : w ^+ (a %% 2 ^ m.+1) = w ^+ a by rewrite (prim_expr_mod wp).
have wh a : w ^+ (a + 2 ^ m) = - w ^+ a.
  by rewrite exprD /w omegaE (root_of_unity_half ok lt') mulrN1.
rewrite !nth_mkseq ?ltn_mod // -/w wm modnDml wm wh mulNr.
have x0 : w ^+ q * cj != 0 by rewrite mulf_neq0 // expf_neq0 // (omega_neq0 lt').
rewrite -fold_poly_value //.
have -> // : (w ^+ q * cj) ^+ 2 = omega X m ^+ q * c ^+ (2 ^ j.+1).
by rewrite /w /cj -nS /m; apply: point_sqr.
Qed.

(* if the committed layers are consistent at every position, they are the
   layers of the polynomial interpolating the first one, and the claimed
   constant is its complete fold *)
Theorem C70_consistent_everywhere (n : nat) (roots : seq F) (layer : nat -> seq F) (c v : F) :
  (0 < n <= two_adicity (fft X))%N -> c != 0 ->
  (forall j, (j < n)%N -> size (layer j) = (2 ^ (n - j))%N) ->
  (forall q j, (q < 2 ^ n)%N -> (j < n)%N -> fold_consistent X H n roots layer c v q j) <->
  exists f : {poly F},
    [/\ (size f <= 2 ^ n)%N,
        forall j, (j < n)%N ->
          layer j = coset_values X (folded X H f roots j) (c ^+ (2 ^ j)) (n - j)
      & folded X H f roots n = v%:P].
Proof.
move=> /andP[n0 le] c0 Ss; split; last first.
  case=> f [sf E Ev] q j lq lj; apply/(consistent_step _ _ _ lj le c0 (E j lj)).
  rewrite -foldedS; case: eqP => [->|ne]; first by rewrite Ev hornerC.
  have lj1 : (j.+1 < n)%N by move: lj ne; clear; lia.
  rewrite (E _ lj1) nth_mkseq ?ltn_mod ?expn_gt0 //.
  have wp : (2 ^ (n - j.+1)).-primitive_root (omega X (n - j.+1)).
    by rewrite omegaE; apply: (root_of_unity_prim ok); move: le; clear; lia.
  by rewrite (prim_expr_mod wp).
move=> con.
have wp : (2 ^ n).-primitive_root (omega X n) by rewrite omegaE; apply: (root_of_unity_prim ok).
pose dom := Domain (2 ^ n) (omega X n).
pose g := Poly (interpolate dom (layer 0%N)).
have sg : (size g <= 2 ^ n)%N := size_interpolate dom (layer 0%N).
have Eg i : (i < 2 ^ n)%N -> g.[omega X n ^+ i] = nth 0 (layer 0%N) i.
  by move=> li; apply: (@interpolateE _ dom wp (two_pow_neq0 ok n) (layer 0%N) i li).
pose f := g \Po (c^-1 *: 'X).
have sf : (size f <= 2 ^ n)%N.
  by rewrite /f size_comp_poly2 // size_scale ?invr_eq0 // size_polyX.
have Ef i : (i < 2 ^ n)%N -> f.[omega X n ^+ i * c] = nth 0 (layer 0%N) i.
  move=> li; rewrite horner_comp !hornerE -Eg //; congr (g.[_]).
  by rewrite /= mulrAC mulVf ?mul1r.
have L0 : layer 0%N = coset_values X f c n.
  apply: (@eq_from_nth _ 0); first by rewrite Ss // size_mkseq subn0.
  by rewrite Ss // subn0 => i li; rewrite nth_mkseq // Ef.
have LS j : (j < n)%N -> layer j = coset_values X (folded X H f roots j) (c ^+ (2 ^ j)) (n - j).
  elim: j => [|j IH] lt; first by rewrite subn0 expr1 /folded /= L0.
  have lj := ltnW lt; apply: (@eq_from_nth _ 0); first by rewrite Ss // size_mkseq.
  rewrite Ss // => i li; rewrite nth_mkseq // foldedS.
  have lq : (i < 2 ^ n)%N by apply: leq_trans li _; rewrite leq_exp2l // leq_subr.
  have := con i j lq lj; move/(consistent_step _ _ _ lj le c0 (IH lj)) => ->.
  by rewrite ifN ?modn_small // neq_ltn lt.
exists f; split=> //.
have ltn1 : (n.-1 < n)%N by rewrite prednK.
have := con 0%N n.-1 (expn_gt0 2 n) ltn1.
move/(consistent_step _ _ _ ltn1 le c0 (LS _ ltn1)); rewrite -foldedS prednK // eqxx subnn.
have := size_folded roots sf (leqnn n); rewrite subnn => /size1_polyC ->.
by rewrite hornerC => ->.
Qed.

Lemma fold_value_sym (r x v sv : F) : fold_value r (- x) sv v = fold_value r x v sv.
Proof. by rewrite /fold_value addrC addrC [sv + v]addrC mulrN invrN mulrN -mulNr opprB. Qed.

Lemma consistent_shift n roots layer (c v : F) q j :
  (n <= two_adicity (fft X))%N -> (j < n)%N ->
  fold_consistent X H n roots layer c v (q + 2 ^ (n - j.+1)) j <->
  fold_consistent X H n roots layer c v q j.
Proof.
move=> le lt; rewrite /fold_consistent.
have nS : (n - j = (n - j.+1).+1)%N by move: lt; clear; lia.
have lt' : (n - j.+1 < two_adicity (fft X))%N by move: lt le; clear; lia.
set m := (n - j.+1)%N in nS lt' *; rewrite nS.
set w := omega X m.+1; set cj := c ^+ (2 ^ j).
have wp : (2 ^ m.+1).-primitive_root w by rewrite /w omegaE; apply: (root_of_unity_prim ok).
have wm a : w ^+ (a %% 2 ^ m.+1) = w ^+ a by rewrite (prim_expr_mod wp).
have wh a : w ^+ (a + 2 ^ m) = - w ^+ a.
  by rewrite exprD /w omegaE (root_of_unity_half ok lt') mulrN1.
rewrite !modnDml -addnA addnn -mul2n -expnS modnDr wm wm wh mulNr fold_value_sym.
by rewrite modnDr.
Qed.

Lemma consistent_mod n roots layer (c v : F) q q' j :
  (n <= two_adicity (fft X))%N -> (j < n)%N -> q' = q %[mod 2 ^ (n - j.+1)] ->
  fold_consistent X H n roots layer c v q' j <-> fold_consistent X H n roots layer c v q j.
Proof.
move=> le lt E.
have K k r : fold_consistent X H n roots layer c v (r + k * 2 ^ (n - j.+1)) j <->
             fold_consistent X H n roots layer c v r j.
  elim: k r => [|k IH] r; first by rewrite mul0n addn0.
  by rewrite mulSn addnCA addnC -{1}[(r + _)%N]addn0 addn0 consistent_shift.
rewrite (divn_eq q' (2 ^ (n - j.+1))) (divn_eq q (2 ^ (n - j.+1))) E.
by rewrite [X in fold_consistent _ _ _ _ _ _ _ X _]addnC K [X in _ <-> fold_consistent _ _ _ _ _ _ _ X _]addnC K.
Qed.

Lemma count_mod M K r : (r < M)%N ->
  count (fun q => q %% M == r)%N (iota 0 (M * K)) = K.
Proof.
move=> lr; elim: K => [|K IH]; first by rewrite muln0.
rewrite mulnS addnC iotaD count_cat IH add0n -[(M * K)%N in X in (_ + X)%N]addn0 iotaDl count_map.
rewrite (@eq_in_count _ _ (pred1 r)) ?count_uniq_mem ?iota_uniq ?mem_iota ?lr ?addn1 //.
by move=> q; rewrite mem_iota add0n /= => lq; rewrite mulnC modnMDl modn_small.
Qed.

(* a wrong step of layer j at position q spoils every query position congruent
   to q modulo the size of layer j+1: 2^(j+1) of the 2^n positions *)
Theorem C70_inconsistent_positions (n : nat) (roots : seq F) (layer : nat -> seq F) (c v : F)
    (q j : nat) :
  (n <= two_adicity (fft X))%N -> (j < n)%N ->
  ~ fold_consistent X H n roots layer c v q j ->
  (forall q', q' = q %[mod 2 ^ (n - j.+1)] -> ~ fold_consistent X H n roots layer c v q' j) /\
  count (fun q' => q' %% 2 ^ (n - j.+1) == q %% 2 ^ (n - j.+1))%N (iota 0 (2 ^ n)) = (2 ^ j.+1)%N.
Proof.
move=> le lt nc; split=> [q' E C|]; first by apply: nc; apply/(consistent_mod _ _ _ _ le lt E).
have -> : (2 ^ n = 2 ^ (n - j.+1) * 2 ^ j.+1)%N by rewrite -expnD subnK.
by rewrite count_mod // ltn_mod expn_gt0.
Qed.

(* honest proofs are authenticated and their layers are consistent everywhere *)
Theorem C70_honest_proofs (p : seq F) (blowup nq : nat) (pf : fri_proof F) :
  digest_8_bytes H -> fri_generate_proof X H p blowup nq = Ret pf ->
  let n := up_log 2 (size p * blowup)%N in
  let roots := fp_layers_root pf in
  let layer j := coset_values X (folded X H (Poly p) roots j) (generator X ^+ (2 ^ j)) (n - j) in
  [/\ fp_domain_size pf = (2 ^ n)%N, size (fp_decommitment_list pf) = nq,
      layers_of X n roots layer
    & forall k, (k < nq)%N ->
        authenticated n roots (nth (deco0 F) (fp_decommitment_list pf) k)].
Proof.
move=> Hl G n roots layer.
have [/andP[n0 le] [ED EC Eq] [Sr HR] [Ef v0] [Sd HD]] := C09_proof_shape ok Hl G.
split=> //.
  split=> // j lt; split; first by rewrite size_mkseq.
  exact: HR.
move=> k lk; have [[S1 S2] [S3 S4] HJ] := HD k lk; split=> // j lt.
by have [_ _ [_ _ R1 _ Z1] [_ _ R2 _ Z2]] := HJ j lt; split.
Qed.

(* committed layers that are not the layers of a polynomial with complete fold v:
   at least two of the 2^n positions are spoiled, and an accepted proof whose
   openings end in the roots either exhibits a hash collision or queried none
   of the spoiled positions *)
Theorem C70_rejection (pf : fri_proof F) (n : nat) (layer : nat -> seq F) :
  let roots := fp_layers_root pf in
  digest_8_bytes H -> (0 < n <= two_adicity (fft X))%N -> fp_coset pf != 0 ->
  fp_domain_size pf = (2 ^ n)%N -> layers_of X n roots layer ->
  ~ (exists f : {poly F},
      [/\ (size f <= 2 ^ n)%N,
          forall j, (j < n)%N ->
            layer j = coset_values X (folded X H f roots j) (fp_coset pf ^+ (2 ^ j)) (n - j)
        & folded X H f roots n = (fp_const_val pf)%:P]) ->
  exists j spoiled,
    [/\ (j < n)%N, uniq spoiled /\ size spoiled = (2 ^ j.+1)%N,
        {in spoiled, forall q, (q < 2 ^ n)%N}
      & fri_verify X H pf = Ret tt ->
        forall k, (k < fp_number_of_queries pf)%N -> (k < size (fp_decommitment_list pf))%N ->
        let d := nth (deco0 F) (fp_decommitment_list pf) k in
        authenticated n roots d ->
        (fri_query X H roots (fp_const_val pf) k %% 2 ^ n)%N \notin spoiled \/
        collides_with_layers X n layer d].
Proof.
move=> roots Hl /andP[n0 le] c0 ED Lr nex.
have Ss j : (j < n)%N -> size (layer j) = (2 ^ (n - j))%N by move=> lt; have [_ /(_ j lt)[]] := Lr.
pose okb q j := let i := (q %% 2 ^ (n - j))%N in
  let si := ((i + 2 ^ (n - j.+1)) %% 2 ^ (n - j))%N in
  fold_value (fri_challenge X H roots j) (omega X (n - j) ^+ i * fp_coset pf ^+ (2 ^ j))
    (nth 0 (layer j) i) (nth 0 (layer j) si) ==
  if j.+1 == n then fp_const_val pf else nth 0 (layer j.+1) (q %% 2 ^ (n - j.+1)).
have okP q j : reflect (fold_consistent X H n roots layer (fp_coset pf) (fp_const_val pf) q j) (okb q j).
  exact: eqP.
case: (boolP (all (fun q => all (okb q) (iota 0 n)) (iota 0 (2 ^ n)))) => [/allP A|/allPn[q _ /allPn[j]]].
  case: nex; apply/(C70_consistent_everywhere roots (fp_const_val pf) _ c0 Ss).
    by rewrite n0 le.
  move=> q j lq lj; apply/okP; have := A q; rewrite mem_iota lq => /(_ isT) /allP /(_ j).
  by rewrite mem_iota lj; apply.
rewrite mem_iota add0n => /andP[_ lj] /okP nc.
have [sp cnt] := C70_inconsistent_positions le lj nc.
exists j, [seq q' <- iota 0 (2 ^ n) | (q' %% 2 ^ (n - j.+1) == q %% 2 ^ (n - j.+1))%N].
split=> //.
- by rewrite filter_uniq ?iota_uniq // size_filter.
- by move=> q'; rewrite mem_filter mem_iota => /andP[_ /andP[]].
move=> V k kq ks d A.
case: (C70_authenticated_query Hl V ED kq ks Lr A) => [C|]; last by right.
left; rewrite mem_filter negb_and; apply/orP; left; apply/negP => /eqP E.
exact: (sp _ E (C j lj)).
Qed.

End Auth.
