(* Honest FRI proofs: structure, panics, completeness (C06-C09, C13). *)
From Coq Require Import String Ascii NArith.
Set Warnings "-notation-overridden,-ambiguous-paths".
From mathcomp Require Import all_ssreflect all_algebra.
From mathcomp Require Import zify ring.
From Verif Require Import Base BaseLemmas ArkPoly ArkPolyLemmas ArkDomain ArkDomainLemmas
  FriModel FriMerkle FriTranscript FriFold.

Set Implicit Arguments.
Unset Strict Implicit.
Unset Printing Implicit Defensive.

Import GRing.Theory.
Local Open Scope ring_scope.

Section FriComplete.
Variables (F : fieldType) (X : fri_env F) (H : bytes -> bytes).
Let S := two_adicity (fft X).
Hypothesis ok : fft_ok (fft X).
Implicit Types (p : seq F) (c r : F) (t : transcript).

(* values of p on the coset c<w_n>, n the log of the domain size *)
Definition coset_evals p c (n : nat) : seq F :=
  [seq peval p (root_of_unity (fft X) n ^+ i * c) | i <- iota 0 (2 ^ n)].

Definition layer_of p c n : fri_layer F :=
  FriLayer (coset_evals p c n) (mt_new X (coset_evals p c n)) c (2 ^ n).

Lemma size_coset_evals p c n : size (coset_evals p c n) = (2 ^ n)%N.
Proof. by rewrite size_map size_iota. Qed.

Lemma nth_coset_evals p c n i : (i < 2 ^ n)%N ->
  nth 0 (coset_evals p c n) i = peval p (root_of_unity (fft X) n ^+ i * c).
Proof. by move=> lt; rewrite (nth_map 0%N) ?size_iota // nth_iota. Qed.

Lemma layer_from_polyE p c n : layer_from_poly X p c (2 ^ n) =
  if (n <= S)%N then Ret (layer_of p c n) else Panic.
Proof.
rewrite /layer_from_poly domain_newE -/S; case: ifP => //= le.
by rewrite /layer_of /coset_evals /dom_elements -map_comp.
Qed.

Definition layer_root p c n : F :=
  nth 0 (iter n (next_level X) [seq hash X x | x <- coset_evals p c n]) 0.

Lemma layer_rootE p c n : mt_root (fl_merkle_tree (layer_of p c n)) = Ret (layer_root p c n).
Proof. by rewrite /layer_of /= (mt_root_pow2 X (size_coset_evals p c n)). Qed.

(* The layers of an honest prover that used folding challenges rs, starting
   from p on the coset c of size 2^n. *)
Fixpoint honest_layers p c n (rs : seq F) : seq (fri_layer F) :=
  if rs is r :: rs' then
    layer_of p c n :: honest_layers (fold_polynomial p r) (c ^+ 2) n.-1 rs'
  else [::].

Fixpoint honest_roots p c n (rs : seq F) : seq F :=
  if rs is r :: rs' then
    layer_root p c n :: honest_roots (fold_polynomial p r) (c ^+ 2) n.-1 rs'
  else [::].

Lemma size_honest_layers p c n rs : size (honest_layers p c n rs) = size rs.
Proof. by elim: rs p c n => //= r rs IH p c n; rewrite IH. Qed.

Lemma size_honest_roots p c n rs : size (honest_roots p c n rs) = size rs.
Proof. by elim: rs p c n => //= r rs IH p c n; rewrite IH. Qed.

Lemma omapM_roots p c n rs :
  omapM (fun l => mt_root (fl_merkle_tree l)) (honest_layers p c n rs) = Ret (honest_roots p c n rs).
Proof.
elim: rs p c n => [|r rs IH] p c n //.
by rewrite [omapM _ _]/= -/(mt_root _) layer_rootE /= IH.
Qed.

Lemma nth_honest_roots p c n rs j : (j < size rs)%N ->
  nth 0 (honest_roots p c n rs) j =
  layer_root (fold_all p (take j rs)) (c ^+ (2 ^ j)) (n - j).
Proof.
elim: rs p c n j => [|r rs IH] p c n [|j] //= lt.
  by rewrite expr1 subn0.
rewrite IH // -exprM -expnS; congr (layer_root _ _ _); lia.
Qed.

Let l0 := layer_of [::] 0 0.

Lemma nth_honest_layers p c n rs j : (j < size rs)%N ->
  nth l0 (honest_layers p c n rs) j =
  layer_of (fold_all p (take j rs)) (c ^+ (2 ^ j)) (n - j).
Proof.
elim: rs p c n j => [|r rs IH] p c n [|j] //= lt.
  by rewrite expr1 subn0.
rewrite IH // -exprM -expnS; congr (layer_of _ _ _); lia.
Qed.

(* The folding loop is described by regenerating the challenges from the
   honest roots. *)
Lemma folding_loop_Ret k p c n t acc p' t' ls : (k <= n)%N ->
  folding_loop X H k p c (2 ^ n) t acc = Ret (p', t', ls) ->
  exists rs, [/\ size rs = k, ls = acc ++ honest_layers p c n rs,
     p' = fold_all p rs,
     regen_challenges X H t (honest_roots p c n rs) = Ret (rs, t')
     & (0 < k -> n <= S)%N].
Proof.
elim: k p c n t acc => [|k IH] p c n t acc le.
  by case=> <- <- <-; exists [::]; rewrite cats0.
rewrite [folding_loop _ _ _ _ _ _ _ _]/= layer_from_polyE.
case: ifP => // leS; rewrite ?bindRet layer_rootE ?bindRet.
inv_bind=> -[r t1] Et1.
have -> : (2 ^ n %/ 2 = 2 ^ n.-1)%N.
  by case: n le {leS Et1} => // n _; rewrite expnS mulKn.
case/IH; first by lia.
move=> rs [Ss Els Ep Er _]; exists (r :: rs); split=> //=.
- by rewrite Ss.
- by rewrite Els cat_rcons.
- by rewrite Et1 /= Er.
Qed.

(* With a digest of at least 8 bytes the loop never panics on domains that
   exist. *)
Lemma challenge_after_digest t m : digest_long H ->
  exists r, tr_challenge X (tr_digest X H t m) =
    Ret (r, Transcript (tr_data (tr_digest X H t m)) (tr_index t).+1 true).
Proof.
move=> Hl; rewrite /tr_challenge /tr_seed /= ltnNge Hl /=.
by eexists.
Qed.

Lemma folding_loop_total k p c n t acc : digest_long H -> (k <= n)%N -> (n <= S)%N ->
  exists p' t' ls, folding_loop X H k p c (2 ^ n) t acc = Ret (p', t', ls).
Proof.
move=> Hl; elim: k p c n t acc => [|k IH] p c n t acc le leS.
  by exists p, t, acc.
rewrite [folding_loop _ _ _ _ _ _ _ _]/= layer_from_polyE leS.
rewrite ?bindRet layer_rootE ?bindRet.
have [r ->] := challenge_after_digest t (layer_root p c n) Hl.
rewrite ?bindRet.
have -> : (2 ^ n %/ 2 = 2 ^ n.-1)%N.
  by case: n le {leS} => // n _; rewrite expnS mulKn.
by apply: IH; lia.
Qed.

(* ---- opening ---- *)
Lemma open_layer_total ch p c n : (0 < n)%N ->
  exists pa sp,
   [/\ open_layer ch (layer_of p c n) =
         Ret (peval p (root_of_unity (fft X) n ^+ (ch %% 2 ^ n) * c),
              peval p (root_of_unity (fft X) n ^+ ((ch %% 2 ^ n + 2 ^ n.-1) %% 2 ^ n) * c),
              pa, sp),
       [/\ mp_index pa = (ch %% 2 ^ n)%N,
           mp_leaf_val pa = peval p (root_of_unity (fft X) n ^+ (ch %% 2 ^ n) * c),
           mp_root pa = layer_root p c n, verify_merkle_proof X pa
         & size (mp_hash_proof pa) = n]
     & [/\ mp_index sp = ((ch %% 2 ^ n + 2 ^ n.-1) %% 2 ^ n)%N,
           mp_leaf_val sp = peval p (root_of_unity (fft X) n ^+ ((ch %% 2 ^ n + 2 ^ n.-1) %% 2 ^ n) * c),
           mp_root sp = layer_root p c n, verify_merkle_proof X sp
         & size (mp_hash_proof sp) = n]].
Proof.
move=> n0.
have gt0 : (0 < 2 ^ n)%N by rewrite expn_gt0.
have Ed : (2 ^ n %/ 2 = 2 ^ n.-1)%N by case: n n0 {gt0} => // n _; rewrite expnS mulKn.
set i := (ch %% 2 ^ n)%N; set j := ((i + 2 ^ n.-1) %% 2 ^ n)%N.
have li : (i < 2 ^ n)%N by rewrite ltn_mod.
have lj : (j < 2 ^ n)%N by rewrite ltn_mod.
have Es := size_coset_evals p c n.
have Ln k : (k < 2 ^ n)%N -> (k < size (coset_evals p c n))%N by rewrite Es.
have [pa [[Epa Ia Va Ra Ka] Za]] := merkle_complete X Es (Ln _ li).
have [sp [[Esp Is Vs Rs Ks] Zs]] := merkle_complete X Es (Ln _ lj).
have ER := mt_root_pow2 X Es.
rewrite ER in Ra Rs.
exists pa, sp; split.
- rewrite /open_layer /umod [fl_domain_size _]/= (gtn_eqF gt0) ?bindRet Ed -/i -/j.
  rewrite ?bindRet [fl_evaluations _]/= !(index_at_Ret 0) ?Es //.
  rewrite ?bindRet [fl_merkle_tree _]/= Epa ?bindRet Esp.
  by rewrite /= !nth_coset_evals.
- by split=> //; [rewrite Va nth_coset_evals|case: Ra].
- by split=> //; [rewrite Vs nth_coset_evals|case: Rs].
Qed.

(* what an honest decommitment is, entry by entry *)
Definition entry_ok ch p c n (e : F * F * merkle_proof F * merkle_proof F) : Prop :=
  let i := (ch %% 2 ^ n)%N in
  let j := ((i + 2 ^ n.-1) %% 2 ^ n)%N in
  let w := root_of_unity (fft X) n in
  [/\ e.1.1.1 = peval p (w ^+ i * c), e.1.1.2 = peval p (w ^+ j * c),
      [/\ mp_index e.1.2 = i, mp_leaf_val e.1.2 = peval p (w ^+ i * c),
          mp_root e.1.2 = layer_root p c n, verify_merkle_proof X e.1.2
        & size (mp_hash_proof e.1.2) = n]
    & [/\ mp_index e.2 = j, mp_leaf_val e.2 = peval p (w ^+ j * c),
          mp_root e.2 = layer_root p c n, verify_merkle_proof X e.2
        & size (mp_hash_proof e.2) = n]].

Fixpoint entries_ok ch p c n (rs : seq F)
  (es : seq (F * F * merkle_proof F * merkle_proof F)) : Prop :=
  match rs, es with
  | [::], [::] => True
  | r :: rs', e :: es' =>
      entry_ok ch p c n e /\ entries_ok ch (fold_polynomial p r) (c ^+ 2) n.-1 rs' es'
  | _, _ => False
  end.

Lemma open_entries ch p c n rs : (size rs <= n)%N ->
  exists es, omapM (open_layer ch) (honest_layers p c n rs) = Ret es /\
             entries_ok ch p c n rs es.
Proof.
elim: rs p c n => [|r rs IH] p c n /= le; first by exists [::].
have [pa [sp [-> Ha Hs]]] := open_layer_total ch p c (leq_ltn_trans (leq0n _) le).
have [|es [Ees Hes]] := IH (fold_polynomial p r) (c ^+ 2) n.-1; first by lia.
rewrite ?bindRet Ees /=; eexists; split; first by [].
by split=> //; split.
Qed.

Lemma entries_ok_size ch p c n rs es : entries_ok ch p c n rs es -> size es = size rs.
Proof. by elim: rs p c n es => [|r rs IH] p c n [|e es] //= [_ /IH ->]. Qed.

(* the algebra of one verification step *)
Lemma opposite_point n i : (0 < n)%N -> (n <= S)%N ->
  root_of_unity (fft X) n ^+ ((i + 2 ^ n.-1) %% 2 ^ n) = - root_of_unity (fft X) n ^+ i.
Proof.
case: n => // n _ le.
have pr := root_of_unity_prim ok le.
rewrite (prim_expr_mod pr) exprD /= root_of_unity_half //.
by rewrite mulrN1.
Qed.

Lemma next_point n ch c : (0 < n)%N -> (n <= S)%N ->
  (root_of_unity (fft X) n ^+ (ch %% 2 ^ n) * c) ^+ 2 =
  root_of_unity (fft X) n.-1 ^+ (ch %% 2 ^ n.-1) * c ^+ 2.
Proof.
case: n => // n _ le /=.
have pr := root_of_unity_prim ok le.
have pr' := root_of_unity_prim ok (ltnW le).
rewrite exprMn (prim_expr_mod pr) (prim_expr_mod pr') -(root_of_unity_sqr le).
by rewrite -!exprM mulnC.
Qed.

Lemma verify_entries_complete ch const_val evals p c n rs es i :
  c != 0 -> (size rs <= n)%N -> (n <= S)%N ->
  entries_ok ch p c n rs es ->
  drop i evals = [seq e.1.1.1 | e <- es] -> (i + size rs = size evals)%N ->
  const_val = peval (fold_all p rs) 0 -> (size (fold_all p rs) <= 1)%N ->
  verify_entries X ch evals const_val i (2 ^ n) c
    (zip (zip (zip (zip [seq e.1.1.1 | e <- es] [seq e.1.2 | e <- es])
                   [seq e.1.1.2 | e <- es]) [seq e.2 | e <- es]) rs) = Ret tt.
Proof.
elim: rs p c n es i => [|r rs IH] p c n [|e es] i // c0 le leS.
case: e => [[[ev sv] pa] sp] [[/= -> -> [Ia Va _ Ka _] [Is Vs _ Ks _]] Hes].
move=> Ed Esz Ec Sc.
have n0 : (0 < n)%N by exact: leq_ltn_trans le.
have gt0 : (0 < 2 ^ n)%N by rewrite expn_gt0.
have Ed2 : (2 ^ n %/ 2 = 2 ^ n.-1)%N by case: (n) n0 => // m _; rewrite expnS mulKn.
rewrite /umod (gtn_eqF gt0) ?bindRet Ed2 ?bindRet.
rewrite domain_newE leS [obind _ _]/= Ia Is !eqxx Va Vs !eqxx Ka Ks /=.
set w := root_of_unity (fft X) n.
set x := w ^+ (ch %% 2 ^ n) * c.
have -> : w ^+ ((ch %% 2 ^ n + 2 ^ n.-1) %% 2 ^ n) * c = - x.
  by rewrite opposite_point // mulNr.
have h2 := two_neq0 ok.
have x0 : x != 0 by rewrite mulf_neq0 // expf_neq0 // root_of_unity_neq0.
rewrite (negbTE (mulf_neq0 h2 x0)) fold_verifier_form //.
have Enext : x ^+ 2 = root_of_unity (fft X) n.-1 ^+ (ch %% 2 ^ n.-1) * c ^+ 2.
  exact: next_point.
have Edr : drop i.+1 evals = [seq e.1.1.1 | e <- es].
  by rewrite -[i.+1]add1n -drop_drop Ed /= drop0.
have Sres := entries_ok_size Hes.
case: eqP => [Ei|Ei] /=.
- (* last entry *)
  have Ers : rs = [::].
    apply: size0nil; move: Esz Ei => /=; case: (evals) => [|? ?] /=; lia.
  rewrite Ers in Hes Ec Sc *; case: es Hes Ed Edr Sres => // _ _ _ _ /=.
  move: Ec Sc => /= ->; case: (fold_polynomial p r) => [|a [|? ?]] //= _.
    by rewrite eqxx.
  by rewrite !mulr0 eqxx.
- case: rs es Hes Edr Esz Ec Sc IH le Ed Sres => [|r' rs] [|e' es] //.
    by move=> _ _ Esz; exfalso; apply: Ei; move: Esz => /= <-; rewrite addn1.
  move=> Hes Edr Esz Ec Sc IH le Ed Sres.
  have lt1 : (i.+1 < size evals)%N by move: Esz => /=; lia.
  rewrite (index_at_Ret 0 lt1) ?bindRet.
  have -> : nth 0 evals i.+1 = peval (fold_polynomial p r) (x ^+ 2).
    have : nth 0 (drop i.+1 evals) 0 = e'.1.1.1 by rewrite Edr.
    by rewrite nth_drop addn0 => ->; case: Hes => -[-> _ _ _] _; rewrite Enext.
  rewrite eqxx [if ~~ true then _ else _]/=.
  apply: (IH (fold_polynomial p r) (c ^+ 2) n.-1 (e' :: es)) => //.
  + by rewrite expf_neq0.
  + by move: le => /=; lia.
  + by lia.
  + by move: Esz => /=; lia.
Qed.

Lemma verify_entries_complete' ch const_val p c n rs es :
  c != 0 -> (size rs <= n)%N -> (n <= S)%N ->
  entries_ok ch p c n rs es ->
  const_val = peval (fold_all p rs) 0 -> (size (fold_all p rs) <= 1)%N ->
  verify_query X ch (Decommitment [seq e.1.1.1 | e <- es] [seq e.1.2 | e <- es]
                    [seq e.1.1.2 | e <- es] [seq e.2 | e <- es]) rs (2 ^ n) const_val c = Ret tt.
Proof.
move=> c0 le leS Hes Ec Sc; rewrite /verify_query /zipped /=.
apply: (verify_entries_complete (p := p)) => //; first by rewrite drop0.
by rewrite size_map (entries_ok_size Hes).
Qed.

(* ---- the whole proof ---- *)
Definition honest_challenges p c n rs t' : Prop :=
  regen_challenges X H (tr_new X H 0) (honest_roots p c n rs) = Ret (rs, t').

Lemma ilog2_pow2 n : ilog2 (2 ^ n) = Ret n.
Proof. by rewrite /ilog2 expn_eq0 /= trunc_expnK. Qed.

Lemma folding_phase_Ret p c n cst t ls :
  folding_phase X H p c (2 ^ n) n = Ret (cst, t, ls) ->
  exists rs t', [/\ size rs = n, (0 < n)%N, (n <= S)%N, ls = honest_layers p c n rs &
    [/\ honest_challenges p c n rs t', t = tr_digest X H t' cst,
        size (fold_all p rs) = 1%N & cst = peval (fold_all p rs) 0]].
Proof.
rewrite /folding_phase; inv_bind=> lg Elg; inv_bind=> -[[p' t1] ls1] Efl.
inv_bind=> -[]; rewrite /oassert; case: eqP => // Sp _ [Ec Et El].
have [rs [Ss Els Ep Er leS]] := folding_loop_Ret (leqnn _) Efl.
have n0 : (0 < n)%N by move: Elg; rewrite /ilog2 lt0n; case: eqP.
exists rs, t1; split=> //; first exact: leS.
- by rewrite -El Els.
- by split=> //; rewrite -?Ep // -Ec.
Qed.

(* C09: shape of a generated proof *)
Lemma fri_generate_on_shape p n nq pf :
  fri_generate_on X H p (2 ^ n) nq = Ret pf ->
  exists rs t' raw t'' ess,
    [/\ [/\ size rs = n, (0 < n)%N, (n <= S)%N & size (fold_all p rs) = 1%N],
        [/\ fp_domain_size pf = (2 ^ n)%N, fp_coset pf = generator X,
            fp_number_of_queries pf = nq,
            fp_layers_root pf = honest_roots p (generator X) n rs
          & fp_const_val pf = peval (fold_all p rs) 0],
        honest_challenges p (generator X) n rs t',
        tr_challenges_usize X (tr_digest X H t' (fp_const_val pf)) nq = Ret (raw, t'')
      & [/\ size ess = size raw,
            forall k, (k < size raw)%N ->
              entries_ok (nth 0%N raw k %% 2 ^ n)%N p (generator X) n rs (nth [::] ess k)
          & fp_decommitment_list pf =
              [seq Decommitment [seq e.1.1.1 | e <- es] [seq e.1.2 | e <- es]
                    [seq e.1.1.2 | e <- es] [seq e.2 | e <- es] | es <- ess]]].
Proof.
rewrite /fri_generate_on ilog2_pow2 ?bindRet.
inv_bind=> -[[cst t] ls] /folding_phase_Ret[rs [t' [Ss n0 leS Els [Eh Et Sc Ec]]]].
inv_bind=> -[[ds chl] t2] Eq; inv_bind=> roots Er [<-].
rewrite Els omapM_roots in Er; case: Er => Er.
move: Eq; rewrite /query_phase Els.
have -> : nilp (honest_layers p (generator X) n rs) = false.
  by rewrite /nilp size_honest_layers Ss gtn_eqF.
inv_bind=> -[raw t3] Eraw; inv_bind=> chs Echs; inv_bind=> ds' Eds [Eds1 _ _].
have gt0 : (0 < 2 ^ n)%N by rewrite expn_gt0.
have Echs' : chs = [seq (v %% 2 ^ n)%N | v <- raw].
  have := @omapM_total _ _ (fun v => umod v (2 ^ n)) (fun v => (v %% 2 ^ n)%N) raw.
  rewrite Echs => H1; suff [->] : Ret chs = Ret [seq (v %% 2 ^ n)%N | v <- raw] by [].
  by apply: H1 => a _; rewrite /umod gtn_eqF.
have Hess : exists ess, [/\ size ess = size chs,
   forall k, (k < size chs)%N -> entries_ok (nth 0%N chs k) p (generator X) n rs (nth [::] ess k)
   & ds' = [seq Decommitment [seq e.1.1.1 | e <- es] [seq e.1.2 | e <- es]
                    [seq e.1.1.2 | e <- es] [seq e.2 | e <- es] | es <- ess]].
  elim: chs ds' Eds {Echs Echs' Eds1} => [|ch chs IH] ds' /=.
    by case=> <-; exists [::].
  inv_bind=> d; rewrite /open_query.
  have [|es [Ees Hes]] := @open_entries ch p (generator X) n rs; first by rewrite Ss.
  rewrite Ees ?bindRet => -[<-]; inv_bind=> bs /IH[ess [S1 H1 ->]] [<-].
  exists (es :: ess); split=> //=; first by rewrite S1.
  by case=> [|k] //= lt; apply: H1.
case: Hess => ess [S1 H1 E1].
exists rs, t', raw, t3, ess; split=> //.
- by rewrite -Et.
- split; rewrite ?S1 ?Echs' ?size_map // -?E1 //.
  move=> k lt; have := H1 k; rewrite Echs' size_map => /(_ lt).
  by rewrite (nth_map 0%N).
Qed.

Lemma fri_generate_shape p b nq pf :
  fri_generate_proof X H p b nq = Ret pf ->
  let n := up_log 2 (size p * b)%N in
  exists rs t' raw t'' ess,
    [/\ [/\ size rs = n, (0 < n)%N, (n <= S)%N & size (fold_all p rs) = 1%N],
        [/\ fp_domain_size pf = (2 ^ n)%N, fp_coset pf = generator X,
            fp_number_of_queries pf = nq,
            fp_layers_root pf = honest_roots p (generator X) n rs
          & fp_const_val pf = peval (fold_all p rs) 0],
        honest_challenges p (generator X) n rs t',
        tr_challenges_usize X (tr_digest X H t' (fp_const_val pf)) nq = Ret (raw, t'')
      & [/\ size ess = size raw,
            forall k, (k < size raw)%N ->
              entries_ok (nth 0%N raw k %% 2 ^ n)%N p (generator X) n rs (nth [::] ess k)
          & fp_decommitment_list pf =
              [seq Decommitment [seq e.1.1.1 | e <- es] [seq e.1.2 | e <- es]
                    [seq e.1.1.2 | e <- es] [seq e.2 | e <- es] | es <- ess]]].
Proof. exact: fri_generate_on_shape. Qed.

(* C07 *)
Lemma fri_on_completeness p n nq pf : generator X != 0 ->
  fri_generate_on X H p (2 ^ n) nq = Ret pf -> fri_verify X H pf = Ret tt.
Proof.
move=> g0 /fri_generate_on_shape[rs [t' [raw [t'' [ess]]]]] -[[Ss n0 leS Sc] [Ed Eg Eq Er Ec] Eh Eraw [S1 H1 Eds]].
rewrite /fri_verify Er Eh ?bindRet Eq Eraw ?bindRet Ed.
have gt0 : (0 < 2 ^ n)%N by rewrite expn_gt0.
rewrite (@omapM_total _ _ (fun v => umod v (2 ^ n)) (fun v => (v %% 2 ^ n)%N)); last first.
  by move=> a _; rewrite /umod gtn_eqF.
rewrite ?bindRet Eds Eg Ec.
move: S1 H1; elim: raw ess {Eraw Eds} => [|ch raw IH] [|es ess] //= [S1] H1.
have := H1 0%N isT => /= H0.
rewrite (verify_entries_complete' (p := p)) ?Ss ?Sc //=.
by apply: IH => // k lt; apply: (H1 k.+1).
Qed.

Lemma fri_completeness p b nq pf : generator X != 0 ->
  fri_generate_proof X H p b nq = Ret pf -> fri_verify X H pf = Ret tt.
Proof. exact: fri_on_completeness. Qed.

(* C08 *)
Lemma fri_generate_panic_small p b nq : next_power_of_two (size p * b) = 1%N ->
  fri_generate_proof X H p b nq = Panic.
Proof.
rewrite /fri_generate_proof /fri_generate_on => ->.
by rewrite (ilog2_pow2 0) ?bindRet.
Qed.

Lemma fri_generate_panic_large p b nq : (2 ^ S < next_power_of_two (size p * b))%N ->
  fri_generate_proof X H p b nq = Panic.
Proof.
rewrite /fri_generate_proof /fri_generate_on /next_power_of_two ltn_exp2l //; set n := up_log 2 _ => lt.
rewrite ilog2_pow2 ?bindRet /folding_phase.
case: n lt => // n lt.
rewrite /ilog2 (_ : n.+1 == 0%N = false) // bindRet [folding_loop _ _ _ _ _ _ _ _]/=.
by rewrite layer_from_polyE leqNgt lt.
Qed.

Lemma no_err_query nq D t ls : no_err (query_phase X nq D t ls).
Proof.
rewrite /query_phase; case: ifP => // _.
apply: no_err_bind => [|[raw t1] _].
  rewrite /tr_challenges_usize /tr_challenges /tr_seed.
  by case: ifP => //= _; case: ifP.
apply: no_err_bind => [|chs _]; first by apply: no_err_omapM => a; exact: no_err_umod.
apply: no_err_bind => // .
apply: no_err_omapM => ch; apply: no_err_bind => //.
apply: no_err_omapM => l; rewrite /open_layer.
apply: no_err_bind => [|i _]; first exact: no_err_umod.
apply: no_err_bind => [|j _]; first exact: no_err_umod.
apply: no_err_bind => [|e _]; first exact: no_err_index.
apply: no_err_bind => [|se _]; first exact: no_err_index.
apply: no_err_bind => [|pa _]; first exact: no_err_generate_proof.
by apply: no_err_bind => // ; exact: no_err_generate_proof.
Qed.

Lemma fri_generate_decide p b nq : digest_long H ->
  let n := up_log 2 (size p * b)%N in
  (0 < n)%N -> (n <= S)%N ->
  exists rs t', [/\ size rs = n, honest_challenges p (generator X) n rs t',
     (size (fold_all p rs) <= 1)%N,
     (fold_all p rs = [::] -> fri_generate_proof X H p b nq = Panic)
   & (fold_all p rs <> [::] -> exists pf, fri_generate_proof X H p b nq = Ret pf)].
Proof.
move=> Hl n n0 leS.
have [p' [t' [ls Efl]]] :=
  folding_loop_total p (generator X) (tr_new X H 0) [::] Hl (leqnn n) leS.
have [rs [Ss Els Ep Er _]] := folding_loop_Ret (leqnn _) Efl.
have Sc : (size (fold_all p rs) <= 1)%N.
  apply: (@fold_all_size _ _ _ 0); rewrite addn0 Ss.
  have b0 : (0 < b)%N by case: b @n n0 {leS Efl Els Er Ss} => //=; rewrite muln0.
  apply: leq_trans (up_logP (size p * b) (isT : (1 < 2)%N)).
  by rewrite leq_pmulr.
have EF : folding_phase X H p (generator X) (2 ^ n) n =
   if size (fold_all p rs) == 1%N then
     Ret (peval (fold_all p rs) 0, tr_digest X H t' (peval (fold_all p rs) 0), ls)
   else Panic.
  rewrite /folding_phase Efl /ilog2 gtn_eqF //= /oassert -Ep.
  by case: ifP.
have EG : fri_generate_proof X H p b nq =
   obind (folding_phase X H p (generator X) (2 ^ n) n) (fun '(const_val, t, layers) =>
   obind (query_phase X nq (2 ^ n) t layers) (fun '(ds, _, _) =>
   obind (omapM (fun l => mt_root (fl_merkle_tree l)) layers) (fun roots =>
   Ret (FriProof (2 ^ n) (generator X) nq roots const_val ds)))).
  by rewrite /fri_generate_proof /fri_generate_on /next_power_of_two ilog2_pow2.
exists rs, t'; split=> // [E|ne].
  by rewrite EG EF E.
have Sz : size (fold_all p rs) == 1%N.
  by move: Sc ne; case: (fold_all p rs) => [|a [|? ?]].
rewrite EG EF Sz ?bindRet /query_phase Els cat0s.
have -> : nilp (honest_layers p (generator X) n rs) = false.
  by rewrite /nilp size_honest_layers Ss gtn_eqF.
rewrite /tr_challenges_usize /tr_challenges /tr_seed [tr_generated _]/=.
rewrite [tr_data _]/= [odflt _ _]/= ltnNge Hl ?bindRet.
have gt0 : (0 < 2 ^ n)%N by rewrite expn_gt0.
rewrite (@omapM_total _ _ (fun v => umod v (2 ^ n)) (fun v => (v %% 2 ^ n)%N)); last first.
  by move=> a _; rewrite /umod gtn_eqF.
rewrite ?bindRet.
set chs := map _ _.
have [ds ->] : exists ds, omapM (open_query (honest_layers p (generator X) n rs)) chs = Ret ds.
  elim: chs => [|ch chs [ds IH]] /=; first by exists [::].
  rewrite /open_query.
  have [|es [-> _]] := @open_entries ch p (generator X) n rs; first by rewrite Ss.
  by rewrite /= IH /=; eexists.
by rewrite ?bindRet omapM_roots /=; eexists.
Qed.

End FriComplete.
