(* What the FRI verifier decides, and what it does not (C10-C12, C14). *)
From Coq Require Import String Ascii NArith.
Set Warnings "-notation-overridden,-ambiguous-paths".
From mathcomp Require Import all_ssreflect all_algebra.
From mathcomp Require Import zify ring.
From Verif Require Import Base BaseLemmas ArkPoly ArkPolyLemmas ArkDomain ArkDomainLemmas
  FriModel FriMerkle FriTranscript FriFold FriComplete.

Set Implicit Arguments.
Unset Strict Implicit.
Unset Printing Implicit Defensive.

Import GRing.Theory.
Local Open Scope ring_scope.

Section FriSound.
Variables (F : fieldType) (X : fri_env F) (H : bytes -> bytes).
Implicit Types (c r : F) (t : transcript) (d : decommitment F).

Definition mp0 : merkle_proof F := MerkleProof 0 0 [::] 0.

(* number of layer entries of a decommitment that the verifier looks at *)
Definition checked_entries d (rs : seq F) : nat :=
  minn (minn (minn (minn (size (dc_evaluations d)) (size (dc_auth_paths d)))
             (size (dc_sym_evaluations d))) (size (dc_sym_auth_paths d))) (size rs).

(* the checks on layer entry j of a decommitment, for query index ch *)
Definition entry_accepted ch d (rs : seq F) (D : nat) (const_val c : F) (j : nat) : Prop :=
  let Dj := (D %/ 2 ^ j)%N in
  let cj := c ^+ (2 ^ j) in
  let index := (ch %% Dj)%N in
  let sym_index := ((index + Dj %/ 2) %% Dj)%N in
  let eval := nth 0 (dc_evaluations d) j in
  let sym_eval := nth 0 (dc_sym_evaluations d) j in
  let path := nth mp0 (dc_auth_paths d) j in
  let sym_path := nth mp0 (dc_sym_auth_paths d) j in
  let r := nth 0 rs j in
  (0 < Dj)%N /\
  exists2 dom, domain_new (fft X) Dj = Some dom &
  let w := dom_gen dom ^+ index * cj in
  [/\ mp_index path = index /\ mp_index sym_path = sym_index,
      mp_leaf_val path = eval /\ mp_leaf_val sym_path = sym_eval,
      verify_merkle_proof X path /\ verify_merkle_proof X sym_path,
      2%:R * w != 0 &
      (r + w) * eval / (2%:R * w) - (r - w) * sym_eval / (2%:R * w) =
      if j.+1 == size (dc_evaluations d) then const_val
      else nth 0 (dc_evaluations d) j.+1].

(* the same on one zipped entry *)
Definition step_accepted ch (evals : seq F) const_val i D c
  (e : F * merkle_proof F * F * merkle_proof F * F) : Prop :=
  let: (eval, path, sym_eval, sym_path, r) := e in
  let index := (ch %% D)%N in
  let sym_index := ((index + D %/ 2) %% D)%N in
  (0 < D)%N /\
  exists2 dom, domain_new (fft X) D = Some dom &
  let w := dom_gen dom ^+ index * c in
  [/\ mp_index path = index /\ mp_index sym_path = sym_index,
      mp_leaf_val path = eval /\ mp_leaf_val sym_path = sym_eval,
      verify_merkle_proof X path /\ verify_merkle_proof X sym_path,
      2%:R * w != 0 &
      (r + w) * eval / (2%:R * w) - (r - w) * sym_eval / (2%:R * w) =
      if i.+1 == size evals then const_val else nth 0 evals i.+1].

Definition e0 : F * merkle_proof F * F * merkle_proof F * F := (0, mp0, 0, mp0, 0).

Lemma verify_entries_cons ch evals const_val i D c e es : (i < size evals)%N ->
  verify_entries X ch evals const_val i D c (e :: es) = Ret tt <->
  step_accepted ch evals const_val i D c e /\
  (if i.+1 == size evals then verify_entries X ch evals const_val i.+1 D c es
   else verify_entries X ch evals const_val i.+1 (D %/ 2)%N (c ^+ 2) es) = Ret tt.
Proof.
move=> lt; case: e => [[[[ev pa] sv] sp] r].
rewrite [verify_entries _ _ _ _ _ _ _ _]/= /umod.
case: (posnP D) => [->|D0]; first by split=> // -[[]].
rewrite !bindRet /=.
case Ed: (domain_new _ _) => [dom|] /=; last by split=> // -[[_ []]].
have -> : (i != (size evals).-1) = ~~ (i.+1 == size evals).
  by rewrite -[in RHS](prednK (leq_ltn_trans (leq0n i) lt)).
split.
- case: ifP => // /negbT; rewrite negb_or !negbK => /andP[/eqP Ei /eqP Es].
  case: ifP => // /negbT; rewrite negb_or !negbK => /andP[/eqP Ev /eqP Esv].
  case: ifP => // /negbT; rewrite negb_or !negbK => /andP[Vp Vs].
  case: ifP => // /negbT w0.
  case: (boolP (i.+1 == size evals)) => Hi /=.
  + case: ifP => // /negbT; rewrite negbK => /eqP Eq Hrest; split=> //; split=> //.
    by exists dom => //; split=> //; split.
  + have lt1 : (i.+1 < size evals)%N by rewrite ltn_neqAle Hi.
    rewrite (index_at_Ret 0 lt1) bindRet.
    case: ifP => // /negbT; rewrite negbK => /eqP Eq Hrest; split=> //; split=> //.
    by exists dom => //; split=> //; split.
- case=> -[_ [dom' [<-]]] [[<- <-] [<- <-] [-> ->] w0 Eq]; rewrite !eqxx /=.
  rewrite (negbTE w0); case: (boolP (i.+1 == size evals)) Eq => Hi /= Eq.
  + by rewrite /dom_element Eq eqxx.
  + have lt1 : (i.+1 < size evals)%N by rewrite ltn_neqAle Hi.
    by rewrite (index_at_Ret 0 lt1) bindRet /dom_element Eq eqxx.
Qed.

Lemma verify_entries_iff ch evals const_val i D c es : (i + size es <= size evals)%N ->
  verify_entries X ch evals const_val i D c es = Ret tt <->
  forall j, (j < size es)%N ->
    step_accepted ch evals const_val (i + j) (D %/ 2 ^ j)%N (c ^+ (2 ^ j)) (nth e0 es j).
Proof.
elim: es i D c => [|e es IH] i D c //= le.
have lt : (i < size evals)%N by lia.
rewrite verify_entries_cons //.
case: eqP => Hi.
  have E0 : es = [::] by apply: size0nil; lia.
  rewrite E0 /=; split.
    by case=> Hs _ [|j] // _; rewrite addn0 divn1 expr1.
  by move=> /(_ 0%N isT); rewrite addn0 divn1 expr1.
rewrite IH; last by lia.
split.
- case=> Hs Hr [|j] lt' /=; first by rewrite addn0 divn1 expr1.
  by have := Hr j lt'; rewrite addSnnS -divnMA -exprM -expnS.
- move=> Hr; split; first by have := Hr 0%N isT; rewrite addn0 divn1 expr1.
  by move=> j lt'; have := Hr j.+1 lt'; rewrite addSnnS -divnMA -exprM -expnS.
Qed.

Lemma size_zipped d rs : size (zipped d rs) = checked_entries d rs.
Proof. by rewrite /zipped !size_zip. Qed.

Lemma nth_zip_lt (S T : Type) x y (s : seq S) (t : seq T) i :
  (i < size (zip s t))%N -> nth (x, y) (zip s t) i = (nth x s i, nth y t i).
Proof. by move=> lt; rewrite nth_zip_cond lt. Qed.

Lemma nth_zipped d rs j : (j < checked_entries d rs)%N ->
  nth e0 (zipped d rs) j =
  (nth 0 (dc_evaluations d) j, nth mp0 (dc_auth_paths d) j, nth 0 (dc_sym_evaluations d) j,
   nth mp0 (dc_sym_auth_paths d) j, nth 0 rs j).
Proof.
rewrite -size_zipped /zipped /e0 => lt.
rewrite nth_zip_lt //; move: lt; rewrite size_zip leq_min => /andP[lt _].
rewrite nth_zip_lt //; move: lt; rewrite size_zip leq_min => /andP[lt _].
rewrite nth_zip_lt //; move: lt; rewrite size_zip leq_min => /andP[lt _].
by rewrite nth_zip_lt.
Qed.

Lemma verify_query_iff ch d rs D const_val c :
  verify_query X ch d rs D const_val c = Ret tt <->
  forall j, (j < checked_entries d rs)%N -> entry_accepted ch d rs D const_val c j.
Proof.
rewrite /verify_query verify_entries_iff; last first.
  by rewrite add0n size_zipped /checked_entries; lia.
rewrite size_zipped; split=> Hj j lt; have := Hj j lt; rewrite nth_zipped //.
Qed.

Lemma ofold_unit (A : Type) (f : A -> outcome unit) (s : seq A) :
  ofold (fun _ a => f a) tt s = Ret tt <-> forall a, List.In a s -> f a = Ret tt.
Proof.
elim: s => [|a s IH] /=; first by split.
split.
- case Ea: (f a) => [[]| |] //= /IH Hs b [<-|/Hs] //.
- move=> Hs; rewrite Hs /=; last by left.
  by apply/IH => b Hb; apply: Hs; right.
Qed.

Definition d0 : decommitment F := Decommitment [::] [::] [::] [::].

Lemma fri_verify_iff (pf : fri_proof F) :
  fri_verify X H pf = Ret tt <->
  exists rs t raw t',
    [/\ regen_challenges X H (tr_new X H 0) (fp_layers_root pf) = Ret (rs, t),
        tr_challenges_usize X (tr_digest X H t (fp_const_val pf)) (fp_number_of_queries pf)
          = Ret (raw, t'),
        (0 < size raw -> 0 < fp_domain_size pf)%N &
        forall k, (k < size raw)%N -> (k < size (fp_decommitment_list pf))%N ->
        forall j, (j < checked_entries (nth d0 (fp_decommitment_list pf) k) rs)%N ->
          entry_accepted (nth 0%N raw k %% fp_domain_size pf)%N
            (nth d0 (fp_decommitment_list pf) k) rs (fp_domain_size pf)
            (fp_const_val pf) (fp_coset pf) j].
Proof.
rewrite /fri_verify; case Er: (regen_challenges _ _ _ _) => [[rs t]|e|] /=; last 2 first.
- by split=> // -[? [? [? [? []]]]].
- by split=> // -[? [? [? [? []]]]].
case Eq: (tr_challenges_usize _ _ _) => [[raw t']|e|] /=; last 2 first.
- by split=> // -[? [? [? [? [[<- <-]]]]]]; rewrite Eq.
- by split=> // -[? [? [? [? [[<- <-]]]]]]; rewrite Eq.
have [D0|D0] : fp_domain_size pf = 0%N \/ (0 < fp_domain_size pf)%N.
  by case: (fp_domain_size pf); [left|right].
  case: raw Eq => [|v raw] Eq.
    split=> _; first by exists rs, t, [::], t'.
    by rewrite /=; case: (fp_decommitment_list pf).
  rewrite [omapM _ _]/= D0 /=; split=> // -[? [? [? [? [[<- <-]]]]]].
  by rewrite Eq => -[<- _] /= /(_ isT).
rewrite (@omapM_total _ _ _ (fun v => (v %% fp_domain_size pf)%N)); last first.
  by move=> a _; rewrite /umod gtn_eqF.
rewrite bindRet.
rewrite (@ofold_unit _ (fun cd => verify_query X cd.1 cd.2 rs (fp_domain_size pf)
                                  (fp_const_val pf) (fp_coset pf))).
set ds := fp_decommitment_list pf.
have Sz : size (zip [seq (v %% fp_domain_size pf)%N | v <- raw] ds) = minn (size raw) (size ds).
  by rewrite size_zip size_map.
split.
- move=> Hs; exists rs, t, raw, t'; split=> // k lt1 lt2.
  apply/verify_query_iff.
  have := Hs (nth 0%N [seq (v %% fp_domain_size pf)%N | v <- raw] k, nth d0 ds k).
  rewrite /= (nth_map 0%N) //; apply.
  apply/(In_nth (0%N, d0)); exists k; first by rewrite Sz leq_min lt1.
  by rewrite nth_zip_lt ?Sz ?leq_min ?lt1 // (nth_map 0%N).
- case=> rs' [t1 [raw' [t1' [[<- <-]]]]]; rewrite Eq => -[<- _] _ Hk a.
  case/(In_nth (0%N, d0)) => k; rewrite Sz leq_min => /andP[lt1 lt2].
  rewrite nth_zip_lt ?Sz ?leq_min ?lt1 // (nth_map 0%N) // => <- /=.
  by apply/verify_query_iff => j; apply: Hk.
Qed.

(* ---- transcript totality on the verifier side ---- *)
Lemma regen_total t roots : digest_long H ->
  exists rs t', regen_challenges X H t roots = Ret (rs, t') /\ size rs = size roots.
Proof.
move=> Hl; elim: roots t => [|r roots IH] t; first by exists [::], t.
have [c E] := challenge_after_digest X t r Hl.
rewrite [regen_challenges _ _ _ _]/= E bindRet.
case: (IH (Transcript (tr_data (tr_digest X H t r)) (tr_index t).+1 true)) => rs [t' [-> Es]].
by exists (c :: rs), t'; rewrite /= Es.
Qed.

Lemma usize_total t m n : digest_long H ->
  exists raw t', tr_challenges_usize X (tr_digest X H t m) n = Ret (raw, t') /\ size raw = n.
Proof.
move=> Hl; rewrite /tr_challenges_usize /tr_challenges /tr_seed [tr_generated _]/=.
rewrite [tr_data _]/= [odflt _ _]/= ltnNge Hl /=.
by do 2!eexists; split; first by []; rewrite size_map size_mkseq.
Qed.

(* ---- C11: forged proofs for arbitrary roots ---- *)
Definition forged_path (v : F) (i : nat) : merkle_proof F := MerkleProof i v [::] (hash X v).

(* all opened values equal to v; single-node "trees" *)
Definition forged_decommitment (v : F) (n ch : nat) : decommitment F :=
  let D j := (2 ^ n %/ 2 ^ j)%N in
  Decommitment (nseq n v)
    (mkseq (fun j => forged_path v (ch %% D j)%N) n)
    (nseq n v)
    (mkseq (fun j => forged_path v ((ch %% D j + D j %/ 2) %% D j)%N) n).

Lemma forged_accepted v n ch rs c : fft_ok (fft X) -> c != 0 ->
  size rs = n -> (n <= two_adicity (fft X))%N ->
  verify_query X ch (forged_decommitment v n ch) rs (2 ^ n) v c = Ret tt.
Proof.
move=> ok c0 Ss leS; apply/verify_query_iff => j.
rewrite /checked_entries /= !size_nseq !size_mkseq Ss !minnn => lt.
rewrite /entry_accepted /=.
have ED : (2 ^ n %/ 2 ^ j = 2 ^ (n - j))%N.
  by rewrite -{1}(subnK (ltnW lt)) expnD mulnK // expn_gt0.
rewrite ED; split; first by rewrite expn_gt0.
have le2 : (n - j <= two_adicity (fft X))%N by lia.
exists (Domain (2 ^ (n - j)) (root_of_unity (fft X) (n - j))).
  by rewrite domain_newE le2.
rewrite !nth_mkseq // !nth_nseq lt /= ED; split=> //.
- by rewrite /verify_merkle_proof /= eqxx.
- rewrite mulf_neq0 ?(two_neq0 ok) // mulf_neq0 ?expf_neq0 //.
  exact: root_of_unity_neq0.
- rewrite size_nseq.
  have -> : (if j.+1 == n then v else if (j.+1 < n)%N then v else 0) = v.
    by case: eqP => // ne; case: ltnP => //; lia.
  set w := root_of_unity _ _ ^+ _ * c ^+ _.
  have w0 : w != 0 by rewrite mulf_neq0 ?expf_neq0 // root_of_unity_neq0.
  by field; rewrite w0 (two_neq0 ok).
Qed.

Lemma fri_forgery (roots : seq F) (v c : F) (nq : nat) :
  fft_ok (fft X) -> digest_long H -> c != 0 ->
  (size roots <= two_adicity (fft X))%N ->
  exists pf, [/\ fri_verify X H pf = Ret tt,
     [/\ fp_domain_size pf = (2 ^ size roots)%N, fp_coset pf = c,
         fp_number_of_queries pf = nq, fp_layers_root pf = roots & fp_const_val pf = v],
     size (fp_decommitment_list pf) = nq
   & forall d, List.In d (fp_decommitment_list pf) ->
       [/\ dc_evaluations d = nseq (size roots) v, dc_sym_evaluations d = nseq (size roots) v,
           size (dc_auth_paths d) = size roots, size (dc_sym_auth_paths d) = size roots
         & forall p, List.In p (dc_auth_paths d ++ dc_sym_auth_paths d) ->
             mp_root p = hash X v]].
Proof.
move=> ok Hl c0 leS.
have [rs [t [Er Ss]]] := regen_total (tr_new X H 0) roots Hl.
have [raw [t' [Eq Sq]]] := usize_total t v nq Hl.
pose ds := [seq forged_decommitment v (size roots) (ch %% 2 ^ size roots) | ch <- raw].
exists (FriProof (2 ^ size roots) c nq roots v ds); split=> //.
- apply/fri_verify_iff; exists rs, t, raw, t'; split=> //=.
    by rewrite expn_gt0.
  move=> k lt1 lt2.
  apply/verify_query_iff; rewrite /ds (nth_map 0%N) //.
  exact: forged_accepted.
- by rewrite /= size_map.
- move=> d /=; rewrite /ds => /List.in_map_iff[ch [<- _]]; split=> //=; rewrite ?size_mkseq //.
  move=> p /(List.in_app_iff _ _ p)[] /List.in_map_iff[j [<- _]] //.
Qed.

(* ---- C12 ---- *)
Lemma fri_accepts_no_decommitments (pf : fri_proof F) : digest_long H ->
  (0 < fp_domain_size pf)%N ->
  fri_verify X H (FriProof (fp_domain_size pf) (fp_coset pf) (fp_number_of_queries pf)
                   (fp_layers_root pf) (fp_const_val pf) [::]) = Ret tt.
Proof.
move=> Hl D0; apply/fri_verify_iff.
have [rs [t [Er Ss]]] := regen_total (tr_new X H 0) (fp_layers_root pf) Hl.
have [raw [t' [Eq Sq]]] := usize_total t (fp_const_val pf) (fp_number_of_queries pf) Hl.
by exists rs, t, raw, t'.
Qed.

Lemma fri_accepts_no_roots (pf : fri_proof F) : digest_long H ->
  (0 < fp_domain_size pf)%N -> fp_layers_root pf = [::] -> fri_verify X H pf = Ret tt.
Proof.
move=> Hl D0 E0; apply/fri_verify_iff.
have [raw [t' [Eq Sq]]] := usize_total (tr_new X H 0) (fp_const_val pf) (fp_number_of_queries pf) Hl.
exists [::], (tr_new X H 0), raw, t'; rewrite E0; split=> [//|//|//|k _ _ j].
by rewrite /checked_entries minn0.
Qed.

Lemma fri_drop_decommitments (pf : fri_proof F) m :
  fri_verify X H pf = Ret tt ->
  fri_verify X H (FriProof (fp_domain_size pf) (fp_coset pf) (fp_number_of_queries pf)
                   (fp_layers_root pf) (fp_const_val pf) (take m (fp_decommitment_list pf)))
  = Ret tt.
Proof.
case/fri_verify_iff => rs [t [raw [t' [Er Eq D0 Hk]]]]; apply/fri_verify_iff.
exists rs, t, raw, t'; split=> //= k lt1 lt2 j.
have lt3 : (k < m)%N by apply: leq_trans lt2 _; rewrite size_take_min geq_minl.
rewrite nth_take //; apply: Hk => //.
by apply: leq_trans lt2 _; rewrite size_take_min geq_minr.
Qed.

(* ---- C14: panics ---- *)
Lemma fri_panic_domain0 (pf : fri_proof F) : digest_long H ->
  fp_domain_size pf = 0%N -> (0 < fp_number_of_queries pf)%N -> fri_verify X H pf = Panic.
Proof.
move=> Hl D0 q0.
have [rs [t [Er Ss]]] := regen_total (tr_new X H 0) (fp_layers_root pf) Hl.
have [raw [t' [Eq Sq]]] := usize_total t (fp_const_val pf) (fp_number_of_queries pf) Hl.
rewrite /fri_verify Er bindRet Eq bindRet D0.
by case: raw Eq Sq q0 => [|v raw] //= _ <-.
Qed.

(* the first zipped entry of the first query *)
Lemma fri_verify_first (pf : fri_proof F) d ds : digest_long H ->
  (0 < fp_domain_size pf)%N -> (0 < fp_number_of_queries pf)%N ->
  fp_decommitment_list pf = d :: ds ->
  exists rs raw t t', [/\ regen_challenges X H (tr_new X H 0) (fp_layers_root pf) = Ret (rs, t),
    tr_challenges_usize X (tr_digest X H t (fp_const_val pf)) (fp_number_of_queries pf) = Ret (raw, t'),
    size rs = size (fp_layers_root pf), (0 < size raw)%N &
   (verify_query X (nth 0%N raw 0 %% fp_domain_size pf)%N d rs (fp_domain_size pf)
     (fp_const_val pf) (fp_coset pf) = Panic -> fri_verify X H pf = Panic)].
Proof.
move=> Hl D0 q0 Ed.
have [rs [t [Er Ss]]] := regen_total (tr_new X H 0) (fp_layers_root pf) Hl.
have [raw [t' [Eq Sq]]] := usize_total t (fp_const_val pf) (fp_number_of_queries pf) Hl.
exists rs, raw, t, t'; split=> //; first by rewrite Sq.
rewrite /fri_verify Er bindRet Eq bindRet.
rewrite (@omapM_total _ _ _ (fun v => (v %% fp_domain_size pf)%N)); last first.
  by move=> a _; rewrite /umod gtn_eqF.
by rewrite bindRet Ed; case: raw Eq Sq q0 => [|v raw] _ <- //= _ ->.
Qed.

(* domain beyond the two-adic subgroup *)
Lemma fri_panic_domain_large (pf : fri_proof F) d ds : digest_long H ->
  (2 ^ two_adicity (fft X) < fp_domain_size pf)%N -> (0 < fp_number_of_queries pf)%N ->
  fp_decommitment_list pf = d :: ds ->
  (0 < checked_entries d (fp_layers_root pf))%N ->
  fri_verify X H pf = Panic.
Proof.
move=> Hl DL q0 Ed ne.
have D0 : (0 < fp_domain_size pf)%N by apply: leq_ltn_trans DL.
have [rs [raw [t [t' [Er Eq Sr Sraw Hp]]]]] := fri_verify_first Hl D0 q0 Ed.
apply: Hp.
have : (0 < size (zipped d rs))%N by rewrite size_zipped /checked_entries Sr.
rewrite /verify_query; case: (zipped d rs) => // -[[[[ev pa] sv] sp] r] es _.
rewrite [verify_entries _ _ _ _ _ _ _ _]/= /umod gtn_eqF // !bindRet /domain_new.
have -> // : (up_log 2 (fp_domain_size pf) <= two_adicity (fft X))%N = false.
apply/negP => le; have := up_logP (fp_domain_size pf) (isT : (1 < 2)%N).
by move/leq_trans/(_ (leq_pexp2l (isT : (0 < 2)%N) le)); rewrite leqNgt DL.
Qed.

(* coset shift zero: division by zero once the earlier checks of the first
   entry pass *)
Lemma fri_panic_coset0 (pf : fri_proof F) d ds : digest_long H ->
  fp_coset pf = 0 ->
  (0 < fp_domain_size pf)%N -> (up_log 2 (fp_domain_size pf) <= two_adicity (fft X))%N ->
  (0 < fp_number_of_queries pf)%N ->
  fp_decommitment_list pf = d :: ds ->
  (0 < checked_entries d (fp_layers_root pf))%N ->
  (forall rs t raw t',
     regen_challenges X H (tr_new X H 0) (fp_layers_root pf) = Ret (rs, t) ->
     tr_challenges_usize X (tr_digest X H t (fp_const_val pf)) (fp_number_of_queries pf) = Ret (raw, t') ->
     let index := (nth 0%N raw 0 %% fp_domain_size pf)%N in
     let pa := nth mp0 (dc_auth_paths d) 0 in
     let sp := nth mp0 (dc_sym_auth_paths d) 0 in
     [/\ mp_index pa = index, mp_index sp = ((index + fp_domain_size pf %/ 2) %% fp_domain_size pf)%N,
         mp_leaf_val pa = nth 0 (dc_evaluations d) 0, mp_leaf_val sp = nth 0 (dc_sym_evaluations d) 0
       & verify_merkle_proof X pa /\ verify_merkle_proof X sp]) ->
  fri_verify X H pf = Panic.
Proof.
move=> Hl C0 D0 DS q0 Ed ne Hchk.
have [rs [raw [t [t' [Er Eq Sr Sraw Hp]]]]] := fri_verify_first Hl D0 q0 Ed.
apply: Hp.
have lt : (0 < checked_entries d rs)%N by move: ne; rewrite /checked_entries Sr.
have := nth_zipped lt.
move: lt; rewrite -size_zipped /verify_query; case: (zipped d rs) => // e es _ /= ->.
have [Ip Is Vp Vs [Kp Ks]] := Hchk _ _ _ _ Er Eq.
rewrite /umod gtn_eqF // !bindRet /domain_new DS /=.
rewrite modn_mod -{1}Ip -Is Vp Vs !eqxx Kp Ks /= C0 !mulr0 eqxx.
by [].
Qed.

End FriSound.
