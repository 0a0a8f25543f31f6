(* The FRI properties C01-C17 as theorems, in the vocabulary of FriSpec.v. *)
From Coq Require Import String Ascii NArith.
Set Warnings "-notation-overridden,-ambiguous-paths".
From mathcomp Require Import all_ssreflect all_algebra.
From mathcomp Require Import zify ring.
From Verif Require Import Base BaseLemmas ArkPoly ArkPolyLemmas ArkDomain ArkDomainLemmas.
From Verif Require Import FriModel FriSpec FriMerkle FriTranscript FriFold FriComplete FriSound.
From Verif Require Import FriSpecLemmas.

Set Implicit Arguments.
Unset Strict Implicit.
Unset Printing Implicit Defensive.

Import GRing.Theory.
Local Open Scope ring_scope.
Local Opaque le_bytes.

(* ------------------------------------------------------------------ *)
(* C01: Merkle opening completeness. *)
Theorem C01_merkle_completeness (F : fieldType) (X : fri_env F) (l : seq F) (k i : nat) :
  size l = (2 ^ k)%N -> (i < size l)%N ->
  exists p,
    [/\ mt_generate_proof (mt_new X l) i = Ret p,
        mp_index p = i /\ mp_leaf_val p = nth 0 l i,
        mp_root p = merkle_root X k l /\ mt_root (mt_new X l) = Ret (merkle_root X k l),
        size (mp_hash_proof p) = k
      & verify_merkle_proof X p].
Proof.
move=> Sl lt; have [p [[E1 E2 E3 E4 E5] E6]] := merkle_complete X Sl lt.
have E7 := mt_root_spec X Sl; exists p; split=> //; split=> //.
by move: E4; rewrite E7 => -[].
Qed.

(* C02: openings outside power-of-two sizes. *)
Theorem C02_last_leaf_panics (F : fieldType) (X : fri_env F) (l : seq F) :
  (0 < size l)%N -> (forall k, size l <> (2 ^ k)%N) ->
  mt_generate_proof (mt_new X l) (size l).-1 = Panic.
Proof.
move=> gt np; apply: merkle_last_panics => //.
by apply/negP => /is_pow2P[k /np].
Qed.

Theorem C02_all_open_iff_power_of_two (F : fieldType) (X : fri_env F) (l : seq F) :
  (0 < size l)%N ->
  (forall i, (i < size l)%N -> exists p, mt_generate_proof (mt_new X l) i = Ret p)
  <-> (exists k, size l = (2 ^ k)%N).
Proof.
move=> gt; rewrite (merkle_open_all_iff X gt); split=> [/is_pow2P[k ->]|[k E]].
  by exists k.
by apply/is_pow2P; exists k.
Qed.

Theorem C02_out_of_range_panics (F : fieldType) (X : fri_env F) (l : seq F) (i : nat) :
  (exists2 k, (size l <= 2 ^ k)%N & (2 ^ k <= i)%N) ->
  mt_generate_proof (mt_new X l) i = Panic.
Proof.
case=> k le1 le2; apply: merkle_oob_panics; rewrite /next_power_of_two.
apply: leq_trans le2; rewrite leq_exp2l //; exact: up_log_min.
Qed.

Theorem C02_empty_root_panics (F : fieldType) (X : fri_env F) :
  mt_root (mt_new X [::]) = Panic.
Proof. exact: merkle_empty_root_panics. Qed.

(* C03: binding. The colliding pair is read off the node inputs of the two
   proofs at the same level, or is the pair of leaves. *)
Theorem C03_merkle_binding (F : fieldType) (X : fri_env F) (p q : merkle_proof F) :
  verify_merkle_proof X p -> verify_merkle_proof X q ->
  mp_root p = mp_root q -> mp_index p = mp_index q ->
  size (mp_hash_proof p) = size (mp_hash_proof q) ->
  p = q \/
  (mp_leaf_val p <> mp_leaf_val q /\ hash X (mp_leaf_val p) = hash X (mp_leaf_val q)) \/
  exists2 j, (j < size (mp_hash_proof p))%N &
    let a := nth (0, 0) (node_inputs X (mp_index p) (hash X (mp_leaf_val p)) (mp_hash_proof p)) j in
    let b := nth (0, 0) (node_inputs X (mp_index q) (hash X (mp_leaf_val q)) (mp_hash_proof q)) j in
    a <> b /\ hash_slice X [:: a.1; a.2] = hash_slice X [:: b.1; b.2].
Proof. exact: merkle_binding. Qed.

Theorem C03_high_index_bits_ignored (F : fieldType) (X : fri_env F) (p : merkle_proof F) (m : nat) :
  verify_merkle_proof X (MerkleProof (mp_index p + m * 2 ^ size (mp_hash_proof p))
                          (mp_leaf_val p) (mp_hash_proof p) (mp_root p))
  = verify_merkle_proof X p.
Proof. by rewrite /verify_merkle_proof /= climb_high_bits. Qed.

(* C04: hashing concatenates decimal forms. *)
Theorem C04_equal_concatenation_collides (F : fieldType) (X : fri_env F) (a b : seq F) :
  flatten [seq to_string X x | x <- a] = flatten [seq to_string X x | x <- b] ->
  hash_slice X a = hash_slice X b.
Proof. by rewrite /hash_slice => ->. Qed.

Lemma decimal_Fp (p n : nat) : prime p -> (n < p)%N -> ((n%:R : 'F_p) : nat) = n.
Proof. by move=> pp lt; rewrite val_Fp_nat // modn_small. Qed.

(* the printing of the field is the decimal form (empty for zero) *)
Theorem C04_decimal_collisions (p : nat) (X : fri_env [fieldType of 'F_p]) :
  prime p -> (123 < p)%N -> (forall x : 'F_p, to_string X x = decimal x) ->
  [/\ hash_slice X [:: 1%:R; 23%:R] = hash_slice X [:: 12%:R; 3%:R],
      ([:: 1%:R; 23%:R] != [:: 12%:R; 3%:R] :> seq 'F_p),
      hash_slice X [:: 1%:R; 23%:R] = hash X 123%:R
    & forall x, hash_slice X [:: 0; x] = hash X x /\ hash_slice X [:: x; 0] = hash X x].
Proof.
move=> pp lt Hs.
have E n : (n <= 123)%N -> to_string X n%:R = decimal n.
  by move=> le; rewrite Hs decimal_Fp //; exact: leq_ltn_trans lt.
rewrite /hash_slice /hash [map _ _]/= [map _ _]/= !E //.
have E1 : (1%:R : 'F_p) != 12%:R.
  apply/negP => /eqP/(congr1 (@nat_of_ord _)); rewrite !decimal_Fp //; exact: leq_trans lt.
split=> //; first by rewrite eqseq_cons (negbTE E1).
move=> x /=; have -> : to_string X 0 = [::] by rewrite Hs.
by rewrite !cats0.
Qed.

(* leaf/node confusion: a value that prints like the concatenation of two
   hashes opens, with a one shorter path, wherever their node does *)
Theorem C04_leaf_node_confusion (F : fieldType) (X : fri_env F) (p : merkle_proof F) nb path v :
  mp_hash_proof p = nb :: path -> verify_merkle_proof X p ->
  to_string X v =
    (if odd (mp_index p) then to_string X nb ++ to_string X (hash X (mp_leaf_val p))
     else to_string X (hash X (mp_leaf_val p)) ++ to_string X nb) ->
  verify_merkle_proof X (MerkleProof (mp_index p %/ 2) v path (mp_root p)).
Proof.
rewrite /verify_merkle_proof => -> /=; rewrite modn2 eqb0 /hash_slice /= !cats0.
by move=> V E; rewrite [hash X v]/hash E; case: (odd _) V.
Qed.

(* ------------------------------------------------------------------ *)
(* C05: folding. *)
Theorem C05_fold_identity (F : fieldType) (p : seq F) (r : F) :
  [/\ Poly (fold_polynomial p r) = fold_poly (Poly p) r,
      (size (fold_polynomial p r) <= uphalf (size p))%N,
      last 1 (fold_polynomial p r) != 0
    & 2%:R != 0 :> F -> forall x, x != 0 ->
      (Poly (fold_polynomial p r)).[x ^+ 2] =
      ((Poly p).[x] + (Poly p).[- x]) / 2%:R + r * (((Poly p).[x] - (Poly p).[- x]) / (2%:R * x))].
Proof.
split; rewrite ?fold_spec ?fold_size //.
  by rewrite -(fold_trim p r) trimE; case: (Poly _).
by move=> two x x0; rewrite -fold_spec -!pevalE fold_identity.
Qed.

(* C06: layers. *)
Theorem C06_layer_contents (F : fieldType) (X : fri_env F) (p : seq F) (c : F) (D : nat) :
  let n := up_log 2 D in
  if (n <= two_adicity (fft X))%N then
    exists l, [/\ layer_from_poly X p c D = Ret l,
                  fl_evaluations l = coset_values X (Poly p) c n,
                  mt_root (fl_merkle_tree l) = Ret (merkle_root X n (coset_values X (Poly p) c n)),
                  fl_coset l = c & fl_domain_size l = D]
  else layer_from_poly X p c D = Panic.
Proof.
move=> n; case: ifP => le; rewrite /layer_from_poly /domain_new -/n le //=.
have E : [seq peval p (root * c) | root <- dom_elements (Domain (2 ^ n) (root_of_unity (fft X) n))]
  = coset_values X (Poly p) c n.
  by rewrite -coset_evals_spec /coset_evals /dom_elements -map_comp.
rewrite E; eexists; split; try reflexivity; rewrite /=.
by rewrite (@mt_root_spec _ _ n) // size_mkseq.
Qed.

Theorem C06_opposite_points (F : fieldType) (X : fri_env F) (f : {poly F}) (c : F) (n i : nat) :
  fft_consts_ok X -> (n < two_adicity (fft X))%N -> (i < 2 ^ n)%N ->
  let w := omega X n.+1 in
  [/\ w ^+ (i + 2 ^ n) * c = - (w ^+ i * c),
      nth 0 (coset_values X f c n.+1) i = f.[w ^+ i * c]
    & nth 0 (coset_values X f c n.+1) (i + 2 ^ n) = f.[- (w ^+ i * c)]].
Proof.
move=> ok lt li w.
have E : w ^+ (i + 2 ^ n) * c = - (w ^+ i * c).
  by rewrite exprD /w omegaE (root_of_unity_half ok lt) mulrN1 mulNr.
by split=> //; rewrite nth_mkseq -?E // expnS mul2n -addnn; lia.
Qed.

(* ------------------------------------------------------------------ *)
(* C07: completeness. *)
Theorem C07_fri_completeness (F : fieldType) (X : fri_env F) (H : bytes -> bytes)
  (p : seq F) (blowup nq : nat) (pf : fri_proof F) :
  fft_consts_ok X -> generator X != 0 ->
  fri_generate_proof X H p blowup nq = Ret pf -> fri_verify X H pf = Ret tt.
Proof. by move=> ok; apply: fri_completeness. Qed.

(* C08: when proof generation panics. *)
Theorem C08_generate_panics_iff (F : fieldType) (X : fri_env F) (H : bytes -> bytes)
  (p : seq F) (blowup nq : nat) :
  fft_consts_ok X -> digest_8_bytes H ->
  let n := up_log 2 (size p * blowup)%N in
  (fri_generate_proof X H p blowup nq = Panic <->
   [\/ n = 0%N, (two_adicity (fft X) < n)%N
     | exists2 roots, honest_root_list X H (Poly p) (generator X) n roots
         & folded X H (Poly p) roots n = 0]) /\
  (fri_generate_proof X H p blowup nq <> Panic ->
   exists pf, fri_generate_proof X H p blowup nq = Ret pf).
Proof.

move=> ok Hl n.
case: (posnP n) => [n0|n_gt0].
  have EP : fri_generate_proof X H p blowup nq = Panic.
    by apply: fri_generate_panic_small; rewrite /next_power_of_two -/n n0.
  by split=> //; split=> // _; constructor 1.
case: (ltnP (two_adicity (fft X)) n) => [lt|le].
  have EP : fri_generate_proof X H p blowup nq = Panic.
    by apply: fri_generate_panic_large; rewrite /next_power_of_two -/n ltn_exp2l.
  by split=> //; split=> // _; constructor 2.
have [rs [t' [Sr Eh Sc HP HR]]] := fri_generate_decide (X := X) nq Hl n_gt0 le.
have [HH Ers _ Hf] := honest_spec Hl Sr Eh; rewrite -/n in Sr HH Ers Hf.
have Efold : Poly (fold_all p rs) = folded X H (Poly p) (honest_roots X p (generator X) n rs) n.
  by rewrite -Hf // take_oversize // Sr.
have E0 : fold_all p rs = [::] <-> Poly (fold_all p rs) = 0.
  rewrite -{1}fold_all_trim ?Sr // trimE; split=> [E|->]; last by rewrite polyseq0.
  by apply/eqP; rewrite -nil_poly E.
split; last first.
  by move=> nP; apply: HR => /HP.
split=> [EP|[E|lt|[roots Hr Hz]]].
- constructor 3; exists (honest_roots X p (generator X) n rs) => //.
  rewrite -Efold; apply/E0; case E: (fold_all p rs) HR => // [a s] HR.
  by case: HR => // pf; rewrite EP.
- by rewrite E in n_gt0.
- by [].
by apply/HP/E0; rewrite Efold (honest_root_list_uniq HH Hr).
Qed.

(* C09: shape of a generated proof. *)
Theorem C09_proof_shape (F : fieldType) (X : fri_env F) (H : bytes -> bytes)
  (p : seq F) (blowup nq : nat) (pf : fri_proof F) :
  fft_consts_ok X -> digest_8_bytes H ->
  fri_generate_proof X H p blowup nq = Ret pf ->
  let n := up_log 2 (size p * blowup)%N in
  let roots := fp_layers_root pf in
  let f := folded X H (Poly p) roots in
  [/\ (0 < n <= two_adicity (fft X))%N,
      [/\ fp_domain_size pf = (2 ^ n)%N, fp_coset pf = generator X & fp_number_of_queries pf = nq],
      honest_root_list X H (Poly p) (generator X) n roots,
      f n = (fp_const_val pf)%:P /\ fp_const_val pf != 0
    & size (fp_decommitment_list pf) = nq /\
      forall k, (k < nq)%N ->
      let d := nth (deco0 F) (fp_decommitment_list pf) k in
      let q := (fri_query X H roots (fp_const_val pf) k %% 2 ^ n)%N in
      [/\ size (dc_evaluations d) = n /\ size (dc_sym_evaluations d) = n,
          size (dc_auth_paths d) = n /\ size (dc_sym_auth_paths d) = n
        & forall j, (j < n)%N ->
          let i := (q %% 2 ^ (n - j))%N in
          let x := omega X (n - j) ^+ i * generator X ^+ (2 ^ j) in
          let path := nth (path0 F) (dc_auth_paths d) j in
          let spath := nth (path0 F) (dc_sym_auth_paths d) j in
          [/\ nth 0 (dc_evaluations d) j = (f j).[x],
              nth 0 (dc_sym_evaluations d) j = (f j).[- x],
              [/\ mp_index path = i, mp_leaf_val path = (f j).[x],
                  mp_root path = nth 0 roots j, verify_merkle_proof X path
                & size (mp_hash_proof path) = (n - j)%N]
            & [/\ mp_index spath = ((i + 2 ^ (n - j) %/ 2) %% 2 ^ (n - j))%N,
                  mp_leaf_val spath = (f j).[- x],
                  mp_root spath = nth 0 roots j, verify_merkle_proof X spath
                & size (mp_hash_proof spath) = (n - j)%N]]]].
Proof.
move=> ok Hl /fri_generate_shape[rs [t' [raw [t'' [ess]]]]].
set n := up_log 2 _ => -[[Sr n0 leS Sc] [ED EC Eq Eroots Ec] Eh Eraw [Se He Ed]].
move=> n1 roots f; rewrite {}/n1.
have [HH Ers Ht Hf] := honest_spec Hl Sr Eh.
rewrite -Eroots -/roots in HH Ers Ht Hf.
have Eraw' := usize_spec Hl Ht Eraw.
have Sraw : size raw = nq by rewrite Eraw' size_mkseq.
have Efn : Poly (fold_all p rs) = f n by rewrite /f -Hf // -Sr take_size.
have [a [Ea a0]] : exists a, fold_all p rs = [:: a] /\ a != 0.
  have := @fold_all_trim F p rs; rewrite Sr n0 => /(_ isT).
  case: (fold_all p rs) Sc => [|a [|? ?]] //= _ Ea; exists a; split=> //.
  by move: Ea; case: eqP.
split=> //; first by rewrite n0 leS.
  by rewrite -Efn Ec Ea pevalE [Poly _]/= cons_poly_def mul0r add0r hornerC.
split; first by rewrite Ed size_map Se Sraw.
move=> k lt; pose d := nth (deco0 F) (fp_decommitment_list pf) k.
pose q := (fri_query X H roots (fp_const_val pf) k %% 2 ^ n)%N; rewrite -/d -/q.
have ltr : (k < size raw)%N by rewrite Sraw.
have := He k ltr.
have -> : (nth 0%N raw k %% 2 ^ n)%N = q.
  by rewrite Eraw' nth_mkseq.
rewrite /d Ed (nth_map [::]) ?Se //.
set es := nth [::] ess k => Hes.
have Ses := entries_ok_size Hes.
rewrite !size_map Ses Sr; split=> // j ltj.
pose i := (q %% 2 ^ (n - j))%N.
pose x := omega X (n - j) ^+ i * generator X ^+ (2 ^ j); rewrite -/i -/x.
pose e0' := (0 : F, 0 : F, path0 F, path0 F).
have := entries_ok_nth e0' Hes; rewrite Sr => /(_ j ltj).
have Eroot : layer_root X (fold_all p (take j rs)) (generator X ^+ (2 ^ j)) (n - j) = nth 0 roots j.
  by rewrite /roots Eroots nth_honest_roots ?Sr.
rewrite /entry_ok Eroot !pevalE Hf 1?ltnW // -/f.
have nj : (0 < n - j)%N by rewrite subn_gt0.
have njS : (n - j <= two_adicity (fft X))%N by apply: leq_trans leS; exact: leq_subr.
rewrite (opposite_point ok _ nj njS) -omegaE mulNr -/i -/x.
have -> : (2 ^ (n - j) %/ 2 = 2 ^ (n - j).-1)%N.
  by case: (n - j)%N nj => // m _; rewrite expnS mulKn.
by rewrite /= !(nth_map e0') ?Ses ?Sr.
Qed.

(* C10: the verifier's decision. *)
Theorem C10_verifier_decision (F : fieldType) (X : fri_env F) (H : bytes -> bytes)
  (pf : fri_proof F) :
  digest_8_bytes H -> fri_verify X H pf = Ret tt <-> verifier_accepts X H pf.
Proof.
move=> Hl; rewrite fri_verify_iff /verifier_accepts.
have [rs [t [Er Ss]]] := regen_total X (tr_new X H 0) (fp_layers_root pf) Hl.
have [raw [t' [Eq Sq]]] := usize_total X t (fp_const_val pf) (fp_number_of_queries pf) Hl.
have [Ers Ht] := regen0_spec Hl Er; have Eraw := usize_spec Hl Ht Eq.
have Hent k j : (k < size raw)%N ->
  let d := nth (d0 F) (fp_decommitment_list pf) k in
  (j < checked_entries d rs)%N ->
  entry_accepted X (nth 0%N raw k %% fp_domain_size pf) d rs (fp_domain_size pf)
    (fp_const_val pf) (fp_coset pf) j <->
  layer_check X H pf d
    (fri_query X H (fp_layers_root pf) (fp_const_val pf) k %% fp_domain_size pf) j.
  move=> ltk d ltj; rewrite /entry_accepted /layer_check.
  have -> : nth 0 rs j = fri_challenge X H (fp_layers_root pf) j.
    rewrite Ers nth_mkseq // -Ss; apply: leq_trans ltj _; exact: geq_minr.
  have -> : nth 0%N raw k = fri_query X H (fp_layers_root pf) (fp_const_val pf) k.
    by rewrite Eraw nth_mkseq // -Sq.
  rewrite /domain_new omegaE /mp0 /path0.
  case: (leqP (up_log 2 _) (two_adicity _)) => le.
    split=> [[D0 [dom Edom]]|[[D0 _] ? ? ? [? ?]]].
      by injection Edom => Ed; rewrite -Ed => -[].
    by split=> //; eexists; [reflexivity|split].
  by split=> [[_ [] //]|[[_ //]]].
have Epair k : let d := nth (d0 F) (fp_decommitment_list pf) k in
  checked_entries d rs = paired d (fp_layers_root pf).
  by rewrite /checked_entries /paired Ss.
split.
  case=> rs1 [t1 [raw1 [t1' [Er1 Eq1 HD Hk]]]].
  move: Er1; rewrite Er => -[E1 E2]; subst rs1 t1.
  move: Eq1; rewrite Eq => -[E1 E2]; subst raw1 t1'.
  split; first by rewrite -Sq.
  move=> k lt1 lt2 d q j ltj.
  apply/Hent; rewrite ?Sq // -?Epair //; first by rewrite Epair.
  by apply: Hk; rewrite ?Sq // Epair.
case=> HD Hk; exists rs, t, raw, t'; split=> //; first by rewrite Sq.
move=> k lt1 lt2 j ltj; apply/Hent => //.
by apply: Hk; rewrite -?Sq // -Epair.
Qed.

(* C11: acceptance does not tie the opened values to the published roots: for
   any roots and constant there is an accepted proof whose opened values are
   all that constant and whose paths all end in its leaf hash. *)
Theorem C11_roots_not_authenticated (F : fieldType) (X : fri_env F) (H : bytes -> bytes)
  (roots : seq F) (v c : F) (nq : nat) :
  fft_consts_ok X -> digest_8_bytes H -> c != 0 ->
  (size roots <= two_adicity (fft X))%N ->
  exists pf, [/\ fri_verify X H pf = Ret tt,
     [/\ fp_domain_size pf = (2 ^ size roots)%N, fp_coset pf = c,
         fp_number_of_queries pf = nq, fp_layers_root pf = roots & fp_const_val pf = v],
     size (fp_decommitment_list pf) = nq
   & forall d, List.In d (fp_decommitment_list pf) ->
       [/\ dc_evaluations d = nseq (size roots) v, dc_sym_evaluations d = nseq (size roots) v,
           size (dc_auth_paths d) = size roots, size (dc_sym_auth_paths d) = size roots
         & forall p, List.In p (dc_auth_paths d ++ dc_sym_auth_paths d) ->
             mp_root p = hash X v]].
Proof. exact: fri_forgery. Qed.

(* ... so when no published root is the leaf hash of v, no opened path ends in
   a published root. *)
Theorem C11_no_path_ends_in_a_root (F : fieldType) (X : fri_env F) (H : bytes -> bytes)
  (roots : seq F) (v c : F) (nq : nat) :
  fft_consts_ok X -> digest_8_bytes H -> c != 0 ->
  (size roots <= two_adicity (fft X))%N -> hash X v \notin roots ->
  exists pf, [/\ fri_verify X H pf = Ret tt, fp_layers_root pf = roots,
      fp_const_val pf = v, size (fp_decommitment_list pf) = nq
    & forall d p, List.In d (fp_decommitment_list pf) ->
        List.In p (dc_auth_paths d ++ dc_sym_auth_paths d) -> mp_root p \notin roots].
Proof.
move=> ok Hl c0 le nin; have [pf [V [_ _ _ Er Ec] Sd Hd]] := fri_forgery (X := X) v nq ok Hl c0 le.
by exists pf; split=> // d p /Hd[_ _ _ _ Hp] /Hp ->.
Qed.

(* C12 *)
Theorem C12_no_decommitments_accepted (F : fieldType) (X : fri_env F) (H : bytes -> bytes)
  (D : nat) (c v : F) (nq : nat) (roots : seq F) :
  digest_8_bytes H -> (0 < D)%N ->
  fri_verify X H (FriProof D c nq roots v [::]) = Ret tt.
Proof.
by move=> Hl D0; exact: (@fri_accepts_no_decommitments _ X H (FriProof D c nq roots v [::]) Hl D0).
Qed.

Theorem C12_no_roots_accepted (F : fieldType) (X : fri_env F) (H : bytes -> bytes)
  (D : nat) (c v : F) (nq : nat) (ds : seq (decommitment F)) :
  digest_8_bytes H -> (0 < D)%N ->
  fri_verify X H (FriProof D c nq [::] v ds) = Ret tt.
Proof. by move=> Hl D0; apply: fri_accepts_no_roots. Qed.

Theorem C12_dropping_decommitments (F : fieldType) (X : fri_env F) (H : bytes -> bytes)
  (D : nat) (c v : F) (nq : nat) (roots : seq F) (ds ds' : seq (decommitment F)) :
  fri_verify X H (FriProof D c nq roots v (ds ++ ds')) = Ret tt ->
  fri_verify X H (FriProof D c nq roots v ds) = Ret tt.
Proof. by move/(@fri_drop_decommitments _ X H _ (size ds)); rewrite /= take_size_cat. Qed.

(* C13: no degree bound. For every k and every polynomial with more than
   2^(k-1) and up to 2^k coefficients whose total fold does not vanish, blow-up
   1 gives an accepted proof with domain 2^k and k roots - the same domain
   and the same number of roots as a polynomial with only 2^k/b coefficients
   at blow-up b. *)
Theorem C13_no_degree_bound (F : fieldType) (X : fri_env F) (H : bytes -> bytes)
  (p : seq F) (k nq : nat) :
  fft_consts_ok X -> digest_8_bytes H -> generator X != 0 ->
  (0 < k <= two_adicity (fft X))%N -> (2 ^ k.-1 < size p <= 2 ^ k)%N ->
  (forall roots, honest_root_list X H (Poly p) (generator X) k roots ->
                 folded X H (Poly p) roots k != 0) ->
  exists pf, [/\ fri_generate_proof X H p 1 nq = Ret pf, fri_verify X H pf = Ret tt,
                 fp_domain_size pf = (2 ^ k)%N, size (fp_layers_root pf) = k
               & forall q b pf', (0 < b)%N -> (size q * b = 2 ^ k)%N ->
                   fri_generate_proof X H q b nq = Ret pf' ->
                   [/\ fp_domain_size pf' = fp_domain_size pf, fp_coset pf' = fp_coset pf,
                       size (fp_layers_root pf') = size (fp_layers_root pf)
                     & fri_verify X H pf' = Ret tt]].
Proof.
move=> ok Hl g0 /andP[k0 kS] /andP[lo hi] Hz.
have En : up_log 2 (size p * 1) = k.
  by rewrite muln1 -(prednK k0); apply: up_log_eq; rewrite // lo prednK.
have [/= Hiff Hret] := C08_generate_panics_iff p 1 nq ok Hl; rewrite En in Hiff Hret.
have [|pf Epf] := Hret.
  move/Hiff => [E0|lt|[roots Hr E0]]; [by rewrite E0 in k0|by rewrite ltnNge kS in lt|].
  by have := Hz _ Hr; rewrite E0 eqxx.
have [/= _ [ED EC _] [Sr _] _ _] := C09_proof_shape ok Hl Epf; rewrite En in ED Sr.
exists pf; split=> //; first exact: C07_fri_completeness Epf.
move=> q b pf' b0 Eq Epf'.
have [/= _ [ED' EC' _] [Sr' _] _ _] := C09_proof_shape ok Hl Epf'.
rewrite Eq up_expnK // in ED' Sr'.
by split; rewrite ?ED' ?EC' ?Sr' ?ED ?EC ?Sr //; exact: C07_fri_completeness Epf'.
Qed.

(* C14: panics of the verifier. *)
Theorem C14_domain_zero_panics (F : fieldType) (X : fri_env F) (H : bytes -> bytes)
  (c v : F) (nq : nat) (roots : seq F) (ds : seq (decommitment F)) :
  digest_8_bytes H -> (0 < nq)%N ->
  fri_verify X H (FriProof 0 c nq roots v ds) = Panic.
Proof. by move=> Hl q0; apply: fri_panic_domain0. Qed.

Theorem C14_domain_too_large_panics (F : fieldType) (X : fri_env F) (H : bytes -> bytes)
  (D : nat) (c v : F) (nq : nat) (roots : seq F) (d : decommitment F) ds :
  digest_8_bytes H -> (2 ^ two_adicity (fft X) < D)%N -> (0 < nq)%N ->
  (0 < paired d roots)%N ->
  fri_verify X H (FriProof D c nq roots v (d :: ds)) = Panic.
Proof. by move=> Hl lt q0 Hp; apply: (@fri_panic_domain_large _ X H _ d ds). Qed.

Theorem C14_coset_zero_panics (F : fieldType) (X : fri_env F) (H : bytes -> bytes)
  (D : nat) (v : F) (nq : nat) (roots : seq F) (d : decommitment F) ds :
  digest_8_bytes H -> (0 < D)%N -> (D <= 2 ^ two_adicity (fft X))%N -> (0 < nq)%N ->
  (0 < paired d roots)%N ->
  (let i := (fri_query X H roots v 0 %% D)%N in
   let path := nth (path0 F) (dc_auth_paths d) 0 in
   let spath := nth (path0 F) (dc_sym_auth_paths d) 0 in
   [/\ mp_index path = i, mp_index spath = ((i + D %/ 2) %% D)%N,
       mp_leaf_val path = nth 0 (dc_evaluations d) 0,
       mp_leaf_val spath = nth 0 (dc_sym_evaluations d) 0
     & verify_merkle_proof X path /\ verify_merkle_proof X spath]) ->
  fri_verify X H (FriProof D 0 nq roots v (d :: ds)) = Panic.
Proof.
move=> Hl D0 DS q0 Hp Hc.
apply: (@fri_panic_coset0 _ X H _ d ds) => //=.
  by apply: up_log_min.
move=> rs t raw t' Er Eq.
have [Ers Ht] := regen0_spec Hl Er; have Eraw := usize_spec Hl Ht Eq.
by have -> : nth 0%N raw 0 = fri_query X H roots v 0 by rewrite Eraw nth_mkseq.
Qed.

(* ------------------------------------------------------------------ *)
(* C15: a history of transcript calls panics exactly when two challenge calls
   have no digest between them; otherwise every result is the function
   `tr_spec` of the messages digested before the call. *)
Theorem C15_transcript_history (F : fieldType) (X : fri_env F) (H : bytes -> bytes)
  (m0 : F) (ops : seq (tr_op F)) :
  digest_8_bytes H ->
  (tr_run X H (tr_new X H m0) ops = Panic <-> starved ops) /\
  (~ starved ops ->
   exists t, tr_run X H (tr_new X H m0) ops = Ret (tr_spec X H [:: m0] ops, t)).
Proof.
move=> Hl; split; first exact: tr_history_panics.
move=> ns; case E: (tr_run X H (tr_new X H m0) ops) => [[outs t]|e|].
- by have := tr_run_spec Hl (holds_new X H m0) E => ->; exists t.
- by have := no_err_tr_run X H (tr_new X H m0) ops; rewrite E.
- by case: ns; apply/(tr_history_panics X m0 ops Hl).
Qed.

(* C16: binding of the hash state. *)
Theorem C16_transcript_binding (F : fieldType) (X : fri_env F) (H : bytes -> bytes) (L : nat)
  (m1 m2 : F) (ops1 ops2 : seq (tr_op F)) outs1 outs2 t1 t2 :
  (8 <= L)%N -> (forall b, size (H b) = L) ->
  injective (to_string X) -> (forall x, zero \notin to_string X x) ->
  (size (m1 :: digested ops1) < 2 ^ 56)%N -> (size (m2 :: digested ops2) < 2 ^ 56)%N ->
  tr_run X H (tr_new X H m1) ops1 = Ret (outs1, t1) ->
  tr_run X H (tr_new X H m2) ops2 = Ret (outs2, t2) ->
  tr_data t1 = tr_data t2 ->
  m1 :: digested ops1 = m2 :: digested ops2 \/
  exists a b, [/\ a \in chain_inputs X H (m1 :: digested ops1),
                  b \in chain_inputs X H (m2 :: digested ops2), a != b & H a = H b].
Proof.
move=> L8 Hlen inj nul lt1 lt2 R1 R2 Ed.
have Hl : digest_long H by move=> b; rewrite Hlen.
have D1 := tr_run_data Hl _ R1; have D2 := tr_run_data Hl _ R2.
move: Ed; rewrite (proj1 (D1 _)) ?(proj1 (D2 _)); try exact: Hl.
have := @tr_binding F X H L (leq_trans (isT : (0 < 8)%N) L8) Hlen inj nul
           (m1 :: digested ops1) (m2 :: digested ops2).
have E7 : (256 ^ 7 = 2 ^ 56)%N by rewrite -[256%N]/((2 ^ 8)%N) -expnM.
rewrite E7 => HB Ed; rewrite -!hash_inputs_chain; exact: HB lt1 lt2 Ed.
Qed.

(* ... and for a prime field printed in decimal the encoding hypotheses hold. *)
Theorem C16_transcript_binding_prime_field (p : nat) (X : fri_env [fieldType of 'F_p])
  (H : bytes -> bytes) (L : nat) (m1 m2 : 'F_p) (ops1 ops2 : seq (tr_op 'F_p)) outs1 outs2 t1 t2 :
  (forall x : 'F_p, to_string X x = decimal x) ->
  (8 <= L)%N -> (forall b, size (H b) = L) ->
  (size (m1 :: digested ops1) < 2 ^ 56)%N -> (size (m2 :: digested ops2) < 2 ^ 56)%N ->
  tr_run X H (tr_new X H m1) ops1 = Ret (outs1, t1) ->
  tr_run X H (tr_new X H m2) ops2 = Ret (outs2, t2) ->
  tr_data t1 = tr_data t2 ->
  m1 :: digested ops1 = m2 :: digested ops2 \/
  exists a b, [/\ a \in chain_inputs X H (m1 :: digested ops1),
                  b \in chain_inputs X H (m2 :: digested ops2), a != b & H a = H b].
Proof.
move=> Hs L8 Hlen; apply: (C16_transcript_binding L8 Hlen).
  by move=> x y; rewrite !Hs => /decimal_inj/val_inj.
by move=> x; rewrite Hs decimal_nul.
Qed.

(* C17: 64 bits of state. *)
Theorem C17_challenges_use_64_bits (F : fieldType) (X : fri_env F)
  (t1 t2 : transcript) (d1 d2 : bytes) (n : nat) :
  tr_data t1 = Some d1 -> tr_data t2 = Some d2 -> (8 <= size d1)%N -> (8 <= size d2)%N ->
  take 8 d1 = take 8 d2 -> tr_generated t1 = tr_generated t2 ->
  [/\ omap fst (tr_challenge X t1) = omap fst (tr_challenge X t2),
      omap fst (tr_challenges X t1 n) = omap fst (tr_challenges X t2 n)
    & omap fst (tr_challenges_usize X t1 n) = omap fst (tr_challenges_usize X t2 n)].
Proof.
move=> E1 E2 l1 l2 E Eg.
rewrite /tr_challenges_usize /tr_challenges /tr_challenge /tr_seed E1 E2 Eg.
case: (tr_generated t2) => //.
rewrite -[odflt _ (Some d1)]/d1 -[odflt _ (Some d2)]/d2 (ltnNge (size d1)) (ltnNge (size d2)).
by rewrite l1 l2 E.
Qed.
