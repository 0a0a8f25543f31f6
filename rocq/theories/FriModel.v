(* Model of the fri crate: /repo/fri/src/{hasher,merkle_tree,fri_layer,prover,
   verifier}.rs and /repo/fri/src/fiat_shamir/transcript.rs.
   Definitions only. *)
From Coq Require Import String Ascii NArith.
Set Warnings "-notation-overridden,-ambiguous-paths".
From mathcomp Require Import all_ssreflect all_algebra.
From Verif Require Import Base ArkPoly ArkDomain.

Set Implicit Arguments.
Unset Strict Implicit.
Unset Printing Implicit Defensive.

Import GRing.Theory.
Local Open Scope ring_scope.

(* What the crate takes from outside: SHA-256 (hasher.rs:2), `to_string` and
   `from_le_bytes_mod_order` of the prime field, the low 64-bit limb of
   `into_bigint()` (transcript.rs:137), the values `F::rand` draws from
   `StdRng::seed_from_u64(seed)` (transcript.rs:98,108,122), `F::GENERATOR`
   (prover.rs:147) and the FFT constants. *)
Record fri_env (F : fieldType) := FriEnv {
  sha256 : bytes -> bytes;
  to_string : F -> bytes;
  from_le_bytes : bytes -> F;
  low_limb : F -> nat;
  rng_stream : N -> nat -> F;
  generator : F;
  fft : fft_field F;
}.

(* merkle_tree.rs:7-16 *)
Record merkle_proof (F : Type) := MerkleProof {
  mp_index : nat;
  mp_leaf_val : F;
  mp_hash_proof : seq F;
  mp_root : F;
}.

(* merkle_tree.rs:20-27 *)
Record merkle_tree (F : Type) := MerkleTree {
  mt_internal_nodes : seq (seq F);
  mt_leaves : seq F;
  mt_depth : nat;
}.

(* fri_layer.rs:9-18 *)
Record fri_layer (F : Type) := FriLayer {
  fl_evaluations : seq F;
  fl_merkle_tree : merkle_tree F;
  fl_coset : F;
  fl_domain_size : nat;
}.

(* transcript.rs:40-49 (phantom fields dropped) *)
Record transcript := Transcript {
  tr_data : option bytes;
  tr_index : nat;
  tr_generated : bool;
}.

(* prover.rs:12-20 *)
Record decommitment (F : Type) := Decommitment {
  dc_evaluations : seq F;
  dc_auth_paths : seq (merkle_proof F);
  dc_sym_evaluations : seq F;
  dc_sym_auth_paths : seq (merkle_proof F);
}.

(* prover.rs:23-31 *)
Record fri_proof (F : Type) := FriProof {
  fp_domain_size : nat;
  fp_coset : F;
  fp_number_of_queries : nat;
  fp_layers_root : seq F;
  fp_const_val : F;
  fp_decommitment_list : seq (decommitment F);
}.

Section Hasher.
Variables (F : fieldType) (X : fri_env F).

(* hasher.rs:14-19 *)
Definition hash (d : F) : F := from_le_bytes X (sha256 X (to_string X d)).

(* hasher.rs:31-36: successive `update`s hash the concatenation. *)
Definition hash_slice (ds : seq F) : F :=
  from_le_bytes X (sha256 X (flatten [seq to_string X d | d <- ds])).

End Hasher.

Section Merkle.
Variables (F : fieldType) (X : fri_env F).

(* `slice.chunks(2)` (std): consecutive pairs, a last chunk of one element when
   the length is odd. *)
Fixpoint chunks2 (T : Type) (s : seq T) : seq (seq T) :=
  match s with
  | a :: b :: s' => [:: a; b] :: chunks2 s'
  | [:: a] => [:: [:: a]]
  | [::] => [::]
  end.

(* merkle_tree.rs:51 *)
Definition next_level (l : seq F) : seq F := [seq hash_slice X c | c <- chunks2 l].

(* merkle_tree.rs:48-53: the first level followed by `depth` further levels. *)
Fixpoint levels (depth : nat) (l : seq F) : seq (seq F) :=
  l :: if depth is d.+1 then levels d (next_level l) else [::].

(* merkle_tree.rs:42-62.  The hash levels are built from the vector as given;
   only `leaves` is padded. *)
Definition mt_new (evals : seq F) : merkle_tree F :=
  let new_len := next_power_of_two (size evals) in
  let depth := trunc_log 2 new_len in
  MerkleTree (levels depth [seq hash X x | x <- evals])
             (evals ++ nseq (new_len - size evals)%N 0)
             depth.

(* merkle_tree.rs:69-71 *)
Definition mt_root (t : merkle_tree F) : outcome F :=
  l <- unwrap (ohead (rev (mt_internal_nodes t)));;
  index_at l 0.

(* merkle_tree.rs:85-95, the loop over i in 0..depth; `lvls` are the levels
   still to be visited. *)
Fixpoint auth_path (lvls : seq (seq F)) (depth cur : nat) : outcome (seq F) :=
  if depth is d.+1 then
    lvl <- index_at lvls 0;;
    nb <- (if (cur %% 2 == 0)%N then index_at lvl (cur + 1)%N else index_at lvl (cur - 1)%N);;
    rest <- auth_path (behead lvls) d (cur %/ 2)%N;;
    Ret (nb :: rest)
  else Ret [::].

(* merkle_tree.rs:82-103 *)
Definition mt_generate_proof (t : merkle_tree F) (index : nat)
  : outcome (merkle_proof F) :=
  leaf <- index_at (mt_leaves t) index;;
  path <- auth_path (mt_internal_nodes t) (mt_depth t) index;;
  root <- mt_root t;;
  Ret (MerkleProof index leaf path root).

(* merkle_tree.rs:118-130 *)
Fixpoint climb (cur : nat) (h : F) (path : seq F) : F :=
  if path is nb :: path' then
    climb (cur %/ 2)%N
          (if (cur %% 2 == 0)%N then hash_slice X [:: h; nb] else hash_slice X [:: nb; h])
          path'
  else h.

(* merkle_tree.rs:117-132 *)
Definition verify_merkle_proof (p : merkle_proof F) : bool :=
  climb (mp_index p) (hash X (mp_leaf_val p)) (mp_hash_proof p) == mp_root p.

End Merkle.

Section TranscriptModel.
Variables (F : fieldType) (X : fri_env F) (H : bytes -> bytes).

(* transcript.rs:80-88.  `index` is an unbounded counter whose low 8 bytes are
   hashed (the u64 overflow after 2^64 calls is not modelled). *)
Definition tr_digest (t : transcript) (m : F) : transcript :=
  Transcript
    (Some (H (odflt [::] (tr_data t) ++ le_bytes 8 (tr_index t) ++ to_string X m)))
    (tr_index t).+1
    false.

(* transcript.rs:61-71 *)
Definition tr_new (m : F) : transcript := tr_digest (Transcript None 0 true) m.

(* transcript.rs:90-99: panics when already generated, or when the digest has
   fewer than 8 bytes ([0..8] slice). Returns the 64-bit seed. *)
Definition tr_seed (t : transcript) : outcome (N * transcript) :=
  if tr_generated t then Panic
  else
    let d := odflt [::] (tr_data t) in
    if (size d < 8)%N then Panic
    else Ret (le_decode (take 8 d), Transcript (tr_data t) (tr_index t) true).

(* transcript.rs:120-123 *)
Definition tr_challenges (t : transcript) (n : nat) : outcome (seq F * transcript) :=
  '(seed, t') <- tr_seed t;;
  Ret (mkseq (rng_stream X seed) n, t').

(* transcript.rs:106-109 *)
Definition tr_challenge (t : transcript) : outcome (F * transcript) :=
  '(seed, t') <- tr_seed t;;
  Ret (rng_stream X seed 0, t').

(* transcript.rs:134-139 *)
Definition tr_challenges_usize (t : transcript) (n : nat)
  : outcome (seq nat * transcript) :=
  '(cs, t') <- tr_challenges t n;;
  Ret ([seq low_limb X c | c <- cs], t').

End TranscriptModel.

Section Layer.
Variables (F : fieldType) (X : fri_env F).

(* fri_layer.rs:36-56 *)
Definition layer_from_poly (poly : seq F) (coset : F) (domain_size : nat)
  : outcome (fri_layer F) :=
  d <- unwrap (domain_new (fft X) domain_size);;
  let evaluations := [seq peval poly (root * coset) | root <- dom_elements d] in
  Ret (FriLayer evaluations (mt_new X evaluations) coset domain_size).

End Layer.

Section Prover.
Variables (F : fieldType) (X : fri_env F) (H : bytes -> bytes).

(* `.iter().step_by(2)` and `.skip(1).step_by(2)` (std) *)
Fixpoint step_by2 (T : Type) (s : seq T) : seq T :=
  match s with
  | a :: _ :: s' => a :: step_by2 s'
  | [:: a] => [:: a]
  | [::] => [::]
  end.

(* prover.rs:34-42 *)
Definition fold_polynomial (poly : seq F) (r : F) : seq F :=
  let even_poly := trim (step_by2 poly) in
  let odd_poly := trim (step_by2 (drop 1 poly)) in
  padd even_poly (pscale odd_poly r).

(* prover.rs:56-68: the loop; returns the final polynomial, the transcript and
   the layers in order. *)
Fixpoint folding_loop (number_layers : nat) (poly : seq F) (coset : F)
  (domain_size : nat) (t : transcript) (layers : seq (fri_layer F))
  : outcome (seq F * transcript * seq (fri_layer F)) :=
  if number_layers is k.+1 then
    layer <- layer_from_poly X poly coset domain_size;;
    root <- mt_root (fl_merkle_tree layer);;
    let t := tr_digest X H t root in
    '(r, t) <- tr_challenge X t;;
    folding_loop k (fold_polynomial poly r) (coset ^+ 2) (domain_size %/ 2)%N t
                 (rcons layers layer)
  else Ret (poly, t, layers).

(* prover.rs:47-75.  The capacity expression on line 53 panics for
   number_layers = 0; `poly.len()` is the number of stored coefficients. *)
Definition folding_phase (poly : seq F) (coset : F) (domain_size number_layers : nat)
  : outcome (F * transcript * seq (fri_layer F)) :=
  _ <- ilog2 number_layers;;
  '(poly', t, layers) <-
    folding_loop number_layers poly coset domain_size (tr_new X H 0) [::];;
  _ <- oassert (size poly' == 1%N);;
  let constant := peval poly' 0 in
  Ret (constant, tr_digest X H t constant, layers).

(* prover.rs:106-122, one layer of one query *)
Definition open_layer (challenge : nat) (layer : fri_layer F)
  : outcome (F * F * merkle_proof F * merkle_proof F) :=
  index <- umod challenge (fl_domain_size layer);;
  sym_index <- umod (index + fl_domain_size layer %/ 2)%N (fl_domain_size layer);;
  evaluation <- index_at (fl_evaluations layer) index;;
  sym_evaluation <- index_at (fl_evaluations layer) sym_index;;
  path <- mt_generate_proof (fl_merkle_tree layer) index;;
  sym_path <- mt_generate_proof (fl_merkle_tree layer) sym_index;;
  Ret (evaluation, sym_evaluation, path, sym_path).

(* prover.rs:99-131, one query *)
Definition open_query (layers : seq (fri_layer F)) (challenge : nat)
  : outcome (decommitment F) :=
  os <- omapM (open_layer challenge) layers;;
  Ret (Decommitment [seq o.1.1.1 | o <- os] [seq o.1.2 | o <- os]
                    [seq o.1.1.2 | o <- os] [seq o.2 | o <- os]).

(* prover.rs:81-134 *)
Definition query_phase (number_of_queries domain_size : nat) (t : transcript)
  (layers : seq (fri_layer F))
  : outcome (seq (decommitment F) * seq nat * transcript) :=
  if nilp layers then Ret ([::], [::], t)
  else
    '(raw, t) <- tr_challenges_usize X t number_of_queries;;
    challenge_list <- omapM (fun v => umod v domain_size) raw;;
    ds <- omapM (open_query layers) challenge_list;;
    Ret (ds, challenge_list, t).

(* prover.rs:148-167: generation once the domain size is known *)
Definition fri_generate_on (poly : seq F) (domain_size number_of_queries : nat)
  : outcome (fri_proof F) :=
  let coset := generator X in
  number_of_layers <- ilog2 domain_size;;
  '(const_val, t, layers) <- folding_phase poly coset domain_size number_of_layers;;
  '(ds, _, _) <- query_phase number_of_queries domain_size t layers;;
  roots <- omapM (fun l => mt_root (fl_merkle_tree l)) layers;;
  Ret (FriProof domain_size coset number_of_queries roots const_val ds).

(* prover.rs:141-168 *)
Definition fri_generate_proof (poly : seq F) (blowup_factor number_of_queries : nat)
  : outcome (fri_proof F) :=
  fri_generate_on poly (next_power_of_two (size poly * blowup_factor)%N) number_of_queries.

End Prover.

Section Verifier.
Variables (F : fieldType) (X : fri_env F) (H : bytes -> bytes).

(* verifier.rs:18-24 *)
Fixpoint regen_challenges (t : transcript) (roots : seq F)
  : outcome (seq F * transcript) :=
  if roots is root :: roots' then
    let t := tr_digest X H t root in
    '(r, t) <- tr_challenge X t;;
    '(rs, t) <- regen_challenges t roots';;
    Ret (r :: rs, t)
  else Ret ([::], t).

Definition err_index : string := "wrong index!".
Definition err_eval : string := "the evaluation does not correspond to given path!".
Definition err_path : string := "verify Merkle path failed!".
Definition err_fold : string := "folding wrong!".

(* One entry of the zipped iterator of verifier.rs:63-70. *)
Definition zipped (d : decommitment F) (rs : seq F)
  : seq (F * merkle_proof F * F * merkle_proof F * F) :=
  zip (zip (zip (zip (dc_evaluations d) (dc_auth_paths d)) (dc_sym_evaluations d))
           (dc_sym_auth_paths d)) rs.

(* verifier.rs:63-112: the loop, `i` is the enumerate counter, `evals` is
   decommitment.evaluations. Field division by zero panics (ark `inverse`
   unwrap); the divisor is two * w_i. *)
Fixpoint verify_entries (challenge : nat) (evals : seq F) (const_val : F)
  (i cur_domain_size : nat) (cur_coset : F)
  (es : seq (F * merkle_proof F * F * merkle_proof F * F)) : outcome unit :=
  if es is (eval, path, sym_eval, sym_path, r) :: es' then
    index <- umod challenge cur_domain_size;;
    sym_index <- umod (index + cur_domain_size %/ 2)%N cur_domain_size;;
    cur_domain <- unwrap (domain_new (fft X) cur_domain_size);;
    if (index != mp_index path) || (sym_index != mp_index sym_path) then Err err_index
    else if (eval != mp_leaf_val path) || (sym_eval != mp_leaf_val sym_path) then Err err_eval
    else if ~~ verify_merkle_proof X path || ~~ verify_merkle_proof X sym_path then Err err_path
    else
      let w_i := dom_element cur_domain index * cur_coset in
      if 2%:R * w_i == 0 then Panic
      else
        let q_fold := (r + w_i) * eval / (2%:R * w_i) - (r - w_i) * sym_eval / (2%:R * w_i) in
        if i != (size evals).-1 then
          next <- index_at evals i.+1;;
          if q_fold != next then Err err_fold
          else verify_entries challenge evals const_val i.+1 (cur_domain_size %/ 2)%N
                              (cur_coset ^+ 2) es'
        else if q_fold != const_val then Err err_fold
        else verify_entries challenge evals const_val i.+1 cur_domain_size cur_coset es'
  else Ret tt.

(* verifier.rs:51-114 *)
Definition verify_query (challenge : nat) (d : decommitment F) (rs : seq F)
  (domain_size : nat) (const_val coset : F) : outcome unit :=
  verify_entries challenge (dc_evaluations d) const_val 0 domain_size coset (zipped d rs).

(* verifier.rs:14-49 *)
Definition fri_verify (proof : fri_proof F) : outcome unit :=
  '(rs, t) <- regen_challenges (tr_new X H 0) (fp_layers_root proof);;
  let t := tr_digest X H t (fp_const_val proof) in
  '(raw, _) <- tr_challenges_usize X t (fp_number_of_queries proof);;
  challenges <- omapM (fun v => umod v (fp_domain_size proof)) raw;;
  ofold (fun _ cd => verify_query cd.1 cd.2 rs (fp_domain_size proof)
                                  (fp_const_val proof) (fp_coset proof))
        tt (zip challenges (fp_decommitment_list proof)).

End Verifier.
