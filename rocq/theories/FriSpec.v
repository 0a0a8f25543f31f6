(* Specification vocabulary for the FRI properties, independent of the loops
   of the model.  It uses from the model only the external functions
   (`fri_env`: SHA-256, printing, the random generator, the FFT constants), the
   record types, and the public API functions `hash`, `hash_slice` and
   `verify_merkle_proof` where a property talks about them. *)
From Coq Require Import String Ascii NArith.
Set Warnings "-notation-overridden,-ambiguous-paths".
From mathcomp Require Import all_ssreflect all_algebra.
From Verif Require Import Base ArkDomain FriModel.

Set Implicit Arguments.
Unset Strict Implicit.
Unset Printing Implicit Defensive.

Import GRing.Theory.
Local Open Scope ring_scope.

(* ---- specification vocabulary: public calls and their results ---- *)
Inductive tr_op (F : Type) : Type :=
| OpDigest of F              (* digest(m) *)
| OpChallenge                (* generate_a_challenge() *)
| OpChallenges of nat        (* generate_challenges(n) *)
| OpChallengesUsize of nat.  (* generate_challenge_list_usize(n) *)

Inductive tr_out (F : Type) : Type :=
| OutUnit
| OutChallenge of F
| OutChallenges of seq F
| OutUsize of seq nat.

Arguments OpChallenge {F}.
Arguments OpChallenges {F} _.
Arguments OpChallengesUsize {F} _.
Arguments OutUnit {F}.
Arguments OutUsize {F} _.

Definition is_digest (F : Type) (o : tr_op F) : bool :=
  if o is OpDigest _ then true else false.

(* messages digested by a list of calls *)
Definition digested (F : Type) (ops : seq (tr_op F)) : seq F :=
  pmap (fun o => if o is OpDigest m then Some m else None) ops.

Section FriSpec.
Variables (F : fieldType) (X : fri_env F) (H : bytes -> bytes).

(* The FFT constants are right: at least one halving, and the 2-adic root has
   exact order 2^S. *)
Definition fft_consts_ok : Prop :=
  (0 < two_adicity (fft X))%N /\
  (2 ^ two_adicity (fft X)).-primitive_root (two_adic_root (fft X)).

(* The digest has at least the 8 bytes the seed needs. *)
Definition digest_8_bytes : Prop := forall b, (8 <= size (H b))%N.

(* Generator of the subgroup of order 2^n (n <= S). *)
Definition omega (n : nat) : F :=
  two_adic_root (fft X) ^+ (2 ^ (two_adicity (fft X) - n)).

(* ---- Merkle trees: the root as a recursion on halves ---- *)
Fixpoint merkle_root (k : nat) (l : seq F) : F :=
  if k is k'.+1 then
    hash_slice X [:: merkle_root k' (take (2 ^ k') l); merkle_root k' (drop (2 ^ k') l)]
  else hash X (head 0 l).

(* The pairs hashed at each node while recomputing the root. *)
Fixpoint node_inputs (cur : nat) (h : F) (path : seq F) : seq (F * F) :=
  if path is nb :: path' then
    let pr := if (cur %% 2 == 0)%N then (h, nb) else (nb, h) in
    pr :: node_inputs (cur %/ 2)%N (hash_slice X [:: pr.1; pr.2]) path'
  else [::].

(* ---- Fiat-Shamir: the hash chain over the digested messages ---- *)
Fixpoint chain_from (i : nat) (d : bytes) (ms : seq F) : bytes :=
  if ms is m :: ms' then
    chain_from i.+1 (H (d ++ le_bytes 8 i ++ to_string X m)) ms'
  else d.
Definition chain (ms : seq F) : bytes := chain_from 0 [::] ms.

(* k-th field element drawn after the messages ms *)
Definition fs_value (ms : seq F) (k : nat) : F :=
  rng_stream X (le_decode (take 8 (chain ms))) k.

(* the byte strings hashed along the chain *)
Fixpoint chain_inputs_from (i : nat) (d : bytes) (ms : seq F) : seq bytes :=
  if ms is m :: ms' then
    let b := d ++ le_bytes 8 i ++ to_string X m in
    b :: chain_inputs_from i.+1 (H b) ms'
  else [::].
Definition chain_inputs (ms : seq F) : seq bytes := chain_inputs_from 0 [::] ms.

(* what each call of a history returns, as a function of the messages digested
   before it and of nothing else *)
Fixpoint tr_spec (ms : seq F) (ops : seq (tr_op F)) : seq (tr_out F) :=
  match ops with
  | [::] => [::]
  | OpDigest m :: ops' => OutUnit :: tr_spec (rcons ms m) ops'
  | OpChallenge :: ops' => OutChallenge (fs_value ms 0) :: tr_spec ms ops'
  | OpChallenges n :: ops' => OutChallenges (mkseq (fs_value ms) n) :: tr_spec ms ops'
  | OpChallengesUsize n :: ops' =>
      OutUsize (mkseq (fun k => low_limb X (fs_value ms k)) n) :: tr_spec ms ops'
  end.

(* one public call *)
Definition tr_step (t : transcript) (o : tr_op F) : outcome (tr_out F * transcript) :=
  match o with
  | OpDigest m => Ret (OutUnit, tr_digest X H t m)
  | OpChallenge => '(c, t') <- tr_challenge X t;; Ret (OutChallenge c, t')
  | OpChallenges n => '(cs, t') <- tr_challenges X t n;; Ret (OutChallenges cs, t')
  | OpChallengesUsize n => '(cs, t') <- tr_challenges_usize X t n;; Ret (OutUsize cs, t')
  end.

(* a sequence of public calls *)
Fixpoint tr_run (t : transcript) (ops : seq (tr_op F))
  : outcome (seq (tr_out F) * transcript) :=
  if ops is o :: ops' then
    '(out, t1) <- tr_step t o;;
    '(outs, t2) <- tr_run t1 ops';;
    Ret (out :: outs, t2)
  else Ret ([::], t).

(* two challenge calls with no digest in between *)
Definition starved (ops : seq (tr_op F)) : Prop :=
  exists pre c mid c' post,
    [/\ ops = pre ++ c :: mid ++ c' :: post, ~~ is_digest c, ~~ is_digest c'
      & ~~ has (@is_digest F) mid].

(* folding challenge of layer j, a function of the roots 0..j *)
Definition fri_challenge (roots : seq F) (j : nat) : F :=
  fs_value (0 :: take j.+1 roots) 0.

(* k-th query position *)
Definition fri_query (roots : seq F) (const : F) (k : nat) : nat :=
  low_limb X (fs_value (0 :: rcons roots const) k).

(* ---- folding ---- *)
Definition even_part (f : {poly F}) : {poly F} := \poly_(i < size f) f`_(i.*2).
Definition odd_part (f : {poly F}) : {poly F} := \poly_(i < size f) f`_(i.*2.+1).
Definition fold_poly (f : {poly F}) (r : F) : {poly F} := even_part f + r *: odd_part f.

(* f folded with the first j challenges given by the roots *)
Definition folded (f : {poly F}) (roots : seq F) (j : nat) : {poly F} :=
  foldl fold_poly f (mkseq (fri_challenge roots) j).

(* values of f on the coset c<omega n> *)
Definition coset_values (f : {poly F}) (c : F) (n : nat) : seq F :=
  mkseq (fun i => f.[omega n ^+ i * c]) (2 ^ n).

(* The roots an honest prover publishes for f on the coset c of size 2^n: the
   j-th is the Merkle root of the j-fold folded polynomial on the squared
   coset.  (Each challenge depends on earlier roots only, so this determines
   the list.) *)
Definition honest_root_list (f : {poly F}) (c : F) (n : nat) (roots : seq F) : Prop :=
  size roots = n /\
  forall j, (j < n)%N ->
    nth 0 roots j =
    merkle_root (n - j) (coset_values (folded f roots j) (c ^+ (2 ^ j)) (n - j)).

(* ---- the decision of the verifier ---- *)
Definition path0 : merkle_proof F := MerkleProof 0 0 [::] 0.
Definition deco0 : decommitment F := Decommitment [::] [::] [::] [::].

(* entries of a decommitment the verifier pairs up: shortest of the four lists
   and of the list of roots *)
Definition paired (d : decommitment F) (roots : seq F) : nat :=
  minn (minn (minn (minn (size (dc_evaluations d)) (size (dc_auth_paths d)))
             (size (dc_sym_evaluations d))) (size (dc_sym_auth_paths d))) (size roots).

(* everything checked about layer j of decommitment d for query position q *)
Definition layer_check (pf : fri_proof F) (d : decommitment F) (q j : nat) : Prop :=
  let Dj := (fp_domain_size pf %/ 2 ^ j)%N in
  let i := (q %% Dj)%N in
  let si := ((i + Dj %/ 2) %% Dj)%N in
  let v := nth 0 (dc_evaluations d) j in
  let sv := nth 0 (dc_sym_evaluations d) j in
  let path := nth path0 (dc_auth_paths d) j in
  let spath := nth path0 (dc_sym_auth_paths d) j in
  let r := fri_challenge (fp_layers_root pf) j in
  let w := omega (up_log 2 Dj) ^+ i * fp_coset pf ^+ (2 ^ j) in
  [/\ (0 < Dj)%N /\ (up_log 2 Dj <= two_adicity (fft X))%N,
      mp_index path = i /\ mp_index spath = si,
      mp_leaf_val path = v /\ mp_leaf_val spath = sv,
      verify_merkle_proof X path /\ verify_merkle_proof X spath &
      2%:R * w != 0 /\
      (r + w) * v / (2%:R * w) - (r - w) * sv / (2%:R * w) =
        (if j.+1 == size (dc_evaluations d) then fp_const_val pf
         else nth 0 (dc_evaluations d) j.+1)].

Definition verifier_accepts (pf : fri_proof F) : Prop :=
  ((0 < fp_number_of_queries pf -> 0 < fp_domain_size pf)%N) /\
  forall k, (k < fp_number_of_queries pf)%N -> (k < size (fp_decommitment_list pf))%N ->
    let d := nth deco0 (fp_decommitment_list pf) k in
    let q := (fri_query (fp_layers_root pf) (fp_const_val pf) k %% fp_domain_size pf)%N in
    forall j, (j < paired d (fp_layers_root pf))%N -> layer_check pf d q j.

End FriSpec.
