(* The FRI prover and verifier with machine integers.  FriModel computes sizes and
   indices with unbounded naturals; here the product, the rounding up and the sum
   that can overflow are computed on words of a given number of bits (64 in the
   code), as built with overflow checks (debug profile: panic) or without (release
   profile: wrap around).  The remaining operations on usize (remainders, halvings,
   logarithms, `len - 1` of a non-empty vector) cannot overflow.  Definitions only. *)
From Coq Require Import String Ascii NArith.
Set Warnings "-notation-overridden,-ambiguous-paths".
From mathcomp Require Import all_ssreflect all_algebra.
From Verif Require Import Base ArkPoly ArkDomain FriModel.

Set Implicit Arguments.
Unset Strict Implicit.
Unset Printing Implicit Defensive.

Import GRing.Theory.
Local Open Scope ring_scope.

Section Machine.
Variables (F : fieldType) (X : fri_env F) (H : bytes -> bytes) (checked : bool) (bits : nat).

(* `usize::next_power_of_two` (std): on overflow it panics with overflow checks and
   returns 0 without *)
Definition next_power_of_two_word (n : nat) : outcome nat := word checked bits (next_power_of_two n).

(* prover.rs:107-108, verifier.rs:72-73: the index of the opposite point *)
Definition sym_index_word (index domain_size : nat) : outcome nat :=
  s <- word checked bits (index + domain_size %/ 2);;
  umod s domain_size.

(* prover.rs:106-122 *)
Definition open_layer_word (challenge : nat) (layer : fri_layer F)
  : outcome (F * F * merkle_proof F * merkle_proof F) :=
  index <- umod challenge (fl_domain_size layer);;
  sym_index <- sym_index_word index (fl_domain_size layer);;
  evaluation <- index_at (fl_evaluations layer) index;;
  sym_evaluation <- index_at (fl_evaluations layer) sym_index;;
  path <- mt_generate_proof (fl_merkle_tree layer) index;;
  sym_path <- mt_generate_proof (fl_merkle_tree layer) sym_index;;
  Ret (evaluation, sym_evaluation, path, sym_path).

(* prover.rs:99-131 *)
Definition open_query_word (layers : seq (fri_layer F)) (challenge : nat)
  : outcome (decommitment F) :=
  os <- omapM (open_layer_word challenge) layers;;
  Ret (Decommitment [seq o.1.1.1 | o <- os] [seq o.1.2 | o <- os]
                    [seq o.1.1.2 | o <- os] [seq o.2 | o <- os]).

(* prover.rs:81-134 *)
Definition query_phase_word (number_of_queries domain_size : nat) (t : transcript)
  (layers : seq (fri_layer F))
  : outcome (seq (decommitment F) * seq nat * transcript) :=
  if nilp layers then Ret ([::], [::], t)
  else
    '(raw, t) <- tr_challenges_usize X t number_of_queries;;
    challenge_list <- omapM (fun v => umod v domain_size) raw;;
    ds <- omapM (open_query_word layers) challenge_list;;
    Ret (ds, challenge_list, t).

(* prover.rs:141-168 *)
Definition fri_generate_machine (poly : seq F) (blowup_factor number_of_queries : nat)
  : outcome (fri_proof F) :=
  product <- word checked bits (size poly * blowup_factor);;
  domain_size <- next_power_of_two_word product;;
  let coset := generator X in
  number_of_layers <- ilog2 domain_size;;
  '(const_val, t, layers) <- folding_phase X H poly coset domain_size number_of_layers;;
  '(ds, _, _) <- query_phase_word number_of_queries domain_size t layers;;
  roots <- omapM (fun l => mt_root (fl_merkle_tree l)) layers;;
  Ret (FriProof domain_size coset number_of_queries roots const_val ds).

(* verifier.rs:63-112 *)
Fixpoint verify_entries_word (challenge : nat) (evals : seq F) (const_val : F)
  (i cur_domain_size : nat) (cur_coset : F)
  (es : seq (F * merkle_proof F * F * merkle_proof F * F)) : outcome unit :=
  if es is (eval, path, sym_eval, sym_path, r) :: es' then
    index <- umod challenge cur_domain_size;;
    sym_index <- sym_index_word index cur_domain_size;;
    cur_domain <- unwrap (domain_new (fft X) cur_domain_size);;
    if (index != mp_index path) || (sym_index != mp_index sym_path) then Err err_index
    else if (eval != mp_leaf_val path) || (sym_eval != mp_leaf_val sym_path) then Err err_eval
    else if ~~ verify_merkle_proof X path || ~~ verify_merkle_proof X sym_path then Err err_path
    else
      let w_i := dom_element cur_domain index * cur_coset in
      if 2%:R * w_i == 0 then Panic
      else
        let q_fold := (r + w_i) * eval / (2%:R * w_i) - (r - w_i) * sym_eval / (2%:R * w_i) in
        if i != (size evals).-1 then
          next <- index_at evals i.+1;;
          if q_fold != next then Err err_fold
          else verify_entries_word challenge evals const_val i.+1 (cur_domain_size %/ 2)%N
                              (cur_coset ^+ 2) es'
        else if q_fold != const_val then Err err_fold
        else verify_entries_word challenge evals const_val i.+1 cur_domain_size cur_coset es'
  else Ret tt.

(* verifier.rs:51-114 *)
Definition verify_query_word (challenge : nat) (d : decommitment F) (rs : seq F)
  (domain_size : nat) (const_val coset : F) : outcome unit :=
  verify_entries_word challenge (dc_evaluations d) const_val 0 domain_size coset (zipped d rs).

(* verifier.rs:14-49 *)
Definition fri_verify_machine (proof : fri_proof F) : outcome unit :=
  '(rs, t) <- regen_challenges X H (tr_new X H 0) (fp_layers_root proof);;
  let t := tr_digest X H t (fp_const_val proof) in
  '(raw, _) <- tr_challenges_usize X t (fp_number_of_queries proof);;
  challenges <- omapM (fun v => umod v (fp_domain_size proof)) raw;;
  ofold (fun _ cd => verify_query_word cd.1 cd.2 rs (fp_domain_size proof)
                                  (fp_const_val proof) (fp_coset proof))
        tt (zip challenges (fp_decommitment_list proof)).

End Machine.
