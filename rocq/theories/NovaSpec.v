(* Specification vocabulary for the Nova properties, independent of the proofs. *)
From Coq Require Import String Ascii NArith.
Set Warnings "-notation-overridden,-ambiguous-paths".
From mathcomp Require Import all_ssreflect all_algebra.
From Verif Require Import Base KzgModel NovaModel.

Set Implicit Arguments.
Unset Strict Implicit.
Unset Printing Implicit Defensive.

Import GRing.Theory.
Local Open Scope ring_scope.

(* Inner product over the common prefix. *)
Definition dot (F : fieldType) (row z : seq F) : F :=
  \sum_(j < minn (size row) (size z)) row`_j * z`_j.

(* The assignment (W, x, u). *)
Definition assignment (F : fieldType) (E : pairing_group F) (fw : fwitness F) (fi : finstance E)
  : seq F := fw_w fw ++ fi_x fi ++ [:: fi_u fi].

(* Row i of the relaxed R1CS relation, for row i of A, B, C and entry i of E. *)
Definition row_holds (F : fieldType) (R : r1cs F) (z e : seq F) (u : F) (i : nat) : Prop :=
  dot (nth [::] (matrix_a R) i) z * dot (nth [::] (matrix_b R) i) z =
  u * dot (nth [::] (matrix_c R) i) z + e`_i.

(* "fi is the committed form of fw" under secret s *)
Definition commits (F : fieldType) (E : pairing_group F) (s : F) (fw : fwitness F)
  (fi : finstance E) : Prop :=
  fi_com_e fi = (Poly (fw_e fw)).[s] *: g1_gen E /\
  fi_com_w fi = (Poly (fw_w fw)).[s] *: g1_gen E.

(* a + r b, entrywise *)
Definition vec_comb (F : fieldType) (r : F) (a b : seq F) : seq F :=
  [seq p.1 + r * p.2 | p <- zip a b].

(* ------------------------------------------------------------------ *)
(* Transcript call histories. *)
Inductive nt_op (F : fieldType) (E : pairing_group F) :=
| NFeed of G1 E
| NFeedScalar of F
| NChallenges of nat.
Arguments NFeedScalar {F E} _.
Arguments NChallenges {F E} _.

Definition is_feed (F : fieldType) (E : pairing_group F) (o : nt_op E) : bool :=
  if o is NChallenges _ then false else true.

(* some challenge is requested first, or right after another challenge *)
Definition hungry (F : fieldType) (E : pairing_group F) (ops : seq (nt_op E)) : Prop :=
  exists pre n post, ops = pre ++ NChallenges n :: post /\
    (pre = [::] \/ exists pre' n', pre = rcons pre' (NChallenges n')).

Section TranscriptSpec.
Variables (F B : fieldType) (E : pairing_group F) (X : nova_env B E).

(* one call: its output ([::] for a feed) and the transcript afterwards *)
Definition nt_step (t : ntranscript) (o : nt_op E) : outcome (seq F * ntranscript) :=
  match o with
  | NFeed c => Ret ([::], nt_feed X t c)
  | NFeedScalar x => Ret ([::], nt_feed_scalar X t x)
  | NChallenges n => nt_challenges X t n
  end.

Fixpoint nt_run (t : ntranscript) (ops : seq (nt_op E)) : outcome (seq (seq F) * ntranscript) :=
  if ops is o :: ops' then
    '(out, t1) <- nt_step t o;;
    '(outs, t2) <- nt_run t1 ops';;
    Ret (out :: outs, t2)
  else Ret ([::], t).

(* the serialized messages fed by a history *)
Fixpoint fed (ops : seq (nt_op E)) : seq bytes :=
  match ops with
  | [::] => [::]
  | NFeed c :: ops' => ser_g1 X c :: fed ops'
  | NFeedScalar x :: ops' => ser_fr X x :: fed ops'
  | NChallenges _ :: ops' => fed ops'
  end.

(* hash chain of a list of messages: d_0 = [], d_{k+1} = H(d_k ++ m_k) *)
Definition hash_chain (ms : seq bytes) : bytes :=
  foldl (fun d m => digest X (d ++ m)) [::] ms.

(* the strings hashed along the chain *)
Fixpoint hash_chain_inputs (d : bytes) (ms : seq bytes) : seq bytes :=
  if ms is m :: ms' then (d ++ m) :: hash_chain_inputs (digest X (d ++ m)) ms' else [::].

(* the k-th challenge after feeding ms *)
Definition fs_challenge (ms : seq bytes) (k : nat) : F :=
  rand_fr X (le_decode (take 8 (hash_chain ms))) k.

(* the folding challenge of two instances and a cross-term commitment, starting
   from messages ms *)
Definition folding_challenge (ms : seq bytes) (u1 u2 : F) (com_t : G1 E) : F :=
  fs_challenge (ms ++ [:: ser_fr X u1; ser_fr X u2; ser_g1 X com_t]) 0.

End TranscriptSpec.

(* ------------------------------------------------------------------ *)
(* Call histories of the augmented circuit. *)
Section CircuitSpec.
Variables (F B : fieldType) (E : pairing_group F) (X : nova_env B E).

(* arguments of a run *)
Record run_args := RunArgs {
  ra_u : finstance E;
  ra_U : option (finstance E);
  ra_w : fwitness F;
  ra_t : option (G1 E);
}.

Inductive ac_op := OpRun of run_args | OpNext.

(* Executing a history; a panic aborts it.  Outputs: the Result of each run. *)
Fixpoint ac_exec (ac : acircuit B E) (ops : seq ac_op)
  : outcome (seq (option (outcome B)) * acircuit B E) :=
  match ops with
  | [::] => Ret ([::], ac)
  | OpRun a :: ops' =>
    let: (res, ac1) := ac_run X ac (ra_u a) (ra_U a) (ra_w a) (ra_t a) in
    if res is Panic then Panic
    else '(outs, ac2) <- ac_exec ac1 ops';; Ret (Some res :: outs, ac2)
  | OpNext :: ops' =>
    ac1 <- ac_next_step ac;;
    '(outs, ac2) <- ac_exec ac1 ops';; Ret (None :: outs, ac2)
  end.

(* From a history and its outputs: the runs adopted by a next_step (the last
   successful run before it), and the successful run not adopted yet. *)
Fixpoint ledger (adopted : seq run_args) (pending : option run_args)
  (ops : seq ac_op) (outs : seq (option (outcome B))) : seq run_args * option run_args :=
  match ops, outs with
  | OpRun a :: ops', Some (Ret _) :: outs' => ledger adopted (Some a) ops' outs'
  | OpRun _ :: ops', _ :: outs' => ledger adopted pending ops' outs'
  | OpNext :: ops', _ :: outs' =>
    ledger (adopted ++ (if pending is Some a then [:: a] else [::])) None ops' outs'
  | _, _ => (adopted, pending)
  end.

Definition is_next (o : ac_op) : bool := if o is OpNext then true else false.

(* the running instance after adopting run a, when the counter before it was i *)
Definition next_running (ti : finstance E) (i : B) (a : run_args) : finstance E :=
  if i == 0 then ti
  else if (ra_U a, ra_t a) is (Some U, Some T) then
    let r := folding_challenge X [::] (fi_u (ra_u a)) (fi_u U) T in
    FInstance (fi_com_e (ra_u a) + r *: T + (r * r) *: fi_com_e U)
              (fi_u (ra_u a) + r * fi_u U)
              (fi_com_w (ra_u a) + r *: fi_com_w U)
              (vec_comb r (fi_x (ra_u a)) (fi_x U))
  else ti.

End CircuitSpec.
Arguments OpNext {F E}.
