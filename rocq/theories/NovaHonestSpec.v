(* Vocabulary for C39 and C87: the vectors behind the running instance of the IVC
   driver (nova/examples/examples.rs), written without the code's helpers. *)
From Coq Require Import String Ascii NArith.
Set Warnings "-notation-overridden,-ambiguous-paths".
From mathcomp Require Import all_ssreflect all_algebra.
From Verif Require Import Base KzgModel KzgSpec NovaModel NovaSpec.

Set Implicit Arguments.
Unset Strict Implicit.
Unset Printing Implicit Defensive.

Import GRing.Theory.
Local Open Scope ring_scope.

(* The cross term of two assignments z1, z2 with scalars u1, u2. *)
Definition cross_term (F : fieldType) (R : r1cs F) (u1 u2 : F) (z1 z2 : seq F) : seq F :=
  mkseq (fun i =>
    let a := nth [::] (matrix_a R) i in let b := nth [::] (matrix_b R) i in
    let c := nth [::] (matrix_c R) i in
    dot a z1 * dot b z2 + dot a z2 * dot b z1 - u1 * dot c z2 - u2 * dot c z1) (size (matrix_a R)).

Definition zero_vec (F : fieldType) (v : seq F) : bool := all (fun a => a == 0) v.

Section Ivc.
Variables (F B : fieldType) (E : pairing_group F) (X : nova_env B E).
(* secret of the reference string, relation, user function, first state, witness
   vector and public inputs of each step *)
Variables (s : F) (R : r1cs F) (f : B -> fwitness F -> B) (z0 : B) (wits xs : seq (seq F)).
Implicit Types (p : fwitness F * finstance E) (k : nat) (r : F).

(* the state after k steps *)
Definition ivc_state k : B := foldl f z0 [seq fw_new w (size (matrix_a R)) | w <- take k wits].

(* step k: its witness vector, and its instance, whose public input is the hash of
   the state and the running instance *)
Definition step_wit k : seq F := nth [::] wits k.
Definition step_instance k (U : finstance E) : finstance E :=
  FInstance (0 : G1 E) 1 (commitment_of E s (Poly (step_wit k)))
    [:: fr_of_fq X (hash_io X k%:R z0 (ivc_state k) U)].

(* the cross term of step k and the running pair, and the messages from which the
   folding challenge is drawn *)
Definition step_cross k p : seq F :=
  cross_term R 1 (fi_u p.2) (assignment (FWitness [::] (step_wit k)) (step_instance k p.2))
    (assignment p.1 p.2).
Definition step_messages k p : seq bytes :=
  [:: ser_fr X 1; ser_fr X (fi_u p.2); ser_g1 X (commitment_of E s (Poly (step_cross k p)))].

(* folding step k into the running pair with challenge r *)
Definition step_fold k p r : fwitness F * finstance E :=
  let u := step_instance k p.2 in
  (FWitness (mkseq (fun i => r * (step_cross k p)`_i + r ^+ 2 * (fw_e p.1)`_i) (size (matrix_a R)))
            (mkseq (fun i => (step_wit k)`_i + r * (fw_w p.1)`_i) (size (step_wit k))),
   FInstance (r *: commitment_of E s (Poly (step_cross k p)) + r ^+ 2 *: fi_com_e p.2)
             (1 + r * fi_u p.2)
             (fi_com_w u + r *: fi_com_w p.2)
             (vec_comb r (fi_x u) (fi_x p.2))).

(* the running pair before any fold: zero vectors and u = 1 *)
Definition first_pair : fwitness F * finstance E :=
  (FWitness (nseq (size (step_wit 0)) 0) (nseq (size (step_wit 0)) 0),
   FInstance (0 : G1 E) 1 0 (nseq (size (nth [::] xs 0)) 0)).

(* after k folds, the challenges being those the code derives *)
Fixpoint running_pair k : fwitness F * finstance E :=
  if k is k'.+1 then
    step_fold k (running_pair k') (fs_challenge X (step_messages k (running_pair k')) 0)
  else first_pair.

(* the seed of the challenge of fold k + 1 *)
Definition step_seed k : N := le_decode (take 8 (hash_chain X (step_messages k.+1 (running_pair k)))).

(* the first m folds draw their challenges from different seeds *)
Definition step_seeds_differ m : bool := uniq [seq step_seed k | k <- iota 0 m].

End Ivc.
