(* Specification vocabulary for C82: folding instances that are fixed before the
   challenge. *)
From Coq Require Import String Ascii NArith.
Set Warnings "-notation-overridden,-ambiguous-paths".
From mathcomp Require Import all_ssreflect all_algebra.
From Verif Require Import Base KzgModel KzgSpec NovaModel NovaSpec OracleProver.

Set Implicit Arguments.
Unset Strict Implicit.
Unset Printing Implicit Defensive.

Import GRing.Theory.
Local Open Scope ring_scope.

(* A committed instance together with the vectors behind its commitments: the
   witness, the scalar u and the public inputs. *)
Record opened (F : Type) := Opened { op_wit : fwitness F; op_u : F; op_x : seq F }.

Section Fold.
Variables (F : fieldType) (E : pairing_group F).
Implicit Types (R : r1cs F) (a b : opened F) (s r : F) (T : {poly F}) (fw : fwitness F).

(* the instance it stands for, under secret s *)
Definition instance_of s a : finstance E :=
  FInstance (commitment_of E s (Poly (fw_e (op_wit a)))) (op_u a)
            (commitment_of E s (Poly (fw_w (op_wit a)))) (op_x a).

(* vectors of the lengths the relation declares *)
Definition fits_relation R a : Prop :=
  [/\ size (fw_w (op_wit a)) = num_vars R, size (op_x a) = num_io R
    & size (fw_e (op_wit a)) = size (matrix_c R)].

(* every row of the relaxed relation holds *)
Definition relation_holds R a : Prop :=
  forall i, (i < size (matrix_a R))%N ->
    row_holds R (fw_w (op_wit a) ++ op_x a ++ [:: op_u a]) (fw_e (op_wit a)) (op_u a) i.

(* the code's verdict: fw satisfies the fold by r of the two instances and the
   cross-term commitment made from T *)
Definition fold_satisfied R n s a b T r fw : bool :=
  if is_r1cs_satisfied R (fold_instance r (instance_of s a) (instance_of s b) (commitment_of E s T))
       fw (srs_new_from_secret E s n) is Ret _ then true else false.

(* two different openings of one commitment: a vector of fw is not the fold of
   the vectors behind the instances, although the commitments agree *)
Definition other_opening a b T r fw s : Prop :=
  let W := Poly (fw_w fw) - (Poly (fw_w (op_wit a)) + r *: Poly (fw_w (op_wit b))) in
  let V := Poly (fw_e fw) - (Poly (fw_e (op_wit a)) + r *: T + r ^+ 2 *: Poly (fw_e (op_wit b))) in
  (W != 0 /\ W.[s] = 0) \/ (V != 0 /\ V.[s] = 0).

End Fold.

(* ------------------------------------------------------------------ *)
(* The generator as a table with one field element for each of K seeds (the code
   never draws a second challenge from one seed; K = 2^64). *)
Definition fr_table (F : finFieldType) (K : nat) : Type := {ffun 'I_K -> F}.
Definition fr_entry (K : nat) (K0 : (0 < K)%N) (seed : N) : 'I_K :=
  Ordinal (ltn_pmod (N.to_nat seed) K0).
Definition with_fr_table (F : finFieldType) (B : fieldType) (E : pairing_group F) (K : nat)
  (K0 : (0 < K)%N) (X : nova_env B E) (t : fr_table F K) : nova_env B E :=
  NovaEnv (digest X) (ser_g1 X) (ser_fr X) (ser_fq X) (fq_of_bytes X) (fr_of_fq X)
    (fun seed i => if i == 0%N then t (fr_entry K0 seed) else 0).

Section Fs.
Variables (F : finFieldType) (B : fieldType) (E : pairing_group F) (K : nat) (K0 : (0 < K)%N).
Variables (X : nova_env B E) (s : F) (a b : opened F).
(* what the transcript had absorbed before *)
Variable ms : seq bytes.

(* the seed of the folding challenge for the cross term T *)
Definition fold_seed (T : {poly F}) : N :=
  le_decode (take 8 (hash_chain X
    (ms ++ [:: ser_fr X (op_u a); ser_fr X (op_u b); ser_g1 X (commitment_of E s T)]))).
Definition fold_entry (T : {poly F}) : 'I_K := fr_entry K0 (fold_seed T).

(* A prover that asks for the challenges of cross terms of its choice, and outputs
   a cross term, a folding proof and a witness of the folded instance. *)
Definition fold_prover : Type :=
  oracle_prover [eqType of {poly F}] F ({poly F} * nifs_proof E * fwitness F).

(* It succeeds: the code's verifier accepts the proof and the witness satisfies the
   fold, no second opening was found and no two cross terms share a seed. *)
Definition folds (R : r1cs F) (n : nat) (vt : ntranscript) (p : fold_prover) (t : fr_table F K) : Prop :=
  let: (T, pf, fw) := output fold_entry p t in
  let fi1 := instance_of E s a in let fi2 := instance_of E s b in
  let com_t := commitment_of E s T in
  let S := srs_new_from_secret E s n in
  let fi3 := nifs_verifier (np_r pf) fi1 fi2 com_t in
  [/\ is_ret (nifs_verify (with_fr_table K0 X t) pf fi1 fi2 fi3 com_t S vt),
      is_r1cs_satisfied R fi3 fw S = Ret tt,
      ~ other_opening a b T (np_r pf) fw s
    & forall T1 T2, T1 \in T :: asked fold_entry p t -> T2 \in T :: asked fold_entry p t ->
        fold_seed T1 = fold_seed T2 -> T1 = T2].

End Fs.
