(* Concrete cases meeting the hypotheses of C87: the relation and witnesses of the
   repository's IVC example over small fields. *)
From Coq Require Import String Ascii NArith.
Set Warnings "-notation-overridden,-ambiguous-paths".
From mathcomp Require Import all_ssreflect all_algebra.
From Verif Require Import Base KzgModel KzgSpec KzgProps KzgExamples NovaModel NovaSpec NovaHonestSpec NovaLemmas
  NovaProps NovaTranscript NovaIvcProps NovaDriverProps NovaExamples NovaErrorSpec NovaHonestProps.

Set Implicit Arguments.
Unset Strict Implicit.
Unset Printing Implicit Defensive.

Import GRing.Theory.
Local Open Scope ring_scope.

Local Notation s17 := (5%:R : K17).
Definition wits2 := take 2 wits17.
Definition xs2 := take 2 xs17.

(* the cross term with sums that compute *)
Lemma cross_termE (F : fieldType) (R : r1cs F) u1 u2 z1 z2 :
  let d row z := foldl (fun acc (p : F * F) => acc + p.1 * p.2) 0 (zip row z) in
  cross_term R u1 u2 z1 z2 = mkseq (fun i =>
    let a := nth [::] (matrix_a R) i in let b := nth [::] (matrix_b R) i in
    let c := nth [::] (matrix_c R) i in
    d a z1 * d b z2 + d a z2 * d b z1 - u1 * d c z2 - u2 * d c z1) (size (matrix_a R)).
Proof. by move=> d; apply: eq_mkseq => i; rewrite /d !dotE. Qed.

(* the conditions of C87_ivc_honest_failures hold for the repository's witnesses *)
Example nonzero17 : all (fun w => ~~ zero_vec w) wits17 /\
  ~~ zero_vec (step_cross X17 s17 R17r f257 0 wits17 1 (first_pair E17 wits17 xs17)).
Proof. by split; [vm_compute|rewrite /step_cross cross_termE; vm_compute]. Qed.

Lemma zero_fold (F B : fieldType) (E : pairing_group F) (X : nova_env B E) s R f z0 wits k p (r : F) :
  r = 0 -> zero_vec (fw_e (step_fold X s R f z0 wits k p r).1).
Proof.
move=> ->; apply/allP => e /(nthP 0)[i li <-]; rewrite size_mkseq in li.
by rewrite nth_mkseq // mul0r expr0n mul0r addr0.
Qed.

(* one fold draws one seed; and a table of zeros is one for which the driver fails *)
Section Zeros.
Variables (K : nat) (K0 : (0 < K)%N).
Let F17 := [finFieldType of 'F_17].
Let zeros : fr_table F17 K := [ffun=> 0].
Let Xz := with_fr_table K0 X17 zeros.

Example zeros_differ : step_seeds_differ Xz s17 R17r f257 0 wits2 xs2 1.
Proof. by []. Qed.

Example zeros_fail : ~ exists ds, driver_main Xz N17 R17r f257 0 wits2 xs2 = Ret ds.
Proof.
have c2 k : (0 < k < 2)%N -> k%:R <> 0 :> B257.
  by case/andP=> k0 k2; apply: counters257; rewrite k0 (leq_trans k2).
have [[_ pan] _] := @C87_driver_panics_iff F17 B257 E17 Xz E17_ok X17_digest s17 6 R17r f257 0 wits2 xs2 4
  isT erefl isT isT isT isT erefl c2.
rewrite pan; first by case.
exists 1%N; first by [].
by apply/orP; left; rewrite -[running_pair _ _ _ _ _ _ _ _]/(step_fold _ _ _ _ _ _ _ _ _);
  apply: zero_fold; rewrite /fs_challenge; exact: ffunE.
Qed.

End Zeros.

(* with the generator of X17 the driver returns, so no running pair has a zero vector *)
Example returns17 : ~ exists2 k, (0 < k < 4)%N &
  zero_vec (fw_e (running_pair X17 s17 R17r f257 0 wits17 xs17 k).1) ||
  zero_vec (fw_w (running_pair X17 s17 R17r f257 0 wits17 xs17 k).1).
Proof.
have [[_ pan] _] := @C87_driver_panics_iff K17 B257 E17 X17 E17_ok X17_digest s17 6 R17r f257 0 wits17 xs17 4
  isT erefl isT isT isT isT erefl (fun k H => counters257 H).
move=> /pan; have := driver17; rewrite /N17; case: driver_main => //.
Qed.
