(* A concrete case of C69: the pairs for x = 3 and x = 4 of the repository's
   test relation, folded under the challenges 2, 3, 5, 7 in the field with 17
   elements; and a prover that knows the secret and answers the third challenge
   with a colliding vector. *)
From Coq Require Import String Ascii NArith.
Set Warnings "-notation-overridden,-ambiguous-paths".
From mathcomp Require Import all_ssreflect all_algebra.
From mathcomp Require Import zify ring.
From Verif Require Import Base BaseLemmas KzgModel KzgExamples NovaModel NovaSpec NovaLemmas
  NovaProps NovaExamples NovaSoundSpec NovaSoundProps.

Set Implicit Arguments.
Unset Strict Implicit.
Unset Printing Implicit Defensive.

Import GRing.Theory.
Local Open Scope ring_scope.

Definition cross17 : seq K17 :=
  if compute_t R17r (fi_u (pair17 3).2) (fi_u (pair17 4).2)
       (assignment (pair17 3).1 (pair17 3).2) (assignment (pair17 4).1 (pair17 4).2)
  is Ret t then t else [::].
Definition com17 : G1 E17 := if kzg_commit_vector N17 cross17 is Ret c then c else 0.
Definition answer17 (r : K17) : fwitness K17 := fold_witness r (pair17 3).1 (pair17 4).1 cross17.
Definition rs17 : seq K17 := [:: 2%:R; 3%:R; 5%:R; 7%:R].

Example three_answers17 :
  [&& uniq rs17, size (fi_x (pair17 3).2) == size (fi_x (pair17 4).2),
      all (fun r => is_ret (is_r1cs_satisfied R17r
             (fold_instance r (pair17 3).2 (pair17 4).2 com17) (answer17 r) N17)) rs17,
      fw_w (extract_left 2%:R 3%:R 5%:R (answer17 2%:R) (answer17 3%:R) (answer17 5%:R))
        == fw_w (pair17 3).1,
      fw_w (extract_right 2%:R 3%:R 5%:R (answer17 2%:R) (answer17 3%:R) (answer17 5%:R))
        == fw_w (pair17 4).1
    & extract_cross 2%:R 3%:R 5%:R (answer17 2%:R) (answer17 3%:R) (answer17 5%:R) == cross17].
Proof. by vm_compute. Qed.
