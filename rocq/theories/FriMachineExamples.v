(* A concrete case meeting the hypotheses of C77: three coefficients over F_17, words
   of 64 bits.  The release build returns a proof for an overflowing blow-up factor. *)
From Coq Require Import String Ascii NArith.
Set Warnings "-notation-overridden,-ambiguous-paths".
From mathcomp Require Import all_ssreflect all_algebra.
From mathcomp Require Import zify.
From Verif Require Import Base ArkPoly ArkDomain FriModel FriExamples FriMachine FriMachineProps.

Set Implicit Arguments.
Unset Strict Implicit.
Unset Printing Implicit Defensive.

Import GRing.Theory.
Local Open Scope ring_scope.

Lemma three_fits bits : (3 <= bits)%N -> (3 < (2 ^ bits).-1)%N.
Proof.
move=> le; have : (2 ^ 3 <= 2 ^ bits)%N by rewrite leq_exp2l.
by move: (2 ^ bits)%N => M; rewrite -[(2 ^ 3)%N]/8%N; lia.
Qed.

Definition three17 : seq F17 := [:: 1; 2%:R; 3%:R].

Example lost17 : exists blowup pf, (1 < blowup < 2 ^ 64)%N /\
  fri_generate_machine X17 toy_digest true 64 three17 blowup 2 = Panic /\
  fri_generate_machine X17 toy_digest false 64 three17 blowup 2 = Ret pf /\
  fp_domain_size pf = 4%N.
Proof.
have [blowup [lt _ E]] :=
  @C77_lost_blowup F17 X17 64%N three17 isT isT isT (three_fits (isT : (3 <= 64)%N)).
have [E1 E2] := E toy_digest 2%N.
have : (if fri_generate_proof X17 toy_digest three17 1 2 is Ret pf then fp_domain_size pf == 4%N else false).
  by vm_compute.
case E3: (fri_generate_proof _ _ _ _ _) => [pf|m|]; [|by []|by []]; move/eqP=> sz.
by exists blowup, pf; split; [exact: lt|split; [exact: E1|split; [rewrite E2 E3|exact: sz]]].
Qed.
