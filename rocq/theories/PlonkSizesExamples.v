(* Concrete cases for C83, over F_97 with words of 64 bits: the repository's test
   circuit, the empty circuit (which compiles in a release build and is then refused
   by the prover) and the size usize::MAX. *)
From Coq Require Import NArith.
Set Warnings "-notation-overridden,-ambiguous-paths".
From mathcomp Require Import all_ssreflect all_algebra.
From mathcomp Require Import zify.
From Verif Require Import Base ArkDomain ArkDomainLemmas KzgModel KzgSpec PlonkModel PlonkSpec PlonkCompile PlonkProps
  PlonkExamples PlonkMachine PlonkSizesProps.

Set Implicit Arguments.
Unset Strict Implicit.
Unset Printing Implicit Defensive.

Import GRing.Theory.
Local Open Scope ring_scope.

Lemma small_size n bits : (n <= 5)%N -> (3 <= bits)%N -> (n < 2 ^ bits)%N.
Proof.
by move=> n5 b3; apply: leq_trans (_ : 2 ^ 3 <= _)%N; [apply: leq_ltn_trans n5 _|rewrite leq_pexp2l].
Qed.

Example test_circuit97 checked :
  compile_machine P97 checked 64 (build (calls97 25)) = compile P97 (build (calls97 25)).
Proof.
by apply: C83_nonempty; [|rewrite buildE size_map; apply/andP; split; last apply: small_size].
Qed.

Definition empty97 : compiled_circuit K97 :=
  CompiledCircuit 1
    {| f_ax := [::]; f_bx := [::]; f_cx := [::]; q_lx := [::]; q_rx := [::];
       q_ox := [::]; q_mx := [::]; q_cx := [::]; pi_x := [::] |}
    (CopyConstraints [:: 1] [:: 2%:R] [:: 3%:R] 2%:R 3%:R).
Example empty_compiles97 :
  compile_machine P97 true 64 (circuit_default K97) = Panic /\
  compile_machine P97 false 64 (circuit_default K97) = Ret empty97.
Proof. by apply: C83_empty => //; exact: ok97. Qed.
Example empty_unprovable97 b S pf : generate_proof X97 (pk_sha256 X97) b empty97 S <> Ret pf.
Proof.
have [_ E] := empty_compiles97; apply: (@C83_empty_unprovable _ P97 _ _ 64) E => //; exact: ok97.
Qed.

(* the largest word as a size, for any word of at least three bits *)
Lemma largest_word bits : (2 < bits)%N ->
  (1 < bits)%N /\ (2 ^ bits - 1 < 2 ^ bits)%N /\ (2 ^ bits <= 2 ^ bits - 1 + 3)%N.
Proof.
move=> b2; have p0 : (0 < 2 ^ bits)%N by rewrite expn_gt0.
by split; [exact: ltnW|]; move: p0; set x := (2 ^ bits)%N; clearbody x; clear; lia.
Qed.
Example largest97 : srs_new_machine true 64 E97 s97 (2 ^ 64 - 1) = Panic /\
  exists2 S, srs_new_machine false 64 E97 s97 (2 ^ 64 - 1) = Ret S &
  kzg_commit S [:: 1; 0; 1] = Panic.
Proof.
have [b1 [lt ge]] := @largest_word 64 isT; split.
  by rewrite (C83_srs E97 true s97 b1 lt) ltnNge ge.
have E := C83_srs E97 false s97 b1 lt; rewrite ltnNge ge in E.
exists (Srs (take (2 ^ 64 - 1 + 3 - 2 ^ 64) (srs_g1_points (srs_new_from_secret E97 s97 (2 ^ 64 - 1))))
   (g2_gen E97) (s97 *: g2_gen E97)); first exact: E.
by apply: C83_srs_useless b1 lt ge E _ _.
Qed.
