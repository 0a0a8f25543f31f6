(* Concrete cases for C85: a satisfied circuit over F_97 whose honest run fails for
   the table that always answers 1, and a polynomial over F_17 that the FRI prover
   cannot prove for the table that always answers -1; in both cases every table's
   run draws its challenges from different seeds, so the theorems bound the share of
   all failing tables. *)
From Coq Require Import String Ascii NArith.
Set Warnings "-notation-overridden,-ambiguous-paths".
From mathcomp Require Import all_ssreflect all_algebra.
From mathcomp Require Import zify.
From Verif Require Import Base BaseLemmas ArkPoly ArkDomain ArkDomainLemmas KzgModel KzgSpec
  PlonkModel PlonkSpec PlonkLemmas PlonkRefine PlonkProve PlonkCompile PlonkProps PlonkExamples
  PlonkFsSpec PlonkFsExamples HonestErrorSpec HonestErrorProps.
From Verif Require FriModel FriSpec FriProps FriExamples FriQueryExamples HonestFriProps.

Set Implicit Arguments.
Unset Strict Implicit.
Unset Printing Implicit Defensive.

Import GRing.Theory.
Local Open Scope ring_scope.

Section Plonk97.
Definition L97 := [finFieldType of 'F_97].
Definition D97 : pairing_group L97 := E97.
Definition Z97 : plonk_env D97 :=
  @PlonkEnv L97 D97 (P97 : fft_field L97) counting_digest (fun _ => [::]) (pk_rand X97).
Definition call97 : seq (gate_call L97) := calls97 25.
Variables (K : nat) (K0 : (0 < K)%N) (K64 : (256 ^ 8 <= K)%N).
Definition table1 : rand_table L97 K := [ffun _ => (1, 1)].

Lemma good97 : good_blinders (b97 : nat -> L97).
Proof. by vm_compute. Qed.

Lemma differ97 (t : rand_table L97 K) cc : run_seeds_differ (with_table K0 Z97 t) cc (b97 : nat -> L97) s97.
Proof.
have e cs : size cs = 3%N \/ size cs = 4%N \/ size cs = 7%N ->
    seed_after (with_table K0 Z97 t) counting_digest cs = N.of_nat (size cs).
  by case=> [|[]]; do 8?[case: cs => [|? cs] //].
rewrite /run_seeds_differ !e ?size_cat //=; tauto.
Qed.

Lemma compiled97 : exists2 cc, compile (pk_fft Z97) (build call97) = Ret cc & cc_size cc = 4%N.
Proof.
have [cc [pf [Ec _ _]]] := (@run_accepted K97 E97 X97 b97 s97 (calls97 25) accepted97).
by exists cc; [exact: Ec|have [-> _ _ _] := compile_inv Ec].
Qed.

Lemma fails97 T cc m : compile (pk_fft Z97) (build call97) = Ret cc -> (cc_size cc <= m)%N ->
  ~ proved_and_accepted (with_table K0 Z97 table1) T cc (b97 : nat -> L97) s97 m.
Proof.
move=> Ec nm [pf Eg Ev].
have := @C49_completeness L97 D97 (with_table K0 Z97 table1) okE97 ok97 counting_long
 call97 cc Ec s97 m nm b97 T pf Eg.
rewrite Ev (_ : ch_zeta _ _ _ = 1) ?eqxx //.
by rewrite /ch_zeta /fs_challenge /= ffunE.
Qed.

Example honest97 T : exists2 cc, compile (pk_fft Z97) (build call97) = Ret cc &
  forall tbls : seq (rand_table L97 K), uniq tbls ->
  (forall t, t \in tbls -> ~ proved_and_accepted (with_table K0 Z97 t) T cc (b97 : nat -> L97) s97 8) ->
  (size tbls * 97 <= 78 * #|{: rand_table L97 K}|)%N.
Proof.
have [cc Ec sz] := compiled97; exists cc => // tbls ut Ht.
have /and4P[h1 h2 h3 h4] := satisfied97.
have /and4P[_ _ _ nz3] := cosets97.
have bd : (4 * cc_size cc + 6 <= 2 ^ two_adicity (pk_fft Z97))%N by rewrite sz.
have nm : (cc_size cc <= 8)%N by rewrite sz.
have h2' : positions_permute call97 (cc_size cc) by rewrite sz; exact: h2.
have h3' : copies_hold call97 (cc_size cc) by rewrite sz; exact: h3.
have Ht' t : t \in tbls -> run_seeds_differ (with_table K0 Z97 t) cc (b97 : nat -> L97) s97 /\
    ~ proved_and_accepted (with_table K0 Z97 t) T cc (b97 : nat -> L97) s97 8.
  by move=> ti; split; [exact: differ97|exact: Ht].
have := C85_plonk_honest_failures (okE97 : pairing_ok D97) (ok97 : fft_ok (pk_fft Z97)) Ec good97 nz3 nm
  (counting_long : PlonkSpec.digest_long (pk_sha256 Z97)) K64 bd h1 h2' h3' ut Ht'.
by rewrite sz card_Fp.
Qed.
End Plonk97.

Section Fri17.
Import FriModel FriSpec FriProps FriExamples FriQueryExamples HonestFriProps.
Variables (K : nat) (K0 : (0 < K)%N) (K64 : (256 ^ 8 <= K)%N).
Definition line17 : seq K17 := [:: 1; 1].
Definition table17 : {ffun 'I_K -> K17} := [ffun _ => -1].

Lemma one_root (F : fieldType) (X : fri_env F) H f c :
  honest_root_list X H f c 1 [:: merkle_root X 1 (coset_values X f c 1)].
Proof. by split=> // -[] // _; rewrite expn0 expr1 subn0. Qed.
Lemma one_folded (F : fieldType) (X : fri_env F) H f r :
  folded X H f [:: r] 1 = fold_poly f (rng_stream X (le_decode (take 8 (chain X H [:: 0; r]))) 0).
Proof. by []. Qed.
Lemma const_table s : rng_stream (fri_with_table K0 Y17 table17) s 0 = -1.
Proof. by rewrite -[LHS]/(table17 (entry K0 s)) ffunE. Qed.
Lemma line_folds : fold_poly (Poly line17) (-1) = 0.
Proof.
have eL : Poly line17 = 'X + 1 by rewrite /= !cons_poly_def mul0r add0r mul1r.
rewrite eL; apply/polyP => i; rewrite coef0 coefD coefZ !coef_poly !coefD !coefX !coef1.
by rewrite size_XaddC; case: i => [|[|i]] //=; rewrite ?mulN1r ?subrr ?mulr0 ?addr0 // add0r addr0 mulr1 subrr.
Qed.

(* 1 + X folds to 1 + r: the prover fails when the challenge is -1 *)
Lemma fails17 : fri_generate_proof (fri_with_table K0 Y17 table17) toy_digest line17 1 1 = Panic.
Proof.
have okY : fft_consts_ok Y17 := X17_consts.
set Yt := fri_with_table _ _ _.
have [pan _] := @C08_generate_panics_iff _ Yt toy_digest line17 1 1 okY X17_digest.
have n1 : up_log 2 (size line17 * 1) = 1%N by [].
apply/pan; constructor 3; rewrite n1.
exists [:: merkle_root Yt 1 (coset_values Yt (Poly line17) (generator Yt) 1)]; first exact: one_root.
rewrite one_folded const_table; exact: line_folds.
Qed.

Example honest17 (tbls : seq {ffun 'I_K -> K17}) : uniq tbls ->
  (forall t, t \in tbls -> ~ (exists2 pf, fri_generate_proof (fri_with_table K0 Y17 t) toy_digest line17 1 1 = Ret pf
     & fri_verify (fri_with_table K0 Y17 t) toy_digest pf = Ret tt)) ->
  (size tbls * 17 <= #|{: {ffun 'I_K -> K17}}|)%N.
Proof.
move=> ut Ht; have okY : fft_consts_ok Y17 := X17_consts.
have f0 : Poly line17 != 0 by apply/eqP => /(congr1 (fun f : {poly K17} => f`_0)); rewrite coef_Poly coef0 => /eqP; vm_compute.
have Ht' t : t \in tbls ->
  (forall roots, honest_root_list (fri_with_table K0 Y17 t) toy_digest (Poly line17) (generator Y17)
       (up_log 2 (size line17 * 1)%N) roots -> fold_seeds_differ Y17 toy_digest roots) /\
  ~ (exists2 pf, fri_generate_proof (fri_with_table K0 Y17 t) toy_digest line17 1 1 = Ret pf
     & fri_verify (fri_with_table K0 Y17 t) toy_digest pf = Ret tt).
  by move=> ti; split; [move=> roots [sz _]; rewrite /fold_seeds_differ sz|exact: Ht].
have nS : (0 < up_log 2 (size line17 * 1) <= two_adicity (fft Y17))%N by [].
have := C85_fri_honest_failures K64 okY X17_digest f0 nS X17_generator ut Ht'.
by rewrite Y17_card mul1n.
Qed.
End Fri17.
