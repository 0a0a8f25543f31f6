(* C77: the FRI prover and verifier in machine arithmetic. *)
From Coq Require Import String Ascii NArith.
Set Warnings "-notation-overridden,-ambiguous-paths".
From mathcomp Require Import all_ssreflect all_algebra.
From mathcomp Require Import zify ring.
From Verif Require Import Base BaseLemmas ArkPoly ArkPolyLemmas ArkDomain ArkDomainLemmas FriModel
  FriComplete FriMachine.

Set Implicit Arguments.
Unset Strict Implicit.
Unset Printing Implicit Defensive.

Import GRing.Theory.
Local Open Scope ring_scope.

Lemma omapM_ext (A B : Type) (P : A -> Prop) (f g : A -> outcome B) (s : seq A) :
  (forall a, P a -> f a = g a) -> List.Forall P s -> omapM f s = omapM g s.
Proof.
move=> E; elim=> //= a l Pa _ IH; rewrite (E _ Pa) IH; reflexivity.
Qed.
Lemma omapM_same (A B : Type) (f g : A -> outcome B) (s : seq A) :
  (forall a, f a = g a) -> omapM f s = omapM g s.
Proof. by move=> E; elim: s => //= a s ->; rewrite E. Qed.
Lemma ofold_same (A B : Type) (f g : B -> A -> outcome B) (s : seq A) st :
  (forall b a, f b a = g b a) -> ofold f st s = ofold g st s.
Proof.
move=> E; elim: s st => //= a s IH st; rewrite E; case: (g st a) => [b|m|] //; exact: IH.
Qed.

Section Machine.
Variables (F : fieldType) (X : fri_env F) (H : bytes -> bytes) (checked : bool) (bits : nat).
Local Notation S := (two_adicity (fft X)).
Hypothesis wide : (S < bits)%N.

Lemma pow_wide : (2 * 2 ^ S <= 2 ^ bits)%N.
Proof. by rewrite -expnS leq_exp2l. Qed.

Lemma sym_index_small index n : (index < n)%N -> (n <= 2 ^ S)%N ->
  sym_index_word checked bits index n = umod (index + n %/ 2)%N n.
Proof.
move=> lt le; rewrite /sym_index_word word_small ?bindRet //.
apply: leq_trans pow_wide.
have : (n %/ 2 <= n)%N by exact: leq_div.
lia.
Qed.

Lemma domain_new_large n : (2 ^ S < n)%N -> domain_new (fft X) n = None.
Proof.
move=> lt; rewrite /domain_new; case: ifP => // le.
have := up_logP n (isT : (1 < 2)%N); have : (2 ^ up_log 2 n <= 2 ^ S)%N by rewrite leq_exp2l.
lia.
Qed.

Lemma verify_entries_same ch evals cv i n c es :
  verify_entries_word X checked bits ch evals cv i n c es = verify_entries X ch evals cv i n c es.
Proof.
elim: es i n c => //= -[[[[eval path] sym_eval] sym_path] r] es IH i n c.
rewrite /umod; case: eqP => //= /eqP n0; rewrite -/(umod _ _).
case: (leqP n (2 ^ S)) => [le|gt].
  rewrite sym_index_small ?ltn_pmod ?lt0n // /umod (negbTE n0) !bindRet.
  case: (unwrap _) => [d|m|] //; rewrite !bindRet.
  by rewrite !IH.
rewrite (domain_new_large gt) /=.
rewrite /sym_index_word /word /umod (negbTE n0).
by case: ifP => _ //=; case: (checked).
Qed.

Lemma verifier_same (pf : fri_proof F) : fri_verify_machine X H checked bits pf = fri_verify X H pf.
Proof.
rewrite /fri_verify_machine /fri_verify; case: (regen_challenges _ _ _ _) => [[rs t]|m|] //.
rewrite !bindRet; case: (tr_challenges_usize _ _ _) => [[raw t']|m|] //; rewrite !bindRet.
case: (omapM _ raw) => [chs|m|] //; rewrite !bindRet; apply: ofold_same => b [ch d].
exact: verify_entries_same.
Qed.

Lemma open_layer_same ch (l : fri_layer F) : (fl_domain_size l <= 2 ^ S)%N ->
  open_layer_word checked bits ch l = open_layer ch l.
Proof.
move=> le; rewrite /open_layer_word /open_layer /umod; case: eqP => //= /eqP n0; rewrite -/(umod _ _).
by rewrite sym_index_small ?ltn_pmod ?lt0n // /umod (negbTE n0).
Qed.

Lemma query_phase_same nq n t ls : List.Forall (fun l : fri_layer F => (fl_domain_size l <= 2 ^ S)%N) ls ->
  query_phase_word X checked bits nq n t ls = query_phase X nq n t ls.
Proof.
move=> small; rewrite /query_phase_word /query_phase; case: ifP => // _.
case: (tr_challenges_usize _ _ _) => [[raw t']|m|] //; rewrite !bindRet.
case: (omapM _ raw) => [chs|m|] //; rewrite !bindRet.
rewrite (@omapM_same _ _ (open_query_word checked bits ls) (open_query ls)) // => ch.
rewrite /open_query_word /open_query.
by rewrite (@omapM_ext _ _ _ (open_layer_word checked bits ch) (open_layer ch) ls (@open_layer_same ch) small).
Qed.

Lemma honest_layers_small (p : seq F) c n rs : (n <= S)%N ->
  List.Forall (fun l : fri_layer F => (fl_domain_size l <= 2 ^ S)%N) (honest_layers X p c n rs).
Proof.
elim: rs p c n => [|r rs IH] p c n le /=; constructor; rewrite /= ?leq_exp2l //.
by apply: IH; lia.
Qed.

(* generation for a given product *)
Lemma generate_machine_from (p : seq F) (nq m : nat) : (m < 2 ^ bits)%N ->
  (domain_size <- next_power_of_two_word checked bits m;;
   number_of_layers <- ilog2 domain_size;;
   '(const_val, t, layers) <- folding_phase X H p (generator X) domain_size number_of_layers;;
   '(ds, _, _) <- query_phase_word X checked bits nq domain_size t layers;;
   roots <- omapM (fun l => mt_root (fl_merkle_tree l)) layers;;
   Ret (FriProof domain_size (generator X) nq roots const_val ds))
  = fri_generate_on X H p (next_power_of_two m) nq.
Proof.
move=> lt; rewrite /next_power_of_two_word /fri_generate_on /next_power_of_two.
set n := up_log 2 m.
case: (leqP n S) => [le|gt]; last first.
  have -> : obind (ilog2 (2 ^ n)) (fun number_of_layers =>
    '(const_val, t, layers) <- folding_phase X H p (generator X) (2 ^ n) number_of_layers;;
    '(ds, _, _) <- query_phase X nq (2 ^ n) t layers;;
    roots <- omapM (fun l => mt_root (fl_merkle_tree l)) layers;;
    Ret (FriProof (2 ^ n) (generator X) nq roots const_val ds)) = Panic.
    rewrite ilog2_pow2 bindRet /folding_phase; case: (n) gt => // k gt.
    rewrite /ilog2 /= layer_from_polyE leqNgt gt //.
  have nb : (n <= bits)%N by rewrite /n; apply: up_log_min => //; apply: ltnW.
  rewrite /word; case: ifP => [lt2|].
    rewrite bindRet ilog2_pow2 bindRet /folding_phase; case: (n) gt => // k gt.
    by rewrite /ilog2 /= layer_from_polyE leqNgt gt.
  move/negbT; rewrite -leqNgt leq_exp2l // => bn.
  have -> : n = bits by apply/eqP; rewrite eqn_leq nb bn.
  by case: (checked) => //; rewrite modnn.
have lt2 : (2 ^ n < 2 ^ bits)%N by rewrite ltn_exp2l //; apply: leq_ltn_trans wide.
rewrite word_small // bindRet ilog2_pow2 !bindRet.
case E: (folding_phase _ _ _ _ _ _) => [[[cst t] ls]|msg|] //; rewrite !bindRet.
have [rs [t' [_ _ _ -> _]]] := folding_phase_Ret E.
by rewrite query_phase_same //; exact: honest_layers_small.
Qed.

Lemma prover_checks (p : seq F) (blowup nq : nat) : checked = true ->
  fri_generate_machine X H checked bits p blowup nq = fri_generate_proof X H p blowup nq.
Proof.
move=> ch; rewrite /fri_generate_machine {1}/word; case: ifP => [lt|].
  by rewrite bindRet generate_machine_from.
move/negbT; rewrite -leqNgt ch => le; symmetry; apply: fri_generate_panic_large.
rewrite /next_power_of_two ltn_exp2l //.
have : (2 ^ bits <= 2 ^ up_log 2 (size p * blowup))%N := leq_trans le (up_logP _ (isT : (1 < 2)%N)).
by rewrite leq_exp2l //; apply: leq_trans.
Qed.

Lemma prover_wraps (p : seq F) (blowup nq : nat) : checked = false ->
  fri_generate_machine X H checked bits p blowup nq =
  fri_generate_on X H p (next_power_of_two ((size p * blowup) %% 2 ^ bits)) nq.
Proof.
move=> ch; rewrite /fri_generate_machine {1}ch word_wraps bindRet generate_machine_from //.
by rewrite ltn_pmod // expn_gt0.
Qed.

End Machine.

(* The verifier's verdict on every proof is the one of exact arithmetic, in both
   builds: only the sum giving the opposite index can overflow, and then the claimed
   domain is larger than the field allows. *)
Theorem C77_verifier (F : fieldType) (X : fri_env F) (H : bytes -> bytes) (checked : bool) (bits : nat)
  (pf : fri_proof F) : (two_adicity (fft X) < bits)%N ->
  fri_verify_machine X H checked bits pf = fri_verify X H pf.
Proof. by move=> wide; exact: verifier_same. Qed.

(* With overflow checks the prover's result is the one of exact arithmetic. *)
Theorem C77_prover_with_checks (F : fieldType) (X : fri_env F) (H : bytes -> bytes) (bits : nat)
  (p : seq F) (blowup nq : nat) : (two_adicity (fft X) < bits)%N ->
  fri_generate_machine X H true bits p blowup nq = fri_generate_proof X H p blowup nq.
Proof. by move=> wide; exact: prover_checks. Qed.

(* Without them the domain size is computed from the product modulo the word size.
   Whatever is generated is still accepted. *)
Theorem C77_prover_without_checks (F : fieldType) (X : fri_env F) (H : bytes -> bytes) (bits : nat)
  (p : seq F) (blowup nq : nat) : (two_adicity (fft X) < bits)%N ->
  fri_generate_machine X H false bits p blowup nq =
  fri_generate_on X H p (next_power_of_two ((size p * blowup) %% 2 ^ bits)) nq.
Proof. by move=> wide; exact: prover_wraps. Qed.

Theorem C77_completeness (F : fieldType) (X : fri_env F) (H : bytes -> bytes) (checked : bool) (bits : nat)
  (p : seq F) (blowup nq : nat) (pf : fri_proof F) :
  fft_ok (fft X) -> generator X != 0 -> (two_adicity (fft X) < bits)%N ->
  fri_generate_machine X H checked bits p blowup nq = Ret pf ->
  fri_verify_machine X H checked bits pf = Ret tt.
Proof.
move=> ok g0 wide; rewrite C77_verifier //; case: checked.
  by rewrite C77_prover_with_checks //; exact: fri_completeness.
by rewrite C77_prover_without_checks // /next_power_of_two; exact: fri_on_completeness.
Qed.

Lemma inverse_mod (m M : nat) : (0 < m)%N -> (1 < M)%N -> coprime m M ->
  exists u, [/\ (0 < u)%N, (u < M)%N & ((m * u) %% M = 1)%N].
Proof.
move=> m0 M1 co; case: (egcdnP M m0) => km kn E _; move: E; rewrite (eqP co) => E.
exists (km %% M)%N; have h : ((m * (km %% M)) %% M = 1)%N.
  by rewrite modnMmr mulnC E modnMDl modn_small.
split=> //; last by rewrite ltn_pmod //; lia.
by rewrite lt0n; apply/eqP => k0; move: h; rewrite k0 muln0 mod0n.
Qed.

Lemma up_log_odd m : odd m -> (2 < m)%N -> up_log 2 m.+1 = up_log 2 m.
Proof.
move=> od m2; apply/eqP; rewrite eqn_leq; apply/andP; split; last exact: leq_up_log.
apply: up_log_min => //.
have le := up_logP m (isT : (1 < 2)%N); rewrite ltn_neqAle le andbT.
apply/eqP => E; move: od; rewrite {1}E oddX /= orbF => /eqP k0.
by move: m2; rewrite E k0.
Qed.

(* A blow-up factor can then be lost: for every polynomial with an odd number of
   coefficients, at least 3, there is a factor above 1 that overflows and for which
   the build without checks returns the proof for the factor 1. *)
Theorem C77_lost_blowup (F : fieldType) (X : fri_env F) (bits : nat) (p : seq F) :
  (two_adicity (fft X) < bits)%N -> odd (size p) -> (2 < size p)%N -> (size p < (2 ^ bits).-1)%N ->
  exists blowup, [/\ (1 < blowup < 2 ^ bits)%N, (2 ^ bits < size p * blowup)%N &
    forall H nq,
      fri_generate_machine X H true bits p blowup nq = Panic /\
      fri_generate_machine X H false bits p blowup nq = fri_generate_proof X H p 1 nq].
Proof.
move=> wide od m2 small; set m := size p; set M := (2 ^ bits)%N.
have M0 : (0 < M)%N by rewrite expn_gt0.
have b0 : (0 < bits)%N by apply: leq_ltn_trans wide.
have co : coprime m M by rewrite coprimeXr // coprimen2.
have mM : (m < M.-1)%N := small.
have [||u [u0 uM E]] := inverse_mod _ _ co; [lia|lia|].
have uM1 : (u < M.-1)%N.
  have [//|ge] := ltnP u M.-1; have Eu : u = M.-1 by lia.
  move: E; rewrite Eu => E; have : ((m * M.-1 + m) %% M = m.+1)%N.
    by rewrite -modnDml E add1n modn_small //; lia.
  rewrite -[X in (_ + X)%N]muln1 -mulnDr addn1 prednK // modnMl => /esym; lia.
have Eb : ((m * u.+1) %% M = m.+1)%N by rewrite mulnS addnC -modnDml E add1n modn_small //; lia.
have big : (M < m * u.+1)%N.
  have [//|le] := ltnP M (m * u.+1); exfalso.
  move: le; rewrite leq_eqVlt => /orP[/eqP Em|lt].
    by move: Eb; rewrite Em modnn.
  move: Eb; rewrite modn_small // => Em.
  have : (m %| m.+1)%N by rewrite -Em dvdn_mulr.
  by rewrite -addn1 dvdn_addr // dvdn1 => /eqP; lia.
exists u.+1; split=> [|//|H nq]; first by lia.
rewrite C77_prover_with_checks // C77_prover_without_checks // -/m Eb; split.
  apply: fri_generate_panic_large; rewrite /next_power_of_two ltn_exp2l //.
  have : (2 ^ bits <= 2 ^ up_log 2 (size p * u.+1))%N.
    exact: leq_trans (ltnW big) (up_logP _ (isT : (1 < 2)%N)).
  by rewrite leq_exp2l //; apply: leq_trans.
by rewrite /fri_generate_proof /next_power_of_two muln1 (up_log_odd od m2).
Qed.
