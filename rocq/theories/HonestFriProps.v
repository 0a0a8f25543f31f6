(* C85, FRI: an honest prover fails for a small share of the challenges only. *)
From Coq Require Import String Ascii NArith.
Set Warnings "-notation-overridden,-ambiguous-paths".
From mathcomp Require Import all_ssreflect all_algebra.
From mathcomp Require Import zify ring.
From Verif Require Import Base BaseLemmas ArkPoly ArkPolyLemmas ArkDomain ArkDomainLemmas.
From Verif Require Import FriModel FriMerkle FriSound FriTranscript FriSpec FriSpecLemmas FriProps
  Concrete ConcreteProps PlonkFsSpec PlonkFsProps PlonkErrorProps OracleProver HonestErrorSpec
  HonestErrorProps FriQueryProps.

Set Implicit Arguments.
Unset Strict Implicit.
Unset Printing Implicit Defensive.

Import GRing.Theory.
Local Open Scope ring_scope.

Lemma few_fold (F : fieldType) (f : {poly F}) (rs : seq F) : f != 0 -> uniq rs ->
  (forall r, r \in rs -> fold_poly f r = 0) -> (size rs <= 1)%N.
Proof.
move=> f0 ur Hr; case: rs ur Hr => [|r [|r' rs]] // /=; rewrite inE negb_or => /andP[/andP[ne _] _] Hr.
have e1 : fold_poly f r = 0 by apply: Hr; rewrite mem_head.
have e2 : fold_poly f r' = 0 by apply: Hr; rewrite !inE eqxx orbT.
have odd0 : odd_part f = 0.
  have : (r - r') *: odd_part f = 0.
    by rewrite scalerBl -[RHS](subrr 0) -{1}e1 -e2 /fold_poly opprD addrACA subrr add0r.
  by move/eqP; rewrite scaler_eq0 subr_eq0 (negbTE ne) => /eqP.
have even0 : even_part f = 0 by move: e1; rewrite /fold_poly odd0 scaler0 addr0.
case/negP: f0; apply/eqP/polyP => i; rewrite coef0; case: (ltnP i (size f)) => [li|]; last exact: nth_default.
rewrite -[i]odd_double_half; case: (odd i); rewrite ?add1n ?add0n.
  have := congr1 (fun g : {poly F} => g`_(i./2)) odd0; rewrite coef0 coef_poly ifT //.
  by apply: leq_ltn_trans li; rewrite -divn2 leq_div.
have := congr1 (fun g : {poly F} => g`_(i./2)) even0; rewrite coef0 coef_poly ifT //.
by apply: leq_ltn_trans li; rewrite -divn2 leq_div.
Qed.

Section Fri.
Variables (F : finFieldType) (X : fri_env F) (H : bytes -> bytes).
Variables (K : nat) (K0 : (0 < K)%N).
Hypotheses (K64 : (256 ^ 8 <= K)%N) (ok : fft_consts_ok X) (long : digest_8_bytes H).
Local Notation table := {ffun 'I_K -> F}.
Local Notation Xt t := (fri_with_table K0 X t).
Variables (p : seq F) (blowup nq : nat).
Local Notation n := (up_log 2 (size p * blowup)%N).
Local Notation f := (Poly p).
Local Notation c := (generator X).
Implicit Types (q : seq F) (t : table).

Local Notation loc := (fun q : seq F => entry K0 (le_decode (take 8 (chain X H (0 :: q))))).

Lemma challenge_table t roots j : fri_challenge (Xt t) H roots j = t (loc (take j.+1 roots)).
Proof. by []. Qed.

Fixpoint asker (k j : nat) (rs : seq F) (g : {poly F}) : oracle_prover (seq F) F unit :=
  if k is k'.+1 then
    let rs' := rcons rs (merkle_root X (n - j) (coset_values X g (c ^+ (2 ^ j)) (n - j))) in
    Ask rs' (fun r => asker k' j.+1 rs' (fold_poly g r))
  else Answer tt.

Lemma foldedS t roots j : folded (Xt t) H f roots j.+1 =
  fold_poly (folded (Xt t) H f roots j) (t (loc (take j.+1 roots))).
Proof. by rewrite /folded mkseqS foldl_rcons. Qed.

Lemma asked_fri t roots : honest_root_list (Xt t) H f c n roots ->
  asked loc (asker n 0 [::] f) t = [seq take j.+1 roots | j <- iota 0 n].
Proof.
case=> sz hon; have gen k j : (j + k = n)%N ->
    asked loc (asker k j (take j roots) (folded (Xt t) H f roots j)) t = [seq take i.+1 roots | i <- iota j k].
  elim: k j => [|k IH] j // jk; have lj : (j < n)%N by rewrite -jk addnS ltnS leq_addr.
  have e : rcons (take j roots) (merkle_root X (n - j)
      (coset_values X (folded (Xt t) H f roots j) (c ^+ (2 ^ j)) (n - j))) = take j.+1 roots.
    by rewrite (take_nth 0) ?sz // hon.
  rewrite [asker _ _ _ _]/= e [asked _ _ _]/= -foldedS IH //; first by rewrite addSnnS.
by have := gen n 0%N (add0n _); rewrite take0.
Qed.

Lemma size_asked t : size (asked loc (asker n 0 [::] f) t) = n.
Proof.
have gen k j rs g : size (asked loc (asker k j rs g) t) = k by elim: k j rs g => //= k IH j rs g; rewrite IH.
exact: gen.
Qed.

Definition bad_fold q t : Prop :=
  [/\ forall j, (0 < j < size q)%N -> loc (take j q) != loc q,
      folded (Xt t) H f q (size q).-1 != 0, folded (Xt t) H f q (size q) = 0 & (0 < size q)%N].

Lemma few_bad_fold q t (ys : seq F) : uniq ys -> (forall y, y \in ys -> bad_fold q (upd t (loc q) y)) ->
  (size ys <= 1)%N.
Proof.
move=> uy Hy; case E: ys => [|y0 ys'] //; rewrite -E.
have [dif nz0 _ q0] : bad_fold q (upd t (loc q) y0) by apply: Hy; rewrite E mem_head.
have same y j : (j < size q)%N -> folded (Xt (upd t (loc q) y)) H f q j = folded (Xt t) H f q j.
  move=> lj; rewrite /folded; congr foldl; rewrite /mkseq; apply/eq_in_map => i; rewrite mem_iota add0n => /andP[_ li].
  rewrite !challenge_table ffunE ifF //; apply/negbTE/dif; rewrite ltn0Sn; exact: leq_ltn_trans li lj.
have nz : folded (Xt t) H f q (size q).-1 != 0 by rewrite -(same y0) // prednK.
apply: (few_fold nz uy) => y /Hy[_ _ + _].
rewrite -{1}(prednK q0) foldedS same ?prednK // take_size upd_same; exact.
Qed.

(* For a non-zero polynomial and a domain within the field's two-adicity, the share
   of tables for which the prover fails, or its proof is not accepted, is at most
   n / card F for a domain of 2^n points - counting the runs that draw their folding
   challenges from different seeds. *)
Theorem C85_fri_honest_failures (tbls : seq table) :
  f != 0 -> (0 < n <= two_adicity (fft X))%N -> c != 0 -> uniq tbls ->
  (forall t, t \in tbls ->
     (forall roots, honest_root_list (Xt t) H f c n roots -> fold_seeds_differ X H roots) /\
     ~ (exists2 pf, fri_generate_proof (Xt t) H p blowup nq = Ret pf & fri_verify (Xt t) H pf = Ret tt)) ->
  (size tbls * #|F| <= n * #|{: table}|)%N.
Proof.
move=> f0 /andP[n0 nS] c0 ut Ht.
have szn t : (size (asked loc (asker n 0 [::] f) t) <= n)%N by rewrite size_asked.
have := unlucky_share few_bad_fold szn ut; rewrite muln1; apply=> t ti.
have [dif nf] := Ht t ti.
have [pan ret] := @C08_generate_panics_iff F (Xt t) H p blowup nq ok long.
have : fri_generate_proof (Xt t) H p blowup nq = Panic.
  case Eg: (fri_generate_proof _ _ _ _ _) => [pf|e|] //.
    by case: nf; exists pf => //; apply: C07_fri_completeness Eg.
  by have [|pf] := ret; rewrite Eg.
case/pan=> [e|lt|[roots hon end0]].
- by move: n0; rewrite e.
- by move: lt; rewrite ltnNge [two_adicity _ ]/= nS.
have [sz _] := hon; have dr := dif roots hon.
have [j lj [nzj zj]] : exists2 j, (j < n)%N & folded (Xt t) H f roots j != 0 /\ folded (Xt t) H f roots j.+1 = 0.
  have gen k : (k <= n)%N -> folded (Xt t) H f roots k = 0 ->
      exists2 j, (j < n)%N & folded (Xt t) H f roots j != 0 /\ folded (Xt t) H f roots j.+1 = 0.
    elim: k => [_ e|k IH lk e]; first by case/eqP: f0; rewrite -[RHS]e.
    have [z|nz] := eqVneq (folded (Xt t) H f roots k) 0; first exact: (IH (ltnW lk) z).
    by exists k.
  exact: (gen n (leqnn n) end0).
have sq : size (take j.+1 roots) = j.+1 by rewrite size_takel // sz.
have same i : (i <= j.+1)%N -> folded (Xt t) H f (take j.+1 roots) i = folded (Xt t) H f roots i.
  move=> li; rewrite /folded; congr foldl; rewrite /mkseq; apply/eq_in_map => k; rewrite mem_iota add0n => /andP[_ lk].
  by rewrite !challenge_table take_take // (leq_trans lk).
have loc_ne i k : (i < n)%N -> (k < n)%N -> loc (take i.+1 roots) = loc (take k.+1 roots) -> i = k.
  move=> li lk /(entry_inj K64) e; apply/eqP; move: dr; rewrite /fold_seeds_differ sz => u.
  rewrite -(nth_uniq 0%num _ _ u) ?size_map ?size_iota //.
  by rewrite !(nth_map 0%N) ?size_iota // !nth_iota // !add0n; apply/eqP.
exists (take j.+1 roots).
  by rewrite (asked_fri hon); apply/mapP; exists j; rewrite ?mem_iota ?add0n.
split.
  split; rewrite ?sq //.
  - case=> [|i] // /andP[_ li]; rewrite take_take 1?ltnW //; apply/eqP => e.
    have lij : (i < j)%N by [].

    by have := loc_ne i j (ltn_trans lij lj) lj e; move: li => /[swap] ->; rewrite ltnn.
  - by rewrite same //= .
  - by rewrite same.
move=> q'; rewrite (asked_fri hon) => /mapP[i]; rewrite mem_iota add0n => /andP[_ li] -> /loc_ne -> //.
Qed.

End Fri.

Lemma goldilocks_big : (2 ^ 63 <= goldilocks_p)%num.
Proof. by vm_compute. Qed.

(* Goldilocks, domains of up to 2^32 points: at most one in 2^58 tables. *)
Theorem C85_fri_goldilocks (F : finFieldType) (X : fri_env F) (H : bytes -> bytes) (K : nat) (K0 : (0 < K)%N)
  (p : seq F) (blowup nq : nat) (tbls : seq {ffun 'I_K -> F}) :
  #|F| = N.to_nat goldilocks_p -> fft X = goldilocks_fft F -> generator X = 7%:R -> K = (2 ^ 64)%N ->
  digest_8_bytes H -> Poly p != 0 ->
  let n := up_log 2 (size p * blowup)%N in (0 < n <= 32)%N -> uniq tbls ->
  (forall t, t \in tbls ->
     (forall roots, honest_root_list (fri_with_table K0 X t) H (Poly p) (generator X) n roots ->
        fold_seeds_differ X H roots) /\
     ~ (exists2 pf, fri_generate_proof (fri_with_table K0 X t) H p blowup nq = Ret pf
          & fri_verify (fri_with_table K0 X t) H pf = Ret tt)) ->
  (2 ^ 58 * size tbls <= #|{: {ffun 'I_K -> F}}|)%N.
Proof.
move=> cF Ef Eg eK long f0 n /andP[n0 n32] ut Ht.
have [_ gp] := C63_goldilocks_prime.
have char : N.to_nat goldilocks_p \in [char F] by exact: (char_of_card cF gp).
have [pr _ okF] := C63_goldilocks char.
have ok : fft_consts_ok X by rewrite /fft_consts_ok Ef.
have c0 : generator X != 0.
  rewrite Eg; apply/eqP => E0; move/eqP: (prim_expr_order pr); rewrite E0 expr0n.
  have := prime_gt1 gp; set m := N.to_nat _ => n1.
  have -> : (m.-1 == 0)%N = false by apply/eqP; clear -n1; lia.
  by rewrite eq_sym oner_eq0.
have nS : (0 < n <= two_adicity (fft X))%N by rewrite n0 Ef; exact: n32.
have le := C85_fri_honest_failures (word_seeds eK) ok long f0 nS c0 ut Ht.
have big : (2 ^ (58 + 5) <= #|F|)%N by rewrite cF; exact: (@to_nat_pow 63%num goldilocks_p goldilocks_big).
have := @fs_share #|F| (size tbls) 1 _ #|{: {ffun 'I_K -> F}}| 58 5 _ n32 big.
rewrite !mul1n; apply; exact: le.
Qed.
