(* Lemmas about Base.v. *)
From Coq Require Import String Ascii NArith.
Set Warnings "-notation-overridden,-ambiguous-paths".
From mathcomp Require Import all_ssreflect all_algebra.
From mathcomp Require Import zify.
From Verif Require Import Base.

Set Implicit Arguments.
Unset Strict Implicit.
Unset Printing Implicit Defensive.

(* ---- outcomes ---- *)
Lemma obind_Ret (A B : Type) (m : outcome A) (k : A -> outcome B) (b : B) :
  obind m k = Ret b -> exists2 a, m = Ret a & k a = Ret b.
Proof. by case: m => //= a E; exists a. Qed.

Lemma bindRet (A B : Type) (a : A) (k : A -> outcome B) : obind (Ret a) k = k a.
Proof. by []. Qed.

(* peel one bind off a hypothesis `obind _ _ = Ret _ -> _` in the goal *)
Ltac inv_bind :=
  match goal with
  | |- obind _ _ = Ret _ -> _ =>
      let E := fresh "E" in move=> E; case: (obind_Ret E) => {E}
  end.

Lemma obind_Panic (A B : Type) (m : outcome A) (k : A -> outcome B) :
  obind m k = Panic <-> m = Panic \/ exists2 a, m = Ret a & k a = Panic.
Proof.
case: m => [a|s|] /=; split=> //.
- by move=> E; right; exists a.
- by case=> // -[a' [->]].
- by case=> // -[].
- by left.
Qed.

Lemma index_at_Ret (A : Type) (x0 : A) (s : seq A) (i : nat) :
  i < size s -> index_at s i = Ret (nth x0 s i).
Proof. by move=> lt; rewrite /index_at (drop_nth x0 lt). Qed.

Lemma index_at_Panic (A : Type) (s : seq A) (i : nat) :
  size s <= i -> index_at s i = Panic.
Proof. by move=> le; rewrite /index_at drop_oversize. Qed.

Lemma index_atP (A : Type) (x0 : A) (s : seq A) (i : nat) (a : A) :
  index_at s i = Ret a <-> i < size s /\ a = nth x0 s i.
Proof.
split; last by case=> lt ->; exact: index_at_Ret.
case: (ltnP i (size s)) => [lt|le]; last by rewrite (index_at_Panic le).
by rewrite (index_at_Ret x0 lt) => -[<-].
Qed.

Lemma index_at_is_panic (A : Type) (s : seq A) (i : nat) :
  (index_at s i = Panic) <-> (size s <= i).
Proof.
split; last exact: index_at_Panic.
case: s => [|a s] //; case: (leqP (size (a :: s)) i) => // lt.
by rewrite (index_at_Ret a lt).
Qed.

Lemma omapM_Ret (A B : Type) (f : A -> outcome B) (s : seq A) (bs : seq B) :
  omapM f s = Ret bs -> size bs = size s.
Proof.
elim: s bs => [|a s IH] bs /=; first by case=> <-.
by inv_bind=> b _; inv_bind=> bs' /IH E [<-] /=; rewrite E.
Qed.

Lemma omapM_total (A B : Type) (f : A -> outcome B) (g : A -> B) (s : seq A) :
  (forall a, List.In a s -> f a = Ret (g a)) -> omapM f s = Ret (map g s).
Proof.
elim: s => [|a s IH] //= Hf.
rewrite (Hf a) /=; last by left.
by rewrite IH // => b Hb; apply: Hf; right.
Qed.

Lemma omapM_nth (A B : Type) (f : A -> outcome B) (s : seq A) (bs : seq B) a0 b0 i :
  omapM f s = Ret bs -> i < size s -> f (nth a0 s i) = Ret (nth b0 bs i).
Proof.
elim: s bs i => [|a s IH] bs i //=.
inv_bind=> b Eb; inv_bind=> bs' Es [<-] {bs}.
by case: i => [|i] //= /(IH _ _ Es).
Qed.

Lemma omapM_Panic (A B : Type) (f : A -> outcome B) (s : seq A) :
  (forall a, List.In a s -> is_ret (f a) \/ f a = Panic) ->
  omapM f s = Panic <-> exists2 a, List.In a s & f a = Panic.
Proof.
elim: s => [|a s IH] Hf; first by split=> // -[].
have Hs : forall b, List.In b s -> is_ret (f b) \/ f b = Panic.
  by move=> b Hb; apply: Hf; right.
split=> [/= /obind_Panic[Ep|[b Eb /obind_Panic[Ep|[bs _ //]]]]|[b /= [<-|Hb] Eb]].
- by exists a => //; left.
- by case/(IH Hs): Ep => c Hc Ec; exists c => //; right.
- by rewrite Eb.
- case: (Hf a); first (by left); last by move=> ->.
  case: (f a) => //= v _.
  by have/(IH Hs) -> : exists2 a, List.In a s & f a = Panic by exists b.
Qed.

(* ---- functions that never return Err ---- *)
Definition no_err (A : Type) (m : outcome A) : bool := if m is Err _ then false else true.

Lemma no_err_bind (A B : Type) (m : outcome A) (k : A -> outcome B) :
  no_err m -> (forall a, m = Ret a -> no_err (k a)) -> no_err (obind m k).
Proof. by case: m => //= a _; apply. Qed.

Lemma no_err_unwrap (A : Type) (o : option A) : no_err (unwrap o).
Proof. by case: o. Qed.

Lemma no_err_index (A : Type) (s : seq A) i : no_err (index_at s i).
Proof. exact: no_err_unwrap. Qed.

Lemma no_err_cases (A : Type) (m : outcome A) :
  no_err m -> (exists a, m = Ret a) \/ m = Panic.
Proof. by case: m => // [a|] _; [left; exists a|right]. Qed.

Lemma no_err_omapM (A B : Type) (f : A -> outcome B) s :
  (forall a, no_err (f a)) -> no_err (omapM f s).
Proof.
move=> Hf; elim: s => //= a s IH.
by apply: no_err_bind => // b _; apply: no_err_bind.
Qed.

Lemma no_err_umod a b : no_err (umod a b).
Proof. by rewrite /umod; case: eqP. Qed.

(* ---- generic seq membership over Type ---- *)
Lemma In_nth (A : Type) (a0 : A) (s : seq A) a :
  List.In a s <-> exists2 i, i < size s & nth a0 s i = a.
Proof.
elim: s => [|b s IH] /=; first by split=> // -[].
split.
- case=> [->|/IH[i lt E]]; first by exists 0.
  by exists i.+1.
- case=> -[|i] /= lt E; first by left.
  by right; apply/IH; exists i.
Qed.

(* ---- powers of two ---- *)
Lemma is_pow2P n : reflect (exists k, n = 2 ^ k) (is_pow2 n).
Proof.
apply: (iffP eqP) => [->|[k ->]]; first by exists (up_log 2 n).
by rewrite /next_power_of_two up_expnK.
Qed.

Lemma next_pow2_ge n : n <= next_power_of_two n.
Proof. exact: up_logP. Qed.

Lemma next_pow2_gt0 n : 0 < next_power_of_two n.
Proof. by rewrite expn_gt0. Qed.

Lemma next_pow2_min n k : n <= 2 ^ k -> next_power_of_two n <= 2 ^ k.
Proof. by move=> le; rewrite leq_exp2l // up_log_min. Qed.

Lemma next_pow2_lt n : 1 < n -> next_power_of_two n < n.*2.
Proof.
move=> lt; rewrite /next_power_of_two.
have := up_log_gtn (isT : 1 < 2) lt.
have gt0: 0 < up_log 2 n by rewrite up_log_gt0 lt.
by rewrite -{2}(prednK gt0) expnS mul2n ltn_double.
Qed.

Lemma trunc_next_pow2 n : trunc_log 2 (next_power_of_two n) = up_log 2 n.
Proof. by rewrite /next_power_of_two trunc_expnK. Qed.

(* ---- little-endian bytes ---- *)
Lemma size_le_bytes k n : size (le_bytes k n) = k.
Proof. by elim: k n => //= k IH n; rewrite IH. Qed.

Lemma ascii_of_nat_inj m n :
  m < 256 -> n < 256 -> ascii_of_nat m = ascii_of_nat n -> m = n.
Proof.
move=> Hm Hn E.
rewrite -(@nat_ascii_embedding m) ?E; last by apply/ltP.
by rewrite nat_ascii_embedding //; apply/ltP.
Qed.

Lemma le_bytes_inj k m n :
  m < 256 ^ k -> n < 256 ^ k -> le_bytes k m = le_bytes k n -> m = n.
Proof.
elim: k m n => [|k IH] m n.
  by rewrite expn0 !ltnS !leqn0 => /eqP-> /eqP->.
rewrite expnSr => Hm Hn /= [Hd Hr].
have Hd' : m %% 256 = n %% 256 by apply: ascii_of_nat_inj Hd; rewrite ltn_mod.
have Hr' : m %/ 256 = n %/ 256 by apply: IH Hr; rewrite ltn_divLR.
by rewrite (divn_eq m 256) (divn_eq n 256) Hd' Hr'.
Qed.

(* ---- splitting equal concatenations ---- *)
Lemma cat_inj_size (T : Type) (a b c d : seq T) :
  size a = size c -> a ++ b = c ++ d -> a = c /\ b = d.
Proof.
elim: a c => [|x a IH] [|y c] //= [Es] [<-] /IH[] // -> ->.
by split.
Qed.

Lemma rcons_cat_inj_size (T : Type) (a b c d : seq T) :
  size b = size d -> a ++ b = c ++ d -> a = c /\ b = d.
Proof.
move=> Es E; apply: cat_inj_size => //.
by have := congr1 size E; rewrite !size_cat Es => /addIn.
Qed.

(* ---- decimal printing ---- *)
Definition digit_val (c : ascii) : nat := nat_of_ascii c - 48.
Definition undecimal (a : nat) (s : bytes) : nat :=
  foldl (fun a c => 10 * a + digit_val c) a s.

Lemma digit_valE d : d < 10 -> digit_val (ascii_of_nat (48 + d)) = d.
Proof.
move=> lt; rewrite /digit_val nat_ascii_embedding ?addKn //.
by apply/ltP; apply: (@leq_trans 58); rewrite // -[58]/(48 + 10) ltn_add2l.
Qed.

Lemma decimal_fuelK f n acc : n <= f -> undecimal 0 (decimal_fuel f n acc) = undecimal n acc.
Proof.
elim: f n acc => [|f IH] n acc; first by rewrite leqn0 => /eqP ->.
move=> le /=; case: eqP => [->//|/eqP n0].
rewrite IH; last first.
  by rewrite -ltnS; apply: leq_trans le; rewrite ltn_Pdiv // lt0n.
by rewrite /undecimal /= digit_valE ?ltn_pmod // mulnC -divn_eq.
Qed.

Lemma decimalK n : undecimal 0 (decimal n) = n.
Proof. by rewrite /decimal decimal_fuelK. Qed.

Lemma decimal_inj : injective decimal.
Proof. by move=> m n E; rewrite -(decimalK m) E decimalK. Qed.

Lemma decimal_digits n c : c \in decimal n -> 48 <= nat_of_ascii c < 58.
Proof.
suff H f m acc : (c \in acc -> 48 <= nat_of_ascii c < 58) ->
    c \in decimal_fuel f m acc -> 48 <= nat_of_ascii c < 58 by exact: H.
elim: f m acc => [|f IH] m acc Ha //=; case: eqP => // _.
apply: IH; rewrite inE => /orP[/eqP ->|//].
have lt : m %% 10 < 10 by rewrite ltn_pmod.
rewrite nat_ascii_embedding; last first.
  by apply/ltP; apply: (@leq_trans 58); rewrite // -[58]/(48 + 10) ltn_add2l.
by rewrite leq_addr -[58]/(48 + 10) ltn_add2l.
Qed.

Lemma decimal_nul n : zero \notin decimal n.
Proof. by apply/negP => /decimal_digits. Qed.

(* ---- machine words ---- *)
Lemma word_small checked bits x : (x < 2 ^ bits)%N -> word checked bits x = Ret x.
Proof. by rewrite /word => ->. Qed.
Lemma word_wraps bits x : word false bits x = Ret (x %% 2 ^ bits)%N.
Proof. by rewrite /word; case: ifP => // h; rewrite modn_small. Qed.
