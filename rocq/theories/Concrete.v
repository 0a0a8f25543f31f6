(* The two concrete scalar fields of the repository: the Goldilocks prime of
   /repo/fri/src/fields/goldilocks.rs:5-6 and the scalar modulus of BLS12-381
   (ark_bls12_381::Fr).  Their primality and 2-adicity, by computation with
   binary numbers; all lemmas are about fields of that characteristic. *)
From Coq Require Import NArith PArith.
Set Warnings "-notation-overridden,-ambiguous-paths".
From mathcomp Require Import all_ssreflect all_algebra.
From mathcomp Require Import zify ring.
From Verif Require Import Base ArkDomain ArkDomainLemmas.

Set Implicit Arguments.
Unset Strict Implicit.
Unset Printing Implicit Defensive.

Import GRing.Theory.
Local Open Scope ring_scope.

(* fri/src/fields/goldilocks.rs:5 *)
Definition goldilocks_p : N := 18446744069414584321%num.
(* the order of the scalar field of BLS12-381 *)
Definition bls_r : N :=
  52435875175126190479447740508185965837690552500527637822603658699938581184513%num.

(* ------------------------------------------------------------------ *)
(* modular exponentiation *)
Fixpoint powmod_pos (m a : N) (e : positive) : N :=
  match e with
  | xH => N.modulo a m
  | xO e' => let b := powmod_pos m a e' in N.modulo (b * b) m
  | xI e' => let b := powmod_pos m a e' in N.modulo (N.modulo (b * b) m * a) m
  end.
Definition powmod (m a e : N) : N := if e is Npos p then powmod_pos m a p else N.modulo 1 m.

Section InRing.
Variables (R : ringType) (m : N).
Hypothesis m0 : m <> 0%num.
Hypothesis mR : (N.to_nat m)%:R = 0 :> R.
Definition inR (a : N) : R := (N.to_nat a)%:R.

Lemma inR_mod a : inR (N.modulo a m) = inR a.
Proof.
rewrite /inR {2}(N.div_mod a m m0) N2Nat.inj_add N2Nat.inj_mul plusE multE.
by rewrite natrD natrM mR mul0r add0r.
Qed.

Lemma inRM a b : inR (a * b)%num = inR a * inR b.
Proof. by rewrite /inR N2Nat.inj_mul multE natrM. Qed.

Lemma inR_powmod_pos a e : inR (powmod_pos m a e) = inR a ^+ Pos.to_nat e.
Proof.
elim: e => [e IH|e IH|] /=.
- rewrite inR_mod inRM inR_mod inRM IH Pos2Nat.inj_xI multE.
  by rewrite exprSr -expr2 -exprM mulnC.
- by rewrite inR_mod inRM IH Pos2Nat.inj_xO multE -expr2 -exprM mulnC.
- by rewrite inR_mod expr1.
Qed.

Lemma inR_powmod a e : inR (powmod m a e) = inR a ^+ N.to_nat e.
Proof. by case: e => [|e] /=; [rewrite inR_mod|rewrite inR_powmod_pos]. Qed.

End InRing.

(* ------------------------------------------------------------------ *)
(* trial division *)
Fixpoint no_divisor (fuel : nat) (d q : N) : bool :=
  if (q <? d * d)%num then true
  else if (N.modulo q d =? 0)%num then false
  else if fuel is f.+1 then no_divisor f (d + 1)%num q else false.

Definition small_prime (q : N) : bool := (2 <=? q)%num && no_divisor 20000 2 q.

Lemma no_divisorP fuel d q : no_divisor fuel d q ->
  forall e, (d <= e)%num -> (e * e <= q)%num -> (N.modulo q e <> 0)%num.
Proof.
elim: fuel d => [|fuel IH] d /=; case: N.ltb_spec => lt.
- by move=> _ e de ee; nia.
- by case: N.eqb.
- by move=> _ e de ee; nia.
case: N.eqb_spec => // ne /IH H e de ee.
have [->//|ned] : e = d \/ (d + 1 <= e)%num by lia.
exact: H.
Qed.

Lemma small_primeP q : small_prime q -> prime (N.to_nat q).
Proof.
case/andP=> /N.leb_spec0 q2 /no_divisorP H.
have gt1 : (1 < N.to_nat q)%N by lia.
have qp := pdiv_prime gt1; have pd := pdiv_dvd (N.to_nat q).
case: (eqVneq (pdiv (N.to_nat q)) (N.to_nat q)) => [<-//|ne].
have le : (pdiv (N.to_nat q) <= N.to_nat q)%N by apply: dvdn_leq => //; apply: ltnW.
have le2 : (pdiv (N.to_nat q) ^ 2 <= N.to_nat q)%N.
  rewrite leqNgt; apply/negP => lt.
  have pq : prime (N.to_nat q) by apply: ltn_pdiv2_prime => //; apply: ltnW.
  by rewrite (pdiv_id pq) eqxx in ne.
set p := pdiv _ in qp pd ne le le2.
have := H (N.of_nat p).
have p1 := prime_gt1 qp.
case; [lia| |].
  by move: le2; rewrite -mulnn; lia.
case/dvdnP: pd => k Ek.
have -> : q = (N.of_nat k * N.of_nat p)%num by lia.
by apply: N.mod_mul; lia.
Qed.

(* ------------------------------------------------------------------ *)
(* Lucas' primality criterion *)
Lemma prime_in_prod (qs : seq nat) q : all prime qs -> prime q ->
  (q %| \prod_(x <- qs) x)%N -> q \in qs.
Proof.
move=> ps pq; elim: qs ps => [|a qs IH] /=; first by rewrite big_nil Euclid_dvd1.
case/andP=> pa ps; rewrite big_cons Euclid_dvdM // inE => /orP[|/(IH ps) ->]; last by rewrite orbT.
by rewrite dvdn_prime2 // => ->.
Qed.

Definition lucas_check (n a : N) (qs : seq N) : bool :=
  [&& (1 <? n)%num, all small_prime (undup qs), (foldr N.mul 1%num qs =? n - 1)%num,
      (powmod n a (n - 1) =? 1)%num &
      all (fun q => N.eqb (N.gcd (powmod n a ((n - 1) / q) + (n - 1)) n) 1%num) (undup qs)].

Lemma to_nat_prod (qs : seq N) : N.to_nat (foldr N.mul 1%num qs) = (\prod_(x <- map N.to_nat qs) x)%N.
Proof. by elim: qs => [|q qs IH] /=; rewrite ?big_nil // big_cons N2Nat.inj_mul IH. Qed.

(* over a field whose characteristic divides n, a is a primitive (n-1)-th root *)
Lemma lucas_order n a qs (F : fieldType) (p : nat) : lucas_check n a qs ->
  p \in [char F] -> (p %| N.to_nat n)%N -> (N.to_nat n).-1.-primitive_root (inR F a).
Proof.
case/and5P=> /N.ltb_spec0 n1 ps /N.eqb_spec Eprod /N.eqb_spec Epow /allP gcds char pd.
have n0 : n <> 0%num by clear -n1; lia.
have nn1 : (1 < N.to_nat n)%N by clear -n1; lia.
have pp : prime p by case/andP: char.
have nR : (N.to_nat n)%:R = 0 :> F by apply/eqP; rewrite -(dvdn_charf char).
pose x : F := inR _ a.
have En1 : N.to_nat (n - 1) = (N.to_nat n).-1 by clear; lia.
have Ex : x ^+ (N.to_nat n).-1 = 1.
  have := inR_powmod n0 nR a (n - 1)%num; rewrite Epow En1 => e.
  by rewrite -[RHS]/(inR _ 1%num) e.
have N0 : (0 < (N.to_nat n).-1)%N by clear -nn1; lia.
have [o po od] := prim_order_exists N0 Ex.
case: (eqVneq o (N.to_nat n).-1) => [<- //|ne].
have [k Ek] := dvdnP od.
have k1 : (1 < k)%N.
  case: k Ek => [|[|k]] // Ek; first by rewrite Ek in N0.
  by move: ne; rewrite Ek mul1n eqxx.
have pq := pdiv_prime k1; have qd := pdiv_dvd k.
have : pdiv k \in map N.to_nat qs.
  apply: prime_in_prod => //.
    by apply/allP => _ /mapP[q hq ->]; apply: small_primeP; apply: (allP ps); rewrite mem_undup.
  by rewrite -to_nat_prod Eprod En1 Ek dvdn_mulr.
case/mapP=> q hq Eq; have := gcds q; rewrite mem_undup hq => /(_ isT) /N.eqb_spec G.
have q0 : q <> 0%num by move=> E; move: pq; rewrite Eq E.
have Ediv : N.to_nat ((n - 1) / q)%num = (o * (k %/ pdiv k))%N.
  have [j Ej] := dvdnP qd.
  have -> : (n - 1 = N.of_nat (o * j) * q)%num.
    apply: N2Nat.inj; rewrite N2Nat.inj_mul Nat2N.id multE -Eq -mulnA -Ej mulnC -Ek.
    by clear -n1; lia.
  rewrite N.div_mul // Nat2N.id; congr (_ * _)%N.
  by rewrite {1}Ej mulnK // prime_gt0.
have x1 : x ^+ N.to_nat ((n - 1) / q)%num = 1.
  by rewrite Ediv exprM (prim_expr_order po) expr1n.
have : inR F (powmod n a ((n - 1) / q) + (n - 1))%num = 0.
  rewrite /inR N2Nat.inj_add natrD -/(inR _ _) inR_powmod // -/x x1.
  rewrite -[1]/(1%:R) -natrD -nR; congr _%:R; clear -n1; lia.
move/eqP; rewrite -(dvdn_charf char) => d1.
have : (p %| N.to_nat (N.gcd (powmod n a ((n - 1) / q) + (n - 1)) n))%N.
  have [u Eu] := dvdnP d1; have [v Ev] := dvdnP pd.
  have : (N.divide (N.of_nat p) (N.gcd (powmod n a ((n - 1) / q) + (n - 1)) n)).
    by apply: N.gcd_greatest; [exists (N.of_nat u); clear -Eu|exists (N.of_nat v); clear -Ev]; lia.
  by case=> z Ez; apply/dvdnP; exists (N.to_nat z); rewrite Ez; clear; lia.
by rewrite G /= dvdn1 => /eqP E1; move: pp; rewrite E1.
Qed.

Theorem lucas_prime n a qs : lucas_check n a qs -> prime (N.to_nat n).
Proof.
move=> chk; have nn1 : (1 < N.to_nat n)%N by case/and5P: chk => /N.ltb_spec0; clear; lia.
have pp := pdiv_prime nn1; have pd := pdiv_dvd (N.to_nat n).
set p := pdiv (N.to_nat n) in pp pd *.
have char : p \in [char 'F_p] by apply: char_Fp.
have po := lucas_order chk char pd; set x := inR _ a in po.
have N0 : (0 < (N.to_nat n).-1)%N by clear -nn1; lia.
have x0 : x != 0.
  apply/eqP => E; move/eqP: (prim_expr_order po); rewrite E expr0n -leqn0 leqNgt N0 eq_sym.
  by rewrite oner_eq0.
have : ((N.to_nat n).-1 %| p.-1)%N.
  rewrite (prim_order_dvd po); apply/eqP; apply: (mulfI x0); rewrite -exprS prednK ?prime_gt0 // mulr1.
  rewrite /x /inR -natrX; have := congr1 (fun k => k%:R : 'F_p) (fermat_little (N.to_nat a) pp).
  by rewrite !(Fp_nat_mod pp).
have p1 := prime_gt1 pp.
have p1' : (0 < p.-1)%N by clear -p1; lia.
move/(dvdn_leq p1') => le.
have le2 : (p <= N.to_nat n)%N by apply: dvdn_leq => //; apply: ltnW.
by have <- : p = N.to_nat n by clear -le le2 p1 nn1; lia.
Qed.

(* goldilocks p - 1 = 2^32 * 3 * 5 * 17 * 257 * 65537 *)
Definition gold_factors : seq N := (nseq 32 2 ++ [:: 3; 5; 17; 257; 65537])%num.
Lemma gold_check : lucas_check goldilocks_p 7 gold_factors.
Proof. vm_cast_no_check (erefl true). Qed.
Lemma goldilocks_prime : prime (N.to_nat goldilocks_p).
Proof. exact: lucas_prime gold_check. Qed.

(* ------------------------------------------------------------------ *)
(* Fields of a given characteristic: equality of small numbers. *)
Section CharField.
Variables (F : fieldType) (p : N).
Hypothesis char : N.to_nat p \in [char F].

Lemma char_gt1 : (1 < N.to_nat p)%N.
Proof. by case/andP: char => /prime_gt1. Qed.

Lemma char_neq0 : p <> 0%num.
Proof. by move=> E; have := char_gt1; rewrite E. Qed.

Lemma char_R : (N.to_nat p)%:R = 0 :> F.
Proof. exact: charf0. Qed.

Lemma inR_inj a b : (a < p)%num -> (b < p)%num -> inR F a = inR F b -> a = b.
Proof.
wlog le : a b / (a <= b)%num => [H la lb e|la lb].
  by case: (N.le_ge_cases a b) => h; [|symmetry]; apply: H.
rewrite /inR => /eqP; rewrite eq_sym -subr_eq0 -natrB; last by clear -le; lia.
rewrite -(dvdn_charf char) => /dvdnP[[|k]]; first by clear -le; lia.
by rewrite mulSn; clear -la lb; lia.
Qed.

Lemma inR_neq a b : (a <? p)%num -> (b <? p)%num -> ~~ (a =? b)%num -> inR F a != inR F b.
Proof.
move=> /N.ltb_spec0 la /N.ltb_spec0 lb /N.eqb_spec ne; apply/eqP => /inR_inj.
by move=> /(_ la lb).
Qed.

Lemma inR_pow2 a k : inR F (iter k (fun b => N.modulo (b * b) p) (N.modulo a p)) = inR F a ^+ (2 ^ k).
Proof.
elim: k => [|k IH]; first by rewrite /= (inR_mod char_neq0 char_R) expr1.
by rewrite iterS (inR_mod char_neq0 char_R) inRM IH expnSr exprM expr2.
Qed.
End CharField.

Definition sqmod (p : N) (k : nat) (a : N) : N :=
  iter k (fun b => N.modulo (b * b) p) (N.modulo a p).
Definition fft_check (p : N) (k : nat) (a : N) : bool :=
  (sqmod p k a =? p - 1)%num && (2 <? p)%num.

Lemma fft_check_ok (F : fieldType) (p : N) k a : fft_check p k a -> N.to_nat p \in [char F] ->
  fft_ok (FftField k.+1 (inR F a)).
Proof.
case/andP=> /N.eqb_spec chk /N.ltb_spec0 p2 char; split; first exact: ltn0Sn.
rewrite [two_adicity _]/= [two_adic_root _]/=; apply: prim_root_pow2.
  rewrite -(inR_pow2 char) -/(sqmod p k a) chk; apply/eqP; rewrite -subr_eq0 opprK.
  rewrite -[1]/(1%:R) /inR -natrD.
  have -> : (N.to_nat (p - 1) + 1)%N = N.to_nat p by clear -p2; lia.
  by rewrite (char_R char).
apply/eqP => e2; have := @inR_inj F p char 2%num 0%num.
have l0 : (0 < p)%num by clear -p2; lia.
by move/(_ p2 l0 e2).
Qed.

(* the repeated squares of 2 and 3 stay apart from 1 and from each other, for
   k = 0 .. steps *)
Fixpoint cosets_check (p : N) (steps : nat) (a b : N) : bool :=
  [&& (a <? p)%num, (b <? p)%num, ~~ (a =? 1)%num, ~~ (b =? 1)%num & ~~ (a =? b)%num] &&
  (if steps is s.+1 then cosets_check p s (N.modulo (a * a) p) (N.modulo (b * b) p) else true).

Lemma cosets_check_ok (F : fieldType) (p : N) steps a b k : (1 < p)%num -> cosets_check p steps a b ->
  N.to_nat p \in [char F] -> (k <= steps)%N ->
  [/\ inR F a ^+ (2 ^ k) != 1, inR F b ^+ (2 ^ k) != 1 & inR F a ^+ (2 ^ k) != inR F b ^+ (2 ^ k)].
Proof.
move=> p1 + char; have l1 : (1 <? p)%num by apply/N.ltb_spec0.
elim: k steps a b => [|k IH] [|steps] a b //= /andP[/and5P[la lb a1 b1 ab] H] le; last first.
  have := IH steps _ _ H le; rewrite !(inR_mod (char_neq0 char) (char_R char)) !inRM.
  by rewrite -!expr2 -!exprM -!expnS.
all: by rewrite !expr1 -[1]/(inR F 1); split; apply: (inR_neq char).
Qed.

(* FFT constants: two-adicity 32 for both moduli and 2^32-th roots of unity.
   Goldilocks: 7^((p-1)/2^32), as ark-ff derives it from the generator 7 of
   goldilocks.rs:6.  BLS12-381: the TWO_ADIC_ROOT_OF_UNITY literal of
   ark_bls12_381's Fr. *)
Definition goldilocks_root : N := 1753635133440165772%num.
Definition bls_root : N :=
  10238227357739495823651030575849232062558860180284477541189508159991286009131%num.
Definition goldilocks_fft (F : fieldType) : fft_field F := FftField 32 (inR F goldilocks_root).
Definition bls_fft (F : fieldType) : fft_field F := FftField 32 (inR F bls_root).

Lemma powmod_check (F : fieldType) p a e r : (powmod p a e =? r)%num -> N.to_nat p \in [char F] ->
  inR F r = inR F a ^+ N.to_nat e.
Proof.
by move=> /N.eqb_spec <- char; apply: (inR_powmod (char_neq0 char) (char_R char)).
Qed.

Lemma gold_root_check : (powmod goldilocks_p 7 ((goldilocks_p - 1) / 2 ^ 32) =? goldilocks_root)%num.
Proof. vm_cast_no_check (erefl true). Qed.
Lemma gold_fft_check : fft_check goldilocks_p 31 goldilocks_root.
Proof. vm_cast_no_check (erefl true). Qed.
Lemma bls_fft_check : fft_check bls_r 31 bls_root.
Proof. vm_cast_no_check (erefl true). Qed.
Lemma bls_cosets_check : cosets_check bls_r 32 2 3.
Proof. vm_cast_no_check (erefl true). Qed.
