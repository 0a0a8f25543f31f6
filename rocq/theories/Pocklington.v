(* Primality of the BLS12-381 scalar modulus by Pocklington's criterion, with
   a reduction by multiplication so that the kernel's plain reduction (used by
   coqchk) is fast enough. *)
From Coq Require Import NArith PArith.
Set Warnings "-notation-overridden,-ambiguous-paths".
From mathcomp Require Import all_ssreflect all_algebra.
From mathcomp Require Import zify ring.
From Verif Require Import Base ArkDomain ArkDomainLemmas Concrete.

Set Implicit Arguments.
Unset Strict Implicit.
Unset Printing Implicit Defensive.

Import GRing.Theory.
Local Open Scope ring_scope.

(* x reduced modulo m: mu approximates 2^512 / m; always congruent to x *)
Definition redc (m mu x : N) : N :=
  let q := N.shiftr (N.shiftr x 256 * mu) 256 in
  let y := (q * m)%num in
  if (y <=? x)%num then
    let t := (x - y)%num in if (t <? m)%num then t else
    let t1 := (t - m)%num in if (t1 <? m)%num then t1 else N.modulo t1 m
  else N.modulo x m.

Fixpoint powr_pos (m mu a : N) (e : positive) : N :=
  match e with
  | xH => a
  | xO e' => let b := powr_pos m mu a e' in redc m mu (b * b)
  | xI e' => let b := powr_pos m mu a e' in redc m mu (redc m mu (b * b) * a)
  end.
Definition powr (m mu a e : N) : N := if e is Npos p then powr_pos m mu a p else 1%num.

Section InRing.
Variables (R : ringType) (m mu : N).
Hypothesis m0 : m <> 0%num.
Hypothesis mR : (N.to_nat m)%:R = 0 :> R.

Lemma inRB a b : (b <= a)%num -> inR R (a - b)%num = inR R a - inR R b.
Proof. by move=> le; rewrite /inR N2Nat.inj_sub minusE natrB //; clear -le; lia. Qed.

Lemma inR_redc x : inR R (redc m mu x) = inR R x.
Proof.
have mR0 : inR R m = 0 by [].
rewrite /redc; set q := N.shiftr _ _; case: N.leb_spec => le; last exact: inR_mod.
have E : inR R (x - q * m)%num = inR R x by rewrite inRB // inRM mR0 mulr0 subr0.
case: N.ltb_spec => h1 //.
have E1 : inR R (x - q * m - m)%num = inR R x by rewrite inRB // E mR0 subr0.
by case: N.ltb_spec => h2 //; rewrite inR_mod.
Qed.

Lemma powr_xI a e : powr_pos m mu a (xI e) =
  redc m mu (redc m mu (powr_pos m mu a e * powr_pos m mu a e) * a).
Proof. by []. Qed.
Lemma powr_xO a e : powr_pos m mu a (xO e) = redc m mu (powr_pos m mu a e * powr_pos m mu a e).
Proof. by []. Qed.

Lemma inR_powr_pos a e : inR R (powr_pos m mu a e) = inR R a ^+ Pos.to_nat e.
Proof.
elim: e => [e IH|e IH|].
- rewrite powr_xI inR_redc inRM inR_redc inRM IH Pos2Nat.inj_xI multE.
  by rewrite exprSr -expr2 -exprM mulnC.
- by rewrite powr_xO inR_redc inRM IH Pos2Nat.inj_xO multE -expr2 -exprM mulnC.
- by rewrite expr1.
Qed.

Lemma inR_powr a e : inR R (powr m mu a e) = inR R a ^+ N.to_nat e.
Proof. by case: e => [|e]; [|exact: inR_powr_pos]. Qed.
End InRing.

(* Pocklington: if n - 1 has a divisor f with f^2 >= n, all of whose prime
   factors are in qs, and a has a^(n-1) = 1 and a^((n-1)/q) - 1 invertible modulo
   n for all q in qs, then n is prime.  Here over a prime divisor p of n. *)
Lemma pocklington_order (n f : nat) (qs : seq nat) (F : fieldType) (x : F) :
  (1 < n)%N -> (f %| n.-1)%N ->
  (forall q, prime q -> (q %| f)%N -> q \in qs) -> x ^+ n.-1 = 1 ->
  (forall q, q \in qs -> x ^+ (n.-1 %/ q) != 1) ->
  exists2 o, o.-primitive_root x & (f %| o)%N.
Proof.
move=> n1 fd fq Ex ne.
have N0 : (0 < n.-1)%N by clear -n1; lia.
have [o po od] := prim_order_exists N0 Ex; exists o => //.
have [k Ek] := dvdnP od.
suff co : coprime f k by rewrite -(Gauss_dvdr _ co) -Ek.
rewrite /coprime; case: (ltngtP (gcdn f k) 1) => // [|lt].
  have k0 : (0 < k)%N by case: k Ek => // Ek; rewrite Ek in N0.
  by rewrite ltnNge gcdn_gt0 k0 orbT.
set q := pdiv (gcdn f k); have pq : prime q := pdiv_prime lt.
have qg : (q %| gcdn f k)%N := pdiv_dvd _.
have qf : (q %| f)%N := dvdn_trans qg (dvdn_gcdl _ _).
have qk : (q %| k)%N := dvdn_trans qg (dvdn_gcdr _ _).
have := ne q (fq q pq qf); have [j Ej] := dvdnP qk.
have -> : (n.-1 %/ q = o * j)%N.
  by rewrite Ek Ej mulnAC mulnK ?prime_gt0 // mulnC.
by rewrite exprM (prim_expr_order po) expr1n eqxx.
Qed.

Theorem pocklington (n f : nat) (qs : seq nat) (a : nat) :
  (1 < n)%N -> (f %| n.-1)%N -> (n <= f * f)%N ->
  (forall q, prime q -> (q %| f)%N -> q \in qs) ->
  (forall p, prime p -> (p %| n)%N -> (a%:R : 'F_p) ^+ n.-1 = 1 /\
     forall q, q \in qs -> (a%:R : 'F_p) ^+ (n.-1 %/ q) != 1) ->
  prime n.
Proof.
move=> n1 fd ff fq H.
have pp := pdiv_prime n1; have pd := pdiv_dvd n.
have [Ex ne] := H _ pp pd.
have [o po fo] := pocklington_order n1 fd fq Ex ne.
set p := pdiv n in pp pd Ex ne po *.
set x := (a%:R : 'F_p) in Ex po.
have p1 := prime_gt1 pp.
have o0 : (0 < o)%N := prim_order_gt0 po.
have x0 : x != 0.
  apply/eqP => E; move/eqP: (prim_expr_order po); rewrite E expr0n -leqn0 leqNgt o0 eq_sym.
  by rewrite oner_eq0.
have : (o %| p.-1)%N.
  rewrite (prim_order_dvd po); apply/eqP; apply: (mulfI x0); rewrite -exprS prednK ?prime_gt0 // mulr1.
  rewrite /x -natrX; have := congr1 (fun k => k%:R : 'F_p) (fermat_little a pp).
  by rewrite !(Fp_nat_mod pp).
move=> op; have p10 : (0 < p.-1)%N by clear -p1; lia.
have fp : (f < p)%N.
  by have := dvdn_leq p10 (dvdn_trans fo op); clear -p1; lia.
apply: ltn_pdiv2_prime; first by apply: ltnW.
apply: leq_ltn_trans ff _; rewrite -/p expnS expn1.
by apply: ltn_mul.
Qed.

(* A certificate with four primes: n - 1 = m q1 q2 q3 q4, and f divides n - 1. *)
Section Certificate.
Variables (n a mu inv m cof q1 q2 q3 q4 : N) (e1 e2 e3 e4 : nat).

(* the values a^((n-1)/q), sharing the common part of the exponents *)
Definition cert_pows : seq N :=
  let pw := powr n mu in
  let b := pw a m in
  let c12 := pw b (q1 * q2)%num in
  let c34 := pw b (q3 * q4)%num in
  [:: pw c34 q2; pw c34 q1; pw c12 q4; pw c12 q3].
Definition cert_f : N :=
  foldr N.mul 1%num (nseq e1 q1 ++ nseq e2 q2 ++ nseq e3 q3 ++ nseq e4 q4).
Definition cert_check : bool :=
  let ys := cert_pows in
  [&& (1 <? n)%num, all small_prime [:: q1; q2; q3; q4],
      (n - 1 =? cof * cert_f)%num && (n <=? cert_f * cert_f)%num,
      (n - 1 =? m * (q3 * q4) * q2 * q1)%num,
      (powr n mu (head 0%num ys) q1 =? 1)%num &
      (redc n mu (inv * foldr (fun y acc => redc n mu ((y + (n - 1)) * acc)) 1 ys) =? 1)%num].

Lemma cert_powsE (R : ringType) : n <> 0%num -> (N.to_nat n)%:R = 0 :> R ->
  map (inR R) cert_pows =
  [seq inR R a ^+ N.to_nat e | e <- [:: m * (q3 * q4) * q2; m * (q3 * q4) * q1;
     m * (q1 * q2) * q4; m * (q1 * q2) * q3]%num].
Proof.
move=> n0 nR; have pwE b e : inR R (powr n mu b e) = inR R b ^+ N.to_nat e by apply: inR_powr.
rewrite !map_cons !pwE /= -!exprM !N2Nat.inj_mul !multE; by congr [:: _; _; _; _]; congr (_ ^+ _); rewrite ?mulnA.
Qed.

Lemma cert_prime : cert_check -> prime (N.to_nat n).
Proof.
case/and5P => /N.ltb_spec0 n1 ps /andP[/N.eqb_spec Ef /N.leb_spec0 ff] /N.eqb_spec Em.
case/andP=> /N.eqb_spec Epow /N.eqb_spec Einv.
have n0 : n <> 0%num by clear -n1; lia.
have nn1 : (1 < N.to_nat n)%N by clear -n1; lia.
have En1 : N.to_nat (n - 1) = (N.to_nat n).-1 by clear; lia.
have pN q : q \in [:: q1; q2; q3; q4] -> prime (N.to_nat q).
  by move=> hq; apply: small_primeP; apply: (allP ps).
apply: (@pocklington _ (N.to_nat cert_f) (map N.to_nat [:: q1; q2; q3; q4]) (N.to_nat a)) => //.
- by rewrite -En1 Ef N2Nat.inj_mul; apply: dvdn_mull.
- by move: ff; move: cert_f => f; clear; lia.
- move=> q pq; rewrite to_nat_prod => qd.
  have : q \in map N.to_nat (nseq e1 q1 ++ nseq e2 q2 ++ nseq e3 q3 ++ nseq e4 q4).
    apply: prime_in_prod => //; apply/allP => _ /mapP[x hx ->]; apply: pN.
    by move: hx; rewrite !mem_cat !inE !mem_nseq => /or4P[] /andP[_ /eqP ->]; rewrite eqxx ?orbT.
  case/mapP=> x hx ->; apply: map_f.
  by move: hx; rewrite !mem_cat !inE !mem_nseq => /or4P[] /andP[_ /eqP ->]; rewrite eqxx ?orbT.
move=> p pp pd; have char : p \in [char 'F_p] := char_Fp pp.
have nR : (N.to_nat n)%:R = 0 :> 'F_p by apply/eqP; rewrite -(dvdn_charf char).
have pw := cert_powsE n0 nR.
have q10 : N.to_nat q1 != 0%N by rewrite -lt0n prime_gt0 // pN // inE eqxx.
split.
  rewrite -En1 Em -[(N.to_nat a)%:R]/(inR _ a) N2Nat.inj_mul multE exprM.
  case: pw => <- _ _ _; rewrite -(inR_powr mu n0 nR).
  by move: Epow; rewrite [head _ _]/= => ->.
have nz y : y \in cert_pows -> inR [ringType of 'F_p] y != 1.
  move=> hy; apply/eqP => y1.
  have E0 : inR [ringType of 'F_p] (y + (n - 1))%num = 0.
    rewrite /inR N2Nat.inj_add natrD -/(inR _ y) y1 -[1]/(1%:R) -natrD -nR; congr _%:R.
    by clear -n1; lia.
  have : inR [ringType of 'F_p] (foldr (fun y acc => redc n mu ((y + (n - 1)) * acc)) 1 cert_pows)%num = 0.
    elim: cert_pows hy => // z zs IH; rewrite inE => /orP[/eqP <-|/IH e0] /=.
      by rewrite (inR_redc mu n0 nR) inRM E0 mul0r.
    by rewrite (inR_redc mu n0 nR) inRM e0 mulr0.
  move=> f0; have := congr1 (inR [ringType of 'F_p]) Einv.
  by rewrite (inR_redc mu n0 nR) inRM f0 mulr0 => /esym /eqP; rewrite /inR oner_eq0.
have dv q e : (n - 1 = e * q)%num -> q \in [:: q1; q2; q3; q4] ->
    ((N.to_nat n).-1 %/ N.to_nat q)%N = N.to_nat e.
  by move=> E hq; rewrite -En1 E N2Nat.inj_mul multE mulnK // prime_gt0 // pN.
have key y q e : inR [ringType of 'F_p] y = inR _ a ^+ N.to_nat e -> y \in cert_pows ->
    (n - 1 = e * q)%num -> q \in [:: q1; q2; q3; q4] ->
    ((N.to_nat a)%:R : 'F_p) ^+ ((N.to_nat n).-1 %/ N.to_nat q) != 1.
  by move=> Ey hy E hq; rewrite (dv _ _ E hq) -[(N.to_nat a)%:R]/(inR _ a) -Ey; apply: nz.
case: pw => E1 E2 E3 E4 q /mapP[x]; rewrite !inE => hx ->.
case/or4P: hx => /eqP ->.
- by apply: (key _ _ _ E1); rewrite ?inE ?eqxx ?orbT.
- by apply: (key _ _ _ E2); rewrite ?inE ?eqxx ?orbT // Em; clear; lia.
- by apply: (key _ _ _ E3); rewrite ?inE ?eqxx ?orbT // Em; clear; lia.
- by apply: (key _ _ _ E4); rewrite ?inE ?eqxx ?orbT // Em; clear; lia.
Qed.
End Certificate.

(* 2^32 * 906349^2 * 254760293^2 * 52437899 divides r - 1 *)
Definition bls_mu : N := 255699135089535202043525422716183576215815630510683217819334674386498370757523%num.
Definition bls_inv : N :=
  33838496726219625434553846407950001044619961602470301625383524779268241339029%num.
Definition bls_m : N := 2165339722340543033229855375814655643580681506565128192%num.
Definition bls_cofactor : N := 4366857073214347852968967672797%num.
Lemma bls_prime_checked :
  cert_check bls_r 7 bls_mu bls_inv bls_m bls_cofactor 2 906349 254760293 52437899 32 2 2 1.
Proof. vm_cast_no_check (erefl true). Qed.
Lemma bls_prime : prime (N.to_nat bls_r).
Proof. exact: cert_prime bls_prime_checked. Qed.
