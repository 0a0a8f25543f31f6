(* Primality of the BLS12-381 base modulus (ark_bls12_381::Fq), from a divisor of
   q - 1 above the cube root of q (Brillhart, Lehmer and Selfridge). *)
From Coq Require Import NArith PArith.
Set Warnings "-notation-overridden,-ambiguous-paths".
From mathcomp Require Import all_ssreflect all_algebra.
From mathcomp Require Import zify ring.
From Verif Require Import Base Concrete Pocklington.

Set Implicit Arguments.
Unset Strict Implicit.
Unset Printing Implicit Defensive.

Import GRing.Theory.
Local Open Scope ring_scope.

(* the order of the base field of BLS12-381 *)
Definition bls_q : N :=
  0x1a0111ea397fe69a4b1ba7b6434bacd764774b84f38512bf6730d2a0f6b0f6241eabfffeb153ffffb9feffffffffaaab%num.

Local Open Scope nat_scope.

(* every prime divisor of n is 1 modulo f *)
Lemma prime_divisors (n f : nat) (qs : seq nat) (a p : nat) :
  1 < n -> f %| n.-1 -> (forall q, prime q -> q %| f -> q \in qs) ->
  prime p -> p %| n -> ((a%:R : 'F_p) ^+ n.-1 = 1)%R ->
  (forall q, q \in qs -> ((a%:R : 'F_p) ^+ (n.-1 %/ q) != 1)%R) -> f %| p.-1.
Proof.
move=> n1 fd fq pp pd Ex ne.
have [o po fo] := pocklington_order n1 fd fq Ex ne.
have o0 : (0 < o)%N := prim_order_gt0 po.
have x0 : (a%:R != 0 :> 'F_p)%R.
  apply/eqP => E; move/eqP: (prim_expr_order po); rewrite E expr0n -leqn0 leqNgt o0 eq_sym.
  by rewrite oner_eq0.
apply: dvdn_trans fo _.
rewrite (prim_order_dvd po); apply/eqP; apply: (mulfI x0); rewrite -exprS prednK ?prime_gt0 // mulr1.
rewrite -natrX; have := congr1 (fun k => (k%:R : 'F_p)%R) (fermat_little a pp).
by rewrite !(Fp_nat_mod pp).
Qed.

Lemma all_divisors f n : 0 < n -> (forall p, prime p -> p %| n -> f %| p.-1) -> f %| n.-1.
Proof.
elim: n {-2}n (leqnn n) => [|m IH] n; first by rewrite leqn0 => /eqP ->.
move=> le n0 H; have [n1|n1] := leqP n 1; first by rewrite (_ : n = 1) //; move: n0 n1; clear; lia.
have pp := pdiv_prime n1; have pd := pdiv_dvd n.
have [k Ek] := dvdnP pd; set p := pdiv n in pp pd Ek.
have p1 := prime_gt1 pp.
have k0 : 0 < k by case: k Ek => // e; move: n0; rewrite e.
have fk : f %| k.-1.
  apply: IH => // [|r pr rk].
    have : k < n by rewrite Ek -[X in X < _]muln1 ltn_pmul2l.
    by move: le; clear; lia.
  by apply: H => //; rewrite Ek dvdn_mulr.
have fp := H _ pp pd.
rewrite Ek -(prednK (prime_gt0 pp)) mulnS.
have -> : (k + k * p.-1).-1 = k.-1 + k * p.-1 by rewrite -{1}(prednK k0).
by rewrite dvdn_add // dvdn_mull.
Qed.

Lemma cube_root_prime (n f r b c : nat) : 1 < n -> 0 < f -> n = 1 + f * (b * f + c) -> c < f -> n <= f ^ 3 ->
  (forall p, prime p -> p %| n -> f %| p.-1) ->
  (forall s, 0 < b -> s * s + 4 * b <> c * c) -> prime n.
Proof.
move=> n1 f0 En cf n3 H nsq; case: (boolP (prime n)) => // /primePn[|[d /andP[d1 dn] dd]]; first by rewrite ltnNge n1.
have [e Ee] := dvdnP dd.
have e1 : 1 < e by case: e Ee => [|[|e]] // E; move: dn n1; rewrite E ?mul1n ?ltnn.
have div x : 0 < x -> x %| n -> f %| x.-1.
  move=> x0 xn; apply: all_divisors => // p pp px; apply: H => //; exact: dvdn_trans px xn.
have /dvdnP[u Eu] := div d (ltnW d1) dd.
have en : e %| n by rewrite Ee dvdn_mulr.
have /dvdnP[v Ev] := div e (ltnW e1) en.
have Ed : d = 1 + u * f by rewrite -Eu; move: d1; clear; lia.
have Eev : e = 1 + v * f by rewrite -Ev; move: e1; clear; lia.
have u0 : 0 < u by case: u Eu Ed => // _; rewrite mul0n addn0 => E; move: d1; rewrite E.
have v0 : 0 < v by case: v Ev Eev => // _; rewrite mul0n addn0 => E; move: e1; rewrite E.
have E2 : b * f + c = u * v * f + (u + v).
  apply/eqP; rewrite -(eqn_pmul2l f0); apply/eqP; apply: (@addnI 1); rewrite -En Ee Ed Eev; clear; lia.
have le1 : u + v <= u * v + 1 by move: u0 v0; clear; nia.
have lt2 : u * v * f + (u + v) < f * f.
  rewrite -(ltn_pmul2l f0) -E2; move: n3; rewrite En !expnS expn0 muln1; move: (b * f + c); clear; lia.
have lt1 : u * v < f.
  by rewrite -(ltn_pmul2r f0); apply: leq_ltn_trans lt2; rewrite leq_addr.
have lt3 : u + v < f.
  rewrite ltnNge; apply/negP => ge.
  have E3 : u * v = f.-1 by move: le1 lt1 ge; clear; lia.
  move: lt2; rewrite E3; have : f.-1 * f + f = f * f by rewrite addnC -mulSn prednK.
  move: ge; clear; lia.
have [Eb Ec] : b = u * v /\ c = u + v.
  have := congr1 (divn^~ f) E2; have := congr1 (modn^~ f) E2.
  by rewrite /= !modnMDl !divnMDl // !modn_small // !divn_small // !addn0.
have b0 : 0 < b by rewrite Eb muln_gt0 u0.
case: (leqP u v) => le.
  by case: (nsq (v - u) b0); rewrite Eb Ec; move: le; clear; nia.
by case: (nsq (u - v) b0); rewrite Eb Ec; move: le; clear; nia.
Qed.

(* A check by computation: all of qs given to be prime, f their product. *)
Definition cube_shape (n : N) (qs : seq N) : bool :=
  let f := foldr N.mul 1%num qs in
  let r := N.div (n - 1)%num f in
  let b := N.div r f in let c := N.modulo r f in
  let s := N.sqrt (c * c - 4 * b)%num in
  [&& [&& (1 <? n)%num, (1 <? f)%num & (n - 1 =? f * r)%num], (n <=? f * f * f)%num &
      [|| (b =? 0)%num, (c * c <? 4 * b)%num | ~~ (s * s + 4 * b =? c * c)%num]].

Lemma cube_shape_prime n a qs : all prime (map N.to_nat qs) -> cube_shape n qs ->
  (forall p, prime p -> (p %| N.to_nat n)%N -> ((N.to_nat a)%:R : 'F_p)%R ^+ (N.to_nat n).-1 = 1 :> 'F_p /\
     forall q, q \in map N.to_nat qs -> ((N.to_nat a)%:R : 'F_p) ^+ ((N.to_nat n).-1 %/ q) != 1)%R ->
  prime (N.to_nat n).
Proof.
move=> ps; rewrite /cube_shape; set f := foldr _ _ _; set r := N.div _ f; set b := N.div r f; set c := N.modulo r f.
case/and3P=> /and3P[/N.ltb_spec0 n1 /N.ltb_spec0 f1 /N.eqb_spec Er] /N.leb_spec0 n3 nsq pows.
have nn1 : (1 < N.to_nat n)%N by clear -n1; lia.
have En1 : N.to_nat (n - 1) = (N.to_nat n).-1 by clear; lia.
have f0 : f <> 0%num by clear -f1; lia.
have Erf : r = (b * f + c)%num by rewrite {1}(N.div_mod r f f0) N.mul_comm.
apply: (@cube_root_prime _ (N.to_nat f) 0 (N.to_nat b) (N.to_nat c)) => //.
- by clear -f1; lia.
- have -> : n = (1 + f * (b * f + c))%num by rewrite -Erf -Er; clear -n1; lia.
  by clear; lia.
- by have := N.mod_lt r f f0; rewrite -/c; clear; lia.
- by rewrite !expnS expn0 muln1; clear -n3; lia.
- move=> p pp pd; have [Ex ne] := pows p pp pd.
  apply: (@prime_divisors (N.to_nat n) _ (map N.to_nat qs) (N.to_nat a)) => //.
  + by rewrite -En1 Er N2Nat.inj_mul dvdn_mulr.
  + by move=> q pq; rewrite /f to_nat_prod; apply: prime_in_prod.
move=> s b0 Es; move: nsq.
have -> : (b =? 0)%num = false by apply/negbTE/negP => /N.eqb_spec E; move: b0; rewrite E.
have le : (4 * b <= c * c)%num by clear -Es; lia.
have -> : (c * c <? 4 * b)%num = false by apply/negbTE/negP => /N.ltb_spec0; clear -le; lia.
have -> : N.sqrt (c * c - 4 * b) = N.of_nat s.
  apply: N.sqrt_unique; clear -Es; nia.
by move/N.eqb_spec; apply; clear -Es; lia.
Qed.

(* The powers by plain exponentiation (for small n). *)
Definition cube_check (n a : N) (qs : seq N) : bool :=
  [&& cube_shape n qs, (powmod n a (n - 1) =? 1)%num &
      all (fun q => N.eqb (N.gcd (powmod n a ((n - 1) / q) + (n - 1)) n) 1%num) qs].

Lemma cube_check_prime n a qs : all prime (map N.to_nat qs) -> cube_check n a qs -> prime (N.to_nat n).
Proof.
move=> ps /and3P[sh /N.eqb_spec Epow /allP gcds]; apply: (cube_shape_prime (a := a) ps sh).
have n1 : (1 < n)%num by case/andP: sh => /and3P[/N.ltb_spec0].
have n0 : n <> 0%num by clear -n1; lia.
have En1 : N.to_nat (n - 1) = (N.to_nat n).-1 by clear; lia.
move=> p pp pd; have char : p \in [char 'F_p] := char_Fp pp.
have nR : ((N.to_nat n)%:R = 0 :> 'F_p)%R by apply/eqP; rewrite -(dvdn_charf char).
split.
  have := inR_powmod n0 nR a (n - 1)%num; rewrite Epow En1 => e.
  by rewrite -[(N.to_nat a)%:R%R]/(inR _ a) -e.
move=> _ /mapP[q hq ->]; apply/eqP => x1.
have /N.eqb_spec G := gcds q hq.
have pq : prime (N.to_nat q) by apply: (allP ps); apply: map_f.
have q0 : q <> 0%num by move=> E; move: pq; rewrite E.
have Ediv : N.to_nat ((n - 1) / q)%num = (N.to_nat n).-1 %/ N.to_nat q.
  apply/eqP; rewrite -En1 eq_sym; apply/eqP.
  have e := N.div_mod (n - 1)%num q q0; have lt := N.mod_lt (n - 1)%num q q0.
  rewrite {1}e N2Nat.inj_add N2Nat.inj_mul plusE multE mulnC divnMDl ?prime_gt0 // divn_small ?addn0 //.
  by move: lt; clear; lia.
have : inR [ringType of 'F_p] (powmod n a ((n - 1) / q) + (n - 1))%num = 0%R.
  rewrite /inR N2Nat.inj_add natrD -/(inR _ _) (inR_powmod n0 nR) Ediv x1.
  rewrite -[1%R]/(1%:R)%R -natrD -nR; congr (_%:R)%R; clear -n1; lia.
move/eqP; rewrite -(dvdn_charf char) => d1.
have : (p %| N.to_nat (N.gcd (powmod n a ((n - 1) / q) + (n - 1)) n))%N.
  have [u Eu] := dvdnP d1; have [v Ev] := dvdnP pd.
  have : (N.divide (N.of_nat p) (N.gcd (powmod n a ((n - 1) / q) + (n - 1)) n)).
    by apply: N.gcd_greatest; [exists (N.of_nat u); clear -Eu|exists (N.of_nat v); clear -Ev]; lia.
  by case=> z Ez; apply/dvdnP; exists (N.to_nat z); rewrite Ez; clear; lia.
by rewrite G /= dvdn1 => /eqP E1; move: pp; rewrite E1.
Qed.

(* For large n: reduction by multiplication as in Pocklington.v but for wider
   numbers, squares at half the cost, and powers that share work. *)
Local Open Scope ring_scope.

Definition redw (w m mu x : N) : N :=
  let q := N.shiftr (N.shiftr x w * mu) w in
  let y := (q * m)%num in
  if (y <=? x)%num then
    let t := (x - y)%num in if (t <? m)%num then t else
    let t1 := (t - m)%num in if (t1 <? m)%num then t1 else N.modulo t1 m
  else N.modulo x m.

Fixpoint square_pos (p : positive) : positive :=
  match p with
  | xH => xH
  | xO p' => xO (xO (square_pos p'))
  | xI p' => xI (xO (square_pos p' + p'))
  end.
Definition square (a : N) : N := if a is Npos p then Npos (square_pos p) else 0%num.

Lemma squareE a : square a = (a * a)%num.
Proof. by case: a => // p; congr Npos; elim: p => //= p ->; clear; lia. Qed.

Fixpoint poww_pos (w m mu a : N) (e : positive) : N :=
  match e with
  | xH => a
  | xO e' => redw w m mu (square (poww_pos w m mu a e'))
  | xI e' => redw w m mu (redw w m mu (square (poww_pos w m mu a e')) * a)
  end.
Definition poww (w m mu a e : N) : N := if e is Npos p then poww_pos w m mu a p else 1%num.

Section InRing.
Variables (R : ringType) (w m mu : N).
Hypothesis m0 : m <> 0%num.
Hypothesis mR : (N.to_nat m)%:R = 0 :> R.

Lemma inR_redw x : inR R (redw w m mu x) = inR R x.
Proof.
have mR0 : inR R m = 0 by [].
rewrite /redw; set q := N.shiftr _ w; case: N.leb_spec => le; last exact: inR_mod.
have E : inR R (x - q * m)%num = inR R x by rewrite inRB // inRM mR0 mulr0 subr0.
case: N.ltb_spec => h1 //.
have E1 : inR R (x - q * m - m)%num = inR R x by rewrite inRB // E mR0 subr0.
by case: N.ltb_spec => h2 //; rewrite inR_mod.
Qed.

Lemma inR_poww a e : inR R (poww w m mu a e) = inR R a ^+ N.to_nat e.
Proof.
case: e => [|e] //; rewrite -[N.to_nat (N.pos e)]/(Pos.to_nat e) -[poww _ _ _ _ _]/(poww_pos w m mu a e).
elim: e => [e IH|e IH|].
- rewrite -[poww_pos _ _ _ _ _]/(redw w m mu (redw w m mu (square (poww_pos w m mu a e)) * a)%num).
  rewrite inR_redw inRM inR_redw squareE inRM IH Pos2Nat.inj_xI multE.
  by rewrite exprSr -expr2 -exprM mulnC.
- rewrite -[poww_pos _ _ _ _ _]/(redw w m mu (square (poww_pos w m mu a e))).
  by rewrite inR_redw squareE inRM IH Pos2Nat.inj_xO multE -expr2 -exprM mulnC.
- by rewrite expr1.
Qed.
End InRing.

Section Wide.
Variables (w n a mu inv m q1 q2 q3 q4 : N).
Local Notation pw := (poww w n mu).

Definition wide_pows : seq N :=
  let b := pw a m in
  let c := pw b q4 in
  let d := pw c q1 in
  [:: pw c (q2 * q3)%num; pw d q3; pw d q2; pw b (q1 * q2 * q3)%num].
Definition wide_check : bool :=
  let ys := wide_pows in
  [&& cube_shape n [:: q1; q2; q3; q4], (n - 1 =? m * q4 * q1 * q2 * q3)%num,
      (pw (head 0%num ys) q1 =? 1)%num &
      (redw w n mu (inv * foldr (fun y acc => redw w n mu ((y + (n - 1)) * acc)) 1 ys) =? 1)%num].

Lemma wide_powsE (R : ringType) : n <> 0%num -> (N.to_nat n)%:R = 0 :> R ->
  map (inR R) wide_pows =
  [seq inR R a ^+ N.to_nat e | e <- [:: m * q4 * (q2 * q3); m * q4 * q1 * q3;
     m * q4 * q1 * q2; m * (q1 * q2 * q3)]%num].
Proof.
move=> n0 nR; have pwE b e : inR R (pw b e) = inR R b ^+ N.to_nat e by apply: inR_poww.
rewrite !map_cons !pwE /= -!exprM !N2Nat.inj_mul !multE; by congr [:: _; _; _; _]; congr (_ ^+ _); rewrite ?mulnA.
Qed.

Lemma wide_check_prime : all prime (map N.to_nat [:: q1; q2; q3; q4]) -> wide_check -> prime (N.to_nat n).
Proof.
move=> ps /and4P[sh /N.eqb_spec Em /N.eqb_spec Epow /N.eqb_spec Einv].
apply: (cube_shape_prime (a := a) ps sh).
have n1 : (1 < n)%num by case/andP: sh => /and3P[/N.ltb_spec0].
have n0 : n <> 0%num by clear -n1; lia.
have En1 : N.to_nat (n - 1) = (N.to_nat n).-1 by clear; lia.
have pN q : q \in [:: q1; q2; q3; q4] -> prime (N.to_nat q).
  by move=> hq; apply: (allP ps); apply: map_f.
move=> p pp pd; have char : p \in [char 'F_p] := char_Fp pp.
have nR : (N.to_nat n)%:R = 0 :> 'F_p by apply/eqP; rewrite -(dvdn_charf char).
have pw := wide_powsE n0 nR.
split.
  have -> : (N.to_nat n).-1 = N.to_nat (m * q4 * (q2 * q3) * q1) by rewrite -En1 Em; clear; lia.
  rewrite -[(N.to_nat a)%:R]/(inR _ a) N2Nat.inj_mul multE exprM.
  case: pw => <- _ _ _; rewrite -(inR_poww w mu n0 nR).
  by move: Epow; rewrite [head _ _]/= => ->.
have nz y : y \in wide_pows -> inR [ringType of 'F_p] y != 1.
  move=> hy; apply/eqP => y1.
  have E0 : inR [ringType of 'F_p] (y + (n - 1))%num = 0.
    rewrite /inR N2Nat.inj_add natrD -/(inR _ y) y1 -[1]/(1%:R) -natrD -nR; congr _%:R.
    by clear -n1; lia.
  have : inR [ringType of 'F_p] (foldr (fun y acc => redw w n mu ((y + (n - 1)) * acc)) 1 wide_pows)%num = 0.
    elim: wide_pows hy => // z zs IH; rewrite inE => /orP[/eqP <-|/IH e0] /=.
      by rewrite (inR_redw w mu n0 nR) inRM E0 mul0r.
    by rewrite (inR_redw w mu n0 nR) inRM e0 mulr0.
  move=> f0; have := congr1 (inR [ringType of 'F_p]) Einv.
  by rewrite (inR_redw w mu n0 nR) inRM f0 mulr0 => /esym /eqP; rewrite /inR oner_eq0.
have dv q e : (n - 1 = e * q)%num -> q \in [:: q1; q2; q3; q4] ->
    ((N.to_nat n).-1 %/ N.to_nat q)%N = N.to_nat e.
  by move=> E hq; rewrite -En1 E N2Nat.inj_mul multE mulnK // prime_gt0 // pN.
have key y q e : inR [ringType of 'F_p] y = inR _ a ^+ N.to_nat e -> y \in wide_pows ->
    (n - 1 = e * q)%num -> q \in [:: q1; q2; q3; q4] ->
    ((N.to_nat a)%:R : 'F_p) ^+ ((N.to_nat n).-1 %/ N.to_nat q) != 1.
  by move=> Ey hy E hq; rewrite (dv _ _ E hq) -[(N.to_nat a)%:R]/(inR _ a) -Ey; apply: nz.
case: pw => E1 E2 E3 E4 q /mapP[x]; rewrite !inE => hx ->.
case/or4P: hx => /eqP ->.
- by apply: (key _ _ _ E1); rewrite ?inE ?eqxx ?orbT // Em; clear; lia.
- by apply: (key _ _ _ E2); rewrite ?inE ?eqxx ?orbT // Em; clear; lia.
- by apply: (key _ _ _ E3); rewrite ?inE ?eqxx ?orbT // Em; clear; lia.
- by apply: (key _ _ _ E4); rewrite ?inE ?eqxx ?orbT // Em; clear; lia.
Qed.
End Wide.

(* 52437899 * 859267 * 10177 * 2584487767265781317813 divides q - 1 *)
Definition q71 : N := 2584487767265781317813%num.
Definition q63 : N := 7259797099061183477%num.
Definition q51 : N := 1928745244171409%num.
Definition q44 : N := 9272813673901%num.
Lemma q44_check : cube_check q44 2 [:: 7577; 582767]%num.
Proof. vm_cast_no_check (erefl true). Qed.
Lemma q51_check : cube_check q51 3 [:: q44].
Proof. vm_cast_no_check (erefl true). Qed.
Lemma q63_check : cube_check q63 2 [:: q51].
Proof. vm_cast_no_check (erefl true). Qed.
Lemma q71_check : cube_check q71 2 [:: q63].
Proof. vm_cast_no_check (erefl true). Qed.
Definition q_mu : N := 387895858952076949850655135101097619915683056388127769962234230165833549439524687160934695519155361600282632981166638%num.
Definition q_inv : N := 3778634758240548521848451532983178133731058438269231539432803260044346328246791575092167314770493208925084381142324%num.
Definition q_m : N := 3377177252905055060729329715378333121866931200904087765894858504534390183042%num.
Lemma q_check : wide_check 384 bls_q 2 q_mu q_inv q_m 52437899 859267 10177 q71.
Proof. vm_cast_no_check (erefl true). Qed.
Lemma small_check : all small_prime [:: 7577; 582767; 52437899; 859267; 10177]%num.
Proof. vm_cast_no_check (erefl true). Qed.

Lemma primes1 a : prime (N.to_nat a) -> all prime (map N.to_nat [:: a]).
Proof. by move=> p; rewrite /= p. Qed.
Lemma primes2 a b : prime (N.to_nat a) -> prime (N.to_nat b) -> all prime (map N.to_nat [:: a; b]).
Proof. by move=> p p'; rewrite /= p p'. Qed.
Lemma primes4 a b c d : prime (N.to_nat a) -> prime (N.to_nat b) -> prime (N.to_nat c) -> prime (N.to_nat d) ->
  all prime (map N.to_nat [:: a; b; c; d]).
Proof. by move=> p1 p2 p3 p4; rewrite /= p1 p2 p3 p4. Qed.
Lemma small5 a b c d e : all small_prime [:: a; b; c; d; e] ->
  [/\ prime (N.to_nat a), prime (N.to_nat b), prime (N.to_nat c), prime (N.to_nat d) & prime (N.to_nat e)].
Proof. by case/and5P=> ? ? ? ? /andP[? _]; split; apply: small_primeP. Qed.

Theorem bls_q_prime : prime (N.to_nat bls_q).
Proof.
have [s1 s2 s3 s4 s5] := small5 small_check.
have p44 := cube_check_prime (primes2 s1 s2) q44_check.
have p51 := cube_check_prime (primes1 p44) q51_check.
have p63 := cube_check_prime (primes1 p51) q63_check.
have p71 := cube_check_prime (primes1 p63) q71_check.
exact (wide_check_prime (primes4 s3 s4 s5 p71) q_check).
Qed.
