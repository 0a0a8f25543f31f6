(* Lemmas about the kzg crate. *)
Set Warnings "-notation-overridden,-ambiguous-paths".
From mathcomp Require Import all_ssreflect all_algebra.
From mathcomp Require Import zify ring.
From Verif Require Import Base BaseLemmas ArkPoly ArkPolyLemmas KzgModel KzgSpec.

Set Implicit Arguments.
Unset Strict Implicit.
Unset Printing Implicit Defensive.

Import GRing.Theory.
Local Open Scope ring_scope.

Section KzgLemmas.
Variables (F : fieldType) (E : pairing_group F).
Local Notation g1 := (g1_gen E).
Local Notation g2 := (g2_gen E).
Implicit Types (p : seq F) (s z : F).

Lemma size_srs_points s c n : size (srs_points E s c n) = n.
Proof. by elim: n c => //= n IH c; rewrite IH. Qed.

Lemma nth_srs_points s c n i : (i < n)%N ->
  nth 0 (srs_points E s c n) i = (c * s ^+ i) *: g1.
Proof.
elim: n c i => // n IH c [|i] lt /=; first by rewrite expr0 mulr1.
by rewrite IH // exprS mulrA.
Qed.

Lemma size_srs s n : size (srs_g1_points (srs_new_from_secret E s n)) = (n + 3)%N.
Proof. exact: size_srs_points. Qed.

Lemma foldl_add (x : G1 E) l : foldl +%R x l = x + \sum_(y <- l) y.
Proof.
elim: l x => [|y l IH] x /=; first by rewrite big_nil addr0.
by rewrite IH big_cons addrA.
Qed.

Lemma reduce_addE (l : seq (G1 E)) : reduce_add l = \sum_(y <- l) y.
Proof. by case: l => [|x l]; rewrite ?big_nil // big_cons -foldl_add. Qed.

Lemma sum_points s c n p : (size p <= n)%N ->
  \sum_(y <- [seq cs.1 *: cs.2 | cs <- zip p (srs_points E s c n)]) y =
  (c * peval p s) *: g1.
Proof.
elim: p c n => [|a p IH] c [|n] //= le; rewrite ?big_nil ?mulr0 ?scale0r //.
rewrite big_cons IH // scalerA -scalerDl; congr (_ *: _); ring.
Qed.

Lemma sum_points_zero s c n p : pis_zero p ->
  \sum_(y <- [seq cs.1 *: cs.2 | cs <- zip p (srs_points E s c n)]) y = 0.
Proof.
elim: p c n => [|a p IH] c [|n] //= ; rewrite ?big_nil //.
by move=> /andP[/eqP -> /IH E0]; rewrite big_cons scale0r add0r E0.
Qed.

Lemma evaluate_in_sE s n p :
  evaluate_in_s (srs_new_from_secret E s n) p =
  if Poly p == 0 then Ret 0
  else if last 0 p == 0 then Panic
  else if (size p <= n + 3)%N then Ret (commitment_of E s (Poly p)) else Panic.
Proof.
rewrite /evaluate_in_s pdegreeE size_srs reduce_addE /=.
case: eqP => [E0|/eqP ne].
  by rewrite sum_points_zero ?pis_zeroP ?E0 // bindRet /oassert addn3.
case: eqP => // /eqP ln /=; rewrite /oassert.
have p0 : (0 < size p)%N by case: p ne {ln} => //; rewrite Poly_nil eqxx.
rewrite prednK //; case: leqP => //= le.
by rewrite sum_points // mul1r pevalE.
Qed.

Lemma trim_zero p : (trim p == [::]) = (Poly p == 0).
Proof. by rewrite trimE -nil_poly /nilp size_eq0. Qed.

Lemma commit_vectorE s n p :
  kzg_commit_vector (srs_new_from_secret E s n) p =
  if (size (Poly p) <= n + 3)%N then Ret (commitment_of E s (Poly p)) else Panic.
Proof.
rewrite /kzg_commit_vector evaluate_in_sE Poly_trim size_trim.
case: eqP => [->|/eqP ne].
  by rewrite size_poly0 /commitment_of horner0 scale0r.
rewrite (negbTE (trim_last _ (trim_trim p))) //.
by rewrite trim_zero.
Qed.

(* openings *)
Lemma Poly_sub_first a p (y : F) : Poly ((a - y) :: p) = Poly (a :: p) - y%:P.
Proof. by rewrite !Poly_cons rmorphB /=; ring. Qed.

Lemma peval_sub_first a p (y x : F) : peval ((a - y) :: p) x = peval (a :: p) x - y.
Proof. by rewrite /=; ring. Qed.

Lemma size_subC (f : {poly F}) (y : F) : (1 < size f)%N -> size (f - y%:P) = size f.
Proof.
by move=> lt; rewrite size_addl // size_opp; apply: leq_ltn_trans (size_polyC_leq1 y) lt.
Qed.

Lemma opening_quotientE p z : Poly (pdiv_lin z p) = opening_quotient (Poly p) z.
Proof. by rewrite pdiv_lin_divp pevalE. Qed.

Lemma opening_quotient_subC (f : {poly F}) (y z : F) :
  opening_quotient (f - y%:P) z = opening_quotient f z.
Proof.
by rewrite /opening_quotient !hornerE rmorphB /=; congr (_ %/ _); ring.
Qed.

Lemma opening_quotient_mul (f : {poly F}) z :
  f - (f.[z])%:P = ('X - z%:P) * opening_quotient f z.
Proof. by rewrite -{1 2}[f]polyseqK -pevalE pdiv_linE opening_quotientE polyseqK. Qed.

Lemma size_opening_quotient (f : {poly F}) z : size (opening_quotient f z) = (size f).-1.
Proof.
have := opening_quotient_mul f z.
case: (ltnP 1 (size f)) => [lt|le].
  move/(congr1 (fun g : {poly F} => size g)); rewrite size_subC //.
  have [->|ne] := eqVneq (opening_quotient f z) 0.
    by rewrite mulr0 size_poly0 => E0; rewrite E0 in lt.
  by rewrite mulrC size_Mmonic ?monicXsubC // size_XsubC addn2 => ->.
have -> : f = (f`_0)%:P by apply: size1_polyC.
rewrite hornerC subrr => /esym/eqP; rewrite mulf_eq0 polyXsubC_eq0 /= => /eqP ->.
by rewrite size_poly0 size_polyC; case: (_ != 0).
Qed.

(* the stored list is trimmed, or the polynomial is constant *)
Lemma open_coeffsE s n p z :
  open_coeffs (srs_new_from_secret E s n) p z =
  if p == [::] then Panic
  else if (size (Poly p) <= 1)%N then Ret (0, (Poly p).[z])
  else if last 0 p == 0 then Panic
  else if (size p <= n + 4)%N then
    Ret (commitment_of E s (opening_quotient (Poly p) z), (Poly p).[z])
  else Panic.
Proof.
rewrite /open_coeffs; case: p => [|a p] //; set ap := a :: p.
rewrite [ap == [::]]/= pevalE /divide_lin pis_zeroP Poly_sub_first -/ap.
case: (ltnP 1 (size (Poly ap))) => [lt|le].
  have ne : Poly ap - ((Poly ap).[z])%:P != 0.
    by rewrite -size_poly_gt0 size_subC //; exact: ltnW.
  rewrite (negbTE ne) pdegreeE Poly_sub_first -/ap (negbTE ne).
  have -> : last 0 ((a - (Poly ap).[z]) :: p) = last 0 ap.
    case: p @ap lt ne => [|b p] ap lt ne //.
    by move: lt; rewrite /ap; have := size_Poly [:: a]; rewrite /=; lia.
  case: eqP => // /eqP ln.
  have sp : (1 < size ap)%N by apply: leq_trans lt (size_Poly _).
  rewrite bindRet [size (_ :: p)]/= -[(size p).+1]/(size ap).
  have -> : ((size ap).-1 < 1)%N = false by apply/negbTE; rewrite -leqNgt; lia.
  have Sap : size (Poly ap) = size ap by rewrite -size_trim last_neq0_trim.
  rewrite bindRet evaluate_in_sE opening_quotientE Poly_sub_first -/ap opening_quotient_subC.
  have Sq := size_opening_quotient (Poly ap) z.
  have Sl : size (pdiv_lin z ((a - (Poly ap).[z]) :: p)) = (size ap).-1.
    by rewrite /pdiv_lin size_trim -Poly_trim -/(pdiv_lin _ _) opening_quotientE Poly_sub_first
         -/ap opening_quotient_subC Sq Sap.
  rewrite Sl -size_poly_eq0 Sq Sap.
  have -> : ((size ap).-1 == 0)%N = false by apply/negbTE; lia.
  have -> : last 0 (pdiv_lin z ((a - (Poly ap).[z]) :: p)) == 0 = false.
    apply/negbTE/trim_last; last by rewrite /pdiv_lin trim_trim.
    by rewrite -size_eq0 Sl; lia.
  have -> : ((size ap).-1 <= n + 3)%N = (size ap <= n + 4)%N by lia.
  by case: ifP.
have -> : Poly ap - ((Poly ap).[z])%:P == 0.
  by rewrite (size1_polyC le) hornerC subrr.
by rewrite bindRet evaluate_in_sE Poly_nil eqxx.
Qed.

Lemma open_vectorE s n p z :
  kzg_open_vector (srs_new_from_secret E s n) p z =
  if Poly p == 0 then Panic
  else if (size (Poly p) <= n + 4)%N then
    Ret (commitment_of E s (opening_quotient (Poly p) z), (Poly p).[z])
  else Panic.
Proof.
rewrite /kzg_open_vector open_coeffsE trim_zero Poly_trim size_trim.
case: eqP => // /eqP ne.
rewrite (negbTE (trim_last _ (trim_trim p))) ?trim_zero //.
case: leqP => // le; case: leqP; last by move: le; lia.
move=> _; congr (Ret (_, _)).
have : size (opening_quotient (Poly p) z) = 0%N by rewrite size_opening_quotient; lia.
by move/eqP; rewrite size_poly_eq0 /commitment_of => /eqP ->; rewrite horner0 scale0r.
Qed.

End KzgLemmas.
