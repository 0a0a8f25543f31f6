(* Bridging ArkPoly.v to mathcomp {poly F}. *)
Set Warnings "-notation-overridden,-ambiguous-paths".
From mathcomp Require Import all_ssreflect all_algebra.
From mathcomp Require Import ring.
From Verif Require Import Base BaseLemmas ArkPoly.

Set Implicit Arguments.
Unset Strict Implicit.
Unset Printing Implicit Defensive.

Import GRing.Theory.
Local Open Scope ring_scope.

Section ArkPolyLemmas.
Variable F : fieldType.
Implicit Types (s p q : seq F) (x a z : F).

Lemma Poly_cons a s : Poly (a :: s) = a%:P + 'X * Poly s.
Proof. by rewrite /= cons_poly_def addrC mulrC. Qed.

Lemma Poly_nil : Poly ([::] : seq F) = 0.
Proof. by []. Qed.

Lemma trimE s : trim s = Poly s :> seq F.
Proof.
elim: s => [|a s IH] /=; first by rewrite polyseq0.
rewrite IH polyseq_cons nil_poly; case: (altP (Poly s =P 0)) => [->|ne] /=.
  rewrite polyseqC polyseq0; by case: (a == 0).
by [].
Qed.

Lemma Poly_trim s : Poly (trim s) = Poly s.
Proof. by rewrite trimE polyseqK. Qed.

Lemma trim_trim s : trim (trim s) = trim s.
Proof. by rewrite !trimE polyseqK. Qed.

Lemma size_trim s : size (trim s) = size (Poly s).
Proof. by rewrite trimE. Qed.

Lemma size_trim_le s : (size (trim s) <= size s)%N.
Proof. by rewrite size_trim size_Poly. Qed.

Lemma pevalE s x : peval s x = (Poly s).[x].
Proof.
elim: s => [|a s IH]; first by rewrite Poly_nil horner0.
by rewrite Poly_cons !hornerE /= IH.
Qed.

Lemma padd_rawE p q : Poly (padd_raw p q) = Poly p + Poly q.
Proof.
elim: p q => [|a p IH] [|b q]; rewrite ?Poly_nil ?add0r ?addr0 //.
by rewrite [padd_raw _ _]/= !Poly_cons IH rmorphD /=; ring.
Qed.

Lemma Poly_padd p q : Poly (padd p q) = Poly p + Poly q.
Proof. by rewrite Poly_trim padd_rawE. Qed.

Lemma paddE p q : padd p q = Poly p + Poly q :> seq F.
Proof. by rewrite /padd trimE padd_rawE. Qed.

Lemma pis_zeroP s : pis_zero s = (Poly s == 0).
Proof.
elim: s => [|a s IH]; first by rewrite Poly_nil eqxx.
rewrite /pis_zero [all _ _]/= -/(pis_zero s) IH -[RHS]nil_poly polyseq_cons nil_poly.
case: (Poly s == 0) => /=; last by rewrite andbF.
by rewrite andbT polyseqC; case: (a == 0).
Qed.

Lemma Poly_scale s a : Poly [seq c * a | c <- s] = a *: Poly s.
Proof.
elim: s => [|b s IH]; first by rewrite Poly_nil scaler0.
by rewrite map_cons !Poly_cons IH -!mul_polyC rmorphM /=; ring.
Qed.

Lemma Poly_pscale s a : Poly (pscale s a) = a *: Poly s.
Proof.
rewrite /pscale pis_zeroP; case: eqP => [->|_] /=; first by rewrite scaler0.
by case: eqP => [->|_]; rewrite ?scale0r // Poly_scale.
Qed.

Lemma pdegreeE s : pdegree s =
  if Poly s == 0 then Ret 0%N
  else if last 0 s == 0 then Panic else Ret (size s).-1.
Proof. by rewrite /pdegree pis_zeroP. Qed.

(* a list with non-zero last coefficient is its own trimmed form *)
Lemma last_neq0_trim s : last 0 s != 0 -> trim s = s.
Proof.
move=> Hl; rewrite trimE.
have Hl1 : last 1 s != 0 by case: s Hl => //=; rewrite oner_eq0.
by rewrite -[in RHS](PolyK Hl1).
Qed.

Lemma trim_last s : s != [::] -> trim s = s -> last 0 s != 0.
Proof.
move=> ne; rewrite trimE => E; rewrite -E.
have : Poly s != 0 by rewrite -nil_poly E; case: s ne {E}.
by rewrite -lead_coef_eq0 lead_coefE -nth_last.
Qed.

(* division by X - z *)
Lemma quot_linE z s :
  Poly s = ('X - z%:P) * Poly (quot_lin z s).1 + (quot_lin z s).2%:P.
Proof.
elim: s => [|a s IH]; first by rewrite /= mulr0 add0r.
rewrite Poly_cons IH [quot_lin z (a :: s)]/= -/(quot_lin z s).
case: (quot_lin z s) => q r; rewrite [(_, _).1]/= [(_, _).2]/= Poly_cons.
rewrite rmorphD rmorphM /=; ring.
Qed.

Lemma quot_lin_rem z s : (quot_lin z s).2 = peval s z.
Proof.
by rewrite pevalE [in RHS](quot_linE z s) !hornerE subrr mul0r add0r.
Qed.

Lemma pdiv_linE z s :
  Poly s - (peval s z)%:P = ('X - z%:P) * Poly (pdiv_lin z s).
Proof. by rewrite Poly_trim {1}(quot_linE z s) quot_lin_rem addrK. Qed.

Lemma pdiv_lin_divp z s : Poly (pdiv_lin z s) = (Poly s - (peval s z)%:P) %/ ('X - z%:P).
Proof. by rewrite pdiv_linE mulrC mulpK // polyXsubC_eq0. Qed.

End ArkPolyLemmas.
