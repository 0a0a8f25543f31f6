(* Facts about the two-adic domains. *)
Set Warnings "-notation-overridden,-ambiguous-paths".
From mathcomp Require Import all_ssreflect all_algebra.
From mathcomp Require Import ring.
From Verif Require Import Base BaseLemmas ArkPoly ArkPolyLemmas ArkDomain.

Set Implicit Arguments.
Unset Strict Implicit.
Unset Printing Implicit Defensive.

Import GRing.Theory.
Local Open Scope ring_scope.

(* The hypothesis on the field constants: the declared root has order 2^S
   exactly and S >= 1 (true of every odd-characteristic PrimeField). *)
Definition fft_ok (F : fieldType) (P : fft_field F) : Prop :=
  (0 < two_adicity P)%N /\ (2 ^ two_adicity P).-primitive_root (two_adic_root P).

(* an element whose 2^k-th power is -1 has order 2^(k+1) *)
Lemma prim_root_pow2 (F : fieldType) (z : F) k : z ^+ (2 ^ k) = -1 -> (2%:R != 0 :> F) ->
  (2 ^ k.+1).-primitive_root z.
Proof.
move=> Ez two.
have Ez1 : z ^+ (2 ^ k.+1) = 1 by rewrite expnSr exprM Ez sqrrN expr1n.
have [m pm dm] := prim_order_exists (expn_gt0 2 k.+1) Ez1.
have [j le Em] : exists2 j, (j <= k.+1)%N & m = (2 ^ j)%N by apply/dvdn_pfactor.
move: le; rewrite leq_eqVlt => /orP[/eqP <-|]; first by rewrite -Em.
rewrite ltnS => le; have : z ^+ (2 ^ k) = 1.
  by apply/eqP; rewrite -(prim_order_dvd pm) Em dvdn_exp2l.
rewrite Ez => E; case/eqP: two.
by rewrite -[2%:R]/(1 + 1) -{1}E addNr.
Qed.

Section DomainLemmas.
Variables (F : fieldType) (P : fft_field F).

Lemma iter_sqr n (w : F) : iter n (fun w => w * w) w = w ^+ (2 ^ n).
Proof.
elim: n => [|n IH] /=; first by rewrite expr1.
by rewrite IH expnSr exprM expr2.
Qed.

Lemma root_of_unityE k : root_of_unity P k = two_adic_root P ^+ (2 ^ (two_adicity P - k)).
Proof. exact: iter_sqr. Qed.

Hypothesis ok : fft_ok P.

Lemma root_of_unity_prim k : (k <= two_adicity P)%N ->
  (2 ^ k).-primitive_root (root_of_unity P k).
Proof.
move=> le; rewrite root_of_unityE; case: ok => _ prim.
have := exp_prim_root prim (2 ^ (two_adicity P - k)).
have -> : gcdn (2 ^ (two_adicity P - k)) (2 ^ two_adicity P) = (2 ^ (two_adicity P - k))%N.
  by apply/gcdn_idPl; rewrite dvdn_exp2l // leq_subr.
have -> // : (2 ^ two_adicity P %/ 2 ^ (two_adicity P - k) = 2 ^ k)%N.
by rewrite -{1}(subnK le) expnD mulnC mulnK // expn_gt0.
Qed.

Lemma root_of_unity_sqr k : (k < two_adicity P)%N ->
  root_of_unity P k.+1 ^+ 2 = root_of_unity P k.
Proof.
move=> lt; rewrite !root_of_unityE -exprM -expnSr.
by rewrite subnS prednK // subn_gt0.
Qed.

Lemma root_of_unity_half k : (k < two_adicity P)%N ->
  root_of_unity P k.+1 ^+ (2 ^ k) = -1.
Proof.
move=> lt; have prim := root_of_unity_prim lt.
set w := root_of_unity P k.+1 in prim *.
have : (w ^+ (2 ^ k)) ^+ 2 == 1 by rewrite -exprM -expnSr (prim_expr_order prim).
rewrite sqrf_eq1 => /orP[/eqP E|/eqP//].
have := prim_order_dvd prim (2 ^ k); rewrite E eqxx => H.
have := dvdn_leq _ H; rewrite expn_gt0 leq_exp2l // ltnn => /(_ isT).
by [].
Qed.

Lemma two_neq0 : 2%:R != 0 :> F.
Proof.
case: ok => gt0 prim.
have lt : ((two_adicity P).-1 < two_adicity P)%N by rewrite prednK.
have pr := root_of_unity_prim lt; have := root_of_unity_half lt.
have : root_of_unity P (two_adicity P).-1.+1 ^+ (2 ^ (two_adicity P).-1) != 1.
  rewrite -(prim_order_dvd pr) gtnNdvd ?expn_gt0 // ltn_exp2l //.
move=> ne E; apply: contraNneq ne => E2; rewrite E.
by rewrite eq_sym -subr_eq0 opprK -mulr2n E2.
Qed.

Lemma two_pow_neq0 k : (2 ^ k)%:R != 0 :> F.
Proof. by rewrite natrX expf_neq0 // two_neq0. Qed.

Lemma root_of_unity_neq0 k : (k <= two_adicity P)%N -> root_of_unity P k != 0.
Proof.
move=> le; have pr := root_of_unity_prim le.
apply/eqP => E; have := prim_expr_order pr; rewrite E expr0n.
by rewrite -leqn0 leqNgt expn_gt0 /= => /eqP; rewrite eq_sym oner_eq0.
Qed.

Lemma domain_newE k : domain_new P (2 ^ k) =
  if (k <= two_adicity P)%N then Some (Domain (2 ^ k) (root_of_unity P k)) else None.
Proof. by rewrite /domain_new up_expnK. Qed.

End DomainLemmas.
