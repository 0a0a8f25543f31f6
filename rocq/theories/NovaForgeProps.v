(* C81: instances chosen after the folding challenge. *)
From Coq Require Import String Ascii NArith.
Set Warnings "-notation-overridden,-ambiguous-paths".
From mathcomp Require Import all_ssreflect all_algebra.
From mathcomp Require Import zify ring.
From Verif Require Import Base BaseLemmas ArkPoly ArkPolyLemmas KzgModel KzgSpec KzgLemmas
  KzgProps NovaModel NovaSpec NovaLemmas NovaTranscript NovaProps.

Set Implicit Arguments.
Unset Strict Implicit.
Unset Printing Implicit Defensive.

Import GRing.Theory.
Local Open Scope ring_scope.

Section Forge.
Variables (F B : fieldType) (E : pairing_group F) (X : nova_env B E).
Hypotheses (ok : pairing_ok E) (long : forall b, (8 <= size (digest X b))%N).
Local Notation g1 := (g1_gen E).
Implicit Types (R : r1cs F) (w x e : seq F) (s : F).

(* the error vector that makes any assignment satisfy the relaxed relation *)
Let error_of R z (u : F) : seq F :=
  mkseq (fun i => dot (nth [::] (matrix_a R) i) z * dot (nth [::] (matrix_b R) i) z -
                  u * dot (nth [::] (matrix_c R) i) z) (size (matrix_c R)).

Let shape R w x (n : nat) : Prop :=
  [/\ size (matrix_a R) = size (matrix_c R), (size (matrix_a R) <= size (matrix_b R))%N,
      size w = num_vars R, size x = num_io R &
      (num_vars R <= n + 3)%N /\ (size (matrix_c R) <= n + 3)%N].

Lemma error_satisfies R w x (u s : F) n : shape R w x n ->
  let e := error_of R (w ++ x ++ [:: u]) u in
  is_r1cs_satisfied R (FInstance ((Poly e).[s] *: g1) u ((Poly w).[s] *: g1) x) (FWitness e w)
    (srs_new_from_secret E s n) = Ret tt.
Proof.
move=> [eAC leAB sw sx [fw fe]] e; apply/C29_satisfied_iff.
have se : size e = size (matrix_c R) by rewrite size_mkseq.
split=> //=.
  by move=> i lt; rewrite /row_holds nth_mkseq -?eAC //; ring.
by split; apply: leq_trans (size_Poly _) _; rewrite ?sw ?se.
Qed.

Lemma open_any (v : seq F) (s z : F) :
  exists o : kzg_opening E, (s - z) *: o.1 = (Poly v).[s] *: g1 - o.2 *: g1.
Proof.
have /factor_theorem[q eq] : root (Poly v - (Poly v).[z]%:P) z.
  by rewrite rootE !hornerE subrr.
exists (q.[s] *: g1, (Poly v).[z]); rewrite /= scalerA -scalerBl; congr (_ *: _).
by move/(congr1 (fun p => p.[s])): eq; rewrite !hornerE => ->; rewrite mulrC.
Qed.

(* the verifier accepts some proof for any folded instance with commitments to
   known vectors, and the challenge in it is the one derived from u1, u2, com_t *)
Lemma accepted_for_known (u1 u2 : F) (com_t : G1 E) s n t : exists r,
  forall (fi1 fi2 fi3 : finstance E) (e w : seq F),
  fi_u fi1 = u1 -> fi_u fi2 = u2 ->
  fi_com_e fi3 = (Poly e).[s] *: g1 -> fi_com_w fi3 = (Poly w).[s] *: g1 ->
  exists pf t', np_r pf = r /\
    nifs_verify X pf fi1 fi2 fi3 com_t (srs_new_from_secret E s n) t = Ret t'.
Proof.
case Er: (nt_challenge X (nt_feed X (nt_feed_scalar X (nt_feed_scalar X t u1) u2) com_t)) =>
  [[r t1]||]; try by rewrite challenge_absorb in Er.
exists r => fi1 fi2 fi3 e w eu1 eu2 ece ecw.
case Ep: (nt_challenge X (nt_feed X (nt_feed X t1 (fi_com_e fi3)) (fi_com_w fi3))) => [[pt t2]||];
  try by rewrite challenge_absorb in Ep.
have [[We ye] /= He] := open_any e s pt; have [[Ww yw] /= Hw] := open_any w s pt.
exists (NifsProof r pt (We, ye) (Ww, yw)), t2; split=> //.
rewrite /nifs_verify /verify_challenge eu1 eu2 Er /= eqxx /= /verify_opening Ep /= eqxx /=.
by rewrite !C24_verify_equation // ece ecw He Hw !eqxx.
Qed.

(* the first instance last: whatever the second instance, the scalar and public
   inputs claimed for the first one, the cross-term commitment and the vector w *)
Theorem C81_first_instance_last R (fi2 : finstance E) (u1 : F) (x1 : seq F) (com_t : G1 E)
    (w : seq F) s n t :
  let S := srs_new_from_secret E s n in
  size (matrix_a R) = size (matrix_c R) -> (size (matrix_a R) <= size (matrix_b R))%N ->
  size w = num_vars R -> size x1 = num_io R -> size (fi_x fi2) = num_io R ->
  (num_vars R <= n + 3)%N -> (size (matrix_c R) <= n + 3)%N ->
  exists ce cw pf fw t',
    let fi1 := FInstance ce u1 cw x1 in
    let fi3 := nifs_verifier (np_r pf) fi1 fi2 com_t in
    [/\ nifs_verify X pf fi1 fi2 fi3 com_t S t = Ret t',
        is_r1cs_satisfied R fi3 fw S = Ret tt & fw_w fw = w].
Proof.
move=> S eAC leAB sw sx1 sx2 fw fe.
have [r Hr] := accepted_for_known u1 (fi_u fi2) com_t s n t.
pose u3 := u1 + fi_u fi2 * r.
pose x3 := [seq p.1 + p.2 * r | p <- zip x1 (fi_x fi2)].
have sx3 : size x3 = num_io R by rewrite size_map size_zip sx1 sx2 minnn.
have := @error_satisfies R w x3 u3 s n (And5 eAC leAB sw sx3 (conj fw fe)).
cbv zeta; set e := error_of _ _ _ => sat.
pose ce := (Poly e).[s] *: g1 - (r * r) *: fi_com_e fi2 - r *: com_t.
pose cw := (Poly w).[s] *: g1 - r *: fi_com_w fi2.
pose fi1 := FInstance ce u1 cw x1.
have e3 : nifs_verifier r fi1 fi2 com_t =
    FInstance ((Poly e).[s] *: g1) u3 ((Poly w).[s] *: g1) x3.
  by rewrite /nifs_verifier /fold_instance /= /ce /cw !subrK.
have [pf [t' [er V]]] := Hr fi1 fi2 (nifs_verifier r fi1 fi2 com_t) e w erefl erefl
  (congr1 (@fi_com_e _ _) e3) (congr1 (@fi_com_w _ _) e3).
by exists ce, cw, pf, (FWitness e w), t' => /=; rewrite er -/fi1; split=> //; rewrite e3.
Qed.

(* the second instance last: whatever the first instance and the scalar and
   public inputs claimed for the second, unless the challenge is 0 *)
Theorem C81_second_instance_last R (fi1 : finstance E) (u2 : F) (x2 : seq F) (com_t : G1 E)
    (w : seq F) s n ops outs t :
  let S := srs_new_from_secret E s n in
  nt_run X nt_default ops = Ret (outs, t) ->
  folding_challenge X (fed X ops) (fi_u fi1) u2 com_t != 0 ->
  size (matrix_a R) = size (matrix_c R) -> (size (matrix_a R) <= size (matrix_b R))%N ->
  size w = num_vars R -> size (fi_x fi1) = num_io R -> size x2 = num_io R ->
  (num_vars R <= n + 3)%N -> (size (matrix_c R) <= n + 3)%N ->
  exists ce cw pf fw t',
    let fi2 := FInstance ce u2 cw x2 in
    let fi3 := nifs_verifier (np_r pf) fi1 fi2 com_t in
    [/\ nifs_verify X pf fi1 fi2 fi3 com_t S t = Ret t',
        is_r1cs_satisfied R fi3 fw S = Ret tt & fw_w fw = w].
Proof.
move=> S Erun r0 eAC leAB sw sx1 sx2 fw fe.
have [r Hr] := accepted_for_known (fi_u fi1) u2 com_t s n t.
have er : r = folding_challenge X (fed X ops) (fi_u fi1) u2 com_t.
  have [pf [t' [<- V]]] := Hr fi1 (FInstance 0 u2 0 x2)
    (FInstance ((Poly [::]).[s] *: g1) 0 ((Poly [::]).[s] *: g1) [::]) [::] [::] erefl erefl erefl erefl.
  have [[d _] _ _] := nt_run_state (tracks_default X) Erun; rewrite cat0s in d.
  move: V; rewrite /nifs_verify /verify_challenge challenge_absorb //=; case: eqP => //= <- _.
  by rewrite /folding_challenge /fs_challenge /hash_chain foldl_cat -/(hash_chain X (fed X ops)) -d.
rewrite -er in r0.
pose u3 := fi_u fi1 + u2 * r.
pose x3 := [seq p.1 + p.2 * r | p <- zip (fi_x fi1) x2].
have sx3 : size x3 = num_io R by rewrite size_map size_zip sx1 sx2 minnn.
have := @error_satisfies R w x3 u3 s n (And5 eAC leAB sw sx3 (conj fw fe)).
cbv zeta; set e := error_of _ _ _ => sat.
pose ce := (r * r)^-1 *: ((Poly e).[s] *: g1 - (fi_com_e fi1 + r *: com_t)).
pose cw := r^-1 *: ((Poly w).[s] *: g1 - fi_com_w fi1).
pose fi2 := FInstance ce u2 cw x2.
have e3 : nifs_verifier r fi1 fi2 com_t =
    FInstance ((Poly e).[s] *: g1) u3 ((Poly w).[s] *: g1) x3.
  rewrite /nifs_verifier /fold_instance /= /ce /cw !scalerA !divff ?mulf_neq0 // !scale1r.
  by rewrite ![_ + (_ - _)]addrC !subrK.
have [pf [t' [ep V]]] := Hr fi1 fi2 (nifs_verifier r fi1 fi2 com_t) e w erefl erefl
  (congr1 (@fi_com_e _ _) e3) (congr1 (@fi_com_w _ _) e3).
by exists ce, cw, pf, (FWitness e w), t' => /=; rewrite ep -/fi2; split=> //; rewrite e3.
Qed.

End Forge.

Lemma dot_zeros (F : fieldType) k (z : seq F) : dot (nseq k 0) z = 0.
Proof. by rewrite /dot big1 // => j _; rewrite nth_nseq if_same mul0r. Qed.

(* so an accepted proof and a witness for the folded instance do not make the
   instances satisfiable: with the relation 0 = 0 and a running instance that is
   satisfied, the fold is satisfied and the first instance has no witness *)
Theorem C81_unsatisfiable (F B : fieldType) (E : pairing_group F) (X : nova_env B E) (s : F) (n : nat)
    (ops : seq (nt_op E)) outs t :
  pairing_ok E -> (forall b, (8 <= size (digest X b))%N) ->
  let S := srs_new_from_secret E s n in
  let R := R1cs [:: nseq 3 0] [:: nseq 3 0] [:: nseq 3 0] 1 1 in
  let fi2 := FInstance 0 1 0 [:: 0] in
  nt_run X nt_default ops = Ret (outs, t) ->
  folding_challenge X (fed X ops) 1 1 (g1_gen E) != 0 ->
  is_r1cs_satisfied R fi2 (FWitness [:: 0] [:: 0]) S = Ret tt /\
  exists fi1 pf fw t',
    let fi3 := nifs_verifier (np_r pf) fi1 fi2 (g1_gen E) in
    [/\ fi_u fi1 = 1, fi_x fi1 = [:: 1],
        nifs_verify X pf fi1 fi2 fi3 (g1_gen E) S t = Ret t',
        is_r1cs_satisfied R fi3 fw S = Ret tt
      & forall fw1, is_r1cs_satisfied R fi1 fw1 S <> Ret tt].
Proof.
move=> ok long S R fi2 Erun r0.
have dz z : dot [:: 0; 0; 0] z = 0 :> F by exact: (dot_zeros 3).
have P0 : cons_poly (0 : F) 0%:P = 0 by rewrite cons_poly_def mul0r addr0.
have err0 fi fw : is_r1cs_satisfied R fi fw S = Ret tt -> fi_com_e fi = 0.
  move/C29_satisfied_iff => [_ [/= se _ _] row _ [ce _]].
  rewrite ce; case: (fw_e fw) se row => [|e0 [|//]] //= _ /(_ 0%N isT).
  by rewrite /row_holds /= !dz !mulr0 add0r => <-; rewrite P0 horner0 scale0r.
split.
  apply/C29_satisfied_iff; split=> //=.
  - by case=> // _; rewrite /row_holds /= !dz !mulr0 add0r.
  - by rewrite P0 size_poly0.
  by rewrite /commits /= P0 horner0 scale0r.
have le1 : (1 <= n + 3)%N by lia.
have [ce [cw [pf [fw [t' [V sat _]]]]]] := @C81_first_instance_last F B E X ok long R fi2 1 [:: 1]
  (g1_gen E) [:: 0] s n t erefl isT erefl erefl erefl le1 le1.
exists (FInstance ce 1 cw [:: 1]), pf, fw, t'; split=> //= fw1 /err0 /= ce0.
move/err0: sat; rewrite /= ce0 scaler0 addr0 add0r => /eqP.
have -> : np_r pf = folding_challenge X (fed X ops) 1 1 (g1_gen E).
  have [[d _] _ _] := nt_run_state (tracks_default X) Erun; rewrite cat0s in d.
  move: V; rewrite /nifs_verify /verify_challenge challenge_absorb //=; case: eqP => //= <- _.
  by rewrite /folding_challenge /fs_challenge /hash_chain foldl_cat -/(hash_chain X (fed X ops)) -d.
rewrite scaler_eq0 (negbTE r0) /=; exact/negP/(g1_gen_neq0 ok).
Qed.
