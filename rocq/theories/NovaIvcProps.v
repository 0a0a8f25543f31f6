(* The Nova properties C38-C43 and C61 (augmented circuit, IVC, public-IO hash). *)
From Coq Require Import String Ascii NArith.
Set Warnings "-notation-overridden,-ambiguous-paths".
From mathcomp Require Import all_ssreflect all_algebra.
From mathcomp Require Import zify ring.
From Verif Require Import Base BaseLemmas ArkPoly ArkPolyLemmas KzgModel KzgSpec KzgLemmas
  KzgProps NovaModel NovaSpec NovaLemmas NovaTranscript NovaProps.

Set Implicit Arguments.
Unset Strict Implicit.
Unset Printing Implicit Defensive.

Import GRing.Theory.
Local Open Scope ring_scope.

Lemma natr1 (R : ringType) n : n%:R + 1 = n.+1%:R :> R.
Proof. by rewrite mulrSr. Qed.

Section C38.
Variables (F B : fieldType) (E : pairing_group F) (X : nova_env B E).
Local Notation finst := (finstance E).
Local Notation fwit := (fwitness F).
Local Notation ra := (run_args E).
Implicit Types (ac : acircuit B E) (ops : seq (ac_op E)) (a : ra).

Lemma challenge_run (u1 u2 : F) (T : G1 E) : (forall b, (8 <= size (digest X b))%N) ->
  exists t, nt_challenge X (nt_feed X (nt_feed_scalar X (nt_feed_scalar X nt_default u1) u2) T)
  = Ret (folding_challenge X [::] u1 u2 T, t).
Proof. by move=> Hl; rewrite challenge_absorb //; eexists. Qed.

Lemma challenge_run' (u1 u2 : F) (T : G1 E) r t :
  nt_challenge X (nt_feed X (nt_feed_scalar X (nt_feed_scalar X nt_default u1) u2) T)
  = Ret (r, t) -> r = folding_challenge X [::] u1 u2 T.
Proof.
rewrite /nt_challenge /nt_seed /= /folding_challenge /fs_challenge /hash_chain /=.
by case: ifP => //= _ [-> _].
Qed.

(* C38: a run that does not succeed changes nothing *)
Theorem C38_failed_run_changes_nothing ac u U w T :
  let: (res, ac') := ac_run X ac u U w T in
  (forall h, res <> Ret h) -> ac' = ac.
Proof.
rewrite /ac_run; case: eqP => [_ H|_ /=]; first by case: (H _ erefl).
case: U => [U|] //; case: T => [T|] //; case: (ac_h_i ac) => [h|] //.
case: (index_at _ _) => [x||] //; case: ifP => // _; case: ifP => // _; case: ifP => // _.
by case: (nt_challenge _ _) => [[r t]||] // H; case: (H _ erefl).
Qed.

(* what a successful run did *)
Lemma ac_run_ok ac a h ac' :
  ac_run X ac (ra_u a) (ra_U a) (ra_w a) (ra_t a) = (Ret h, ac') ->
  h = hash_io X (ac_i ac + 1) (ac_z_0 ac) (ac_f ac (ac_z_i ac) (ra_w a))
        (next_running X (ac_trivial ac) (ac_i ac) a) /\
  ac' = ac_store ac h (ac_f ac (ac_z_i ac) (ra_w a)).
Proof.
rewrite /ac_run /next_running; case: eqP => [->|_ /=]; first by case=> <- <-; rewrite add0r.
case: (ra_U a) => [U|] //; case: (ra_t a) => [T|] //; case: (ac_h_i ac) => [h0|] //.
case: (index_at _ _) => [x||] //; case: ifP => // _; case: ifP => // _; case: ifP => // _.
case Er: (nt_challenge _ _) => [[r t]||] // [<- <-]; split=> //.
rewrite /nifs_verifier /fold_instance (challenge_run' Er) [fi_u U * _]mulrC; congr (hash_io _ _ _ _ (FInstance _ _ _ _)).
by apply: eq_map => p; rewrite [p.2 * _]mulrC.
Qed.

(* invariant *)
Record ac_inv (f : B -> fwit -> B) (ti : finst) (z0 : B) ac (ad : seq ra) (pend : option ra) : Prop := {
  inv_f : ac_f ac = f;
  inv_ti : ac_trivial ac = ti;
  inv_z0 : ac_z_0 ac = z0;
  inv_i : ac_i ac = (size ad)%:R;
  inv_z : ac_z_i ac = foldl f z0 [seq ra_w a | a <- ad];
  inv_h : ac_h_i ac =
    if ad is a :: ad' then
      Some (hash_io X (size ad)%:R z0 (ac_z_i ac)
              (next_running X ti (size ad')%:R (last a ad')))
    else None;
  inv_z1 : ac_z_i1 ac = Option.map (fun a => f (ac_z_i ac) (ra_w a)) pend;
  inv_h1 : ac_h_i1 ac =
    Option.map (fun a => hash_io X (size ad).+1%:R z0 (f (ac_z_i ac) (ra_w a))
                     (next_running X ti (size ad)%:R a)) pend;
}.


Lemma ac_inv_new f ti z0 : ac_inv f ti z0 (ac_new f ti z0) [::] None.
Proof. by []. Qed.

Lemma ac_inv_run f ti z0 ac ad pend a h ac' :
  ac_inv f ti z0 ac ad pend ->
  ac_run X ac (ra_u a) (ra_U a) (ra_w a) (ra_t a) = (Ret h, ac') ->
  ac_inv f ti z0 ac' ad (Some a).
Proof.
case=> ef et e0 ei ez eh ez1 eh1 /ac_run_ok[-> ->]; split; rewrite /= ?ef //.
by rewrite et e0 ei natr1.
Qed.

Lemma ac_inv_next f ti z0 ac ad pend ac' :
  ac_inv f ti z0 ac ad pend -> ac_next_step ac = Ret ac' ->
  exists2 a, pend = Some a & ac_inv f ti z0 ac' (rcons ad a) None.
Proof.
case=> ef et e0 ei ez eh ez1 eh1; rewrite /ac_next_step ez1.
case: pend ez1 eh1 => [a|] //= ez1 eh1 [<-]; exists a => //.
have ezn : f (ac_z_i ac) (ra_w a) = foldl f z0 [seq ra_w b | b <- rcons ad a].
  by rewrite map_rcons foldl_rcons ez.
split=> //=; first by rewrite size_rcons ei natr1.
rewrite eh1; case: ad {ef et e0 ei ez eh ez1 eh1 ezn} => [|b ad] //=.
by rewrite size_rcons last_rcons.
Qed.

Lemma ac_next_panic f ti z0 ac ad pend :
  ac_inv f ti z0 ac ad pend -> ac_next_step ac = Panic <-> pend = None.
Proof.
by move=> I; rewrite /ac_next_step (inv_z1 I); case: pend {I}.
Qed.

Lemma ac_exec_inv f ti z0 ac ad pend ops outs ac' ad' pend' :
  ac_inv f ti z0 ac ad pend -> ac_exec X ac ops = Ret (outs, ac') ->
  ledger ad pend ops outs = (ad', pend') ->
  ac_inv f ti z0 ac' ad' pend' /\ size ad' = (size ad + count (@is_next F E) ops)%N.
Proof.
elim: ops ac ad pend outs ac' => [|o ops IH] ac ad pend outs ac' I.
  by case=> <- <- [<- <-]; rewrite addn0.
case: o => [a|] /=.
  case Er: (ac_run _ _ _ _ _ _) => [[h|m|] ac1] //.
  - inv_bind=> -[outs1 ac2] Ex [<- <-]; exact: IH (ac_inv_run I Er) Ex.
  - inv_bind=> -[outs1 ac2] Ex [<- <-] L; apply: IH Ex L.
    have := C38_failed_run_changes_nothing ac (ra_u a) (ra_U a) (ra_w a) (ra_t a).
    by rewrite Er => ->.
inv_bind=> ac1 En; inv_bind=> -[outs1 ac2] Ex [<- <-] L.
have [a ep I1] := ac_inv_next I En; rewrite ep cats1 in L.
have [I2 ->] := IH _ _ _ _ _ I1 Ex L; split=> //.
by rewrite size_rcons /= addnCA addSn add1n.
Qed.

(* C38: the state after any history of calls that did not panic *)
Theorem C38_history f ti z0 ops outs ac ad pend :
  ac_exec X (ac_new f ti z0) ops = Ret (outs, ac) ->
  ledger [::] None ops outs = (ad, pend) ->
  let k := count (@is_next F E) ops in
  [/\ size ad = k /\ ac_i ac = k%:R,
      ac_z_0 ac = z0 /\ ac_z_i ac = foldl f z0 [seq ra_w a | a <- ad],
      (k = 0%N -> ac_h_i ac = None),
      (forall ad' a, ad = rcons ad' a ->
         ac_h_i ac = Some (hash_io X k%:R z0 (ac_z_i ac) (next_running X ti k.-1%:R a)))
    & match pend with
      | None => ac_z_i1 ac = None /\ ac_h_i1 ac = None
      | Some a => let z1 := f (ac_z_i ac) (ra_w a) in
          ac_z_i1 ac = Some z1 /\
          ac_h_i1 ac = Some (hash_io X k.+1%:R z0 z1 (next_running X ti k%:R a))
      end].
Proof.
move=> Ex L; have [I] := ac_exec_inv (ac_inv_new f ti z0) Ex L; rewrite add0n => <- /=.
split.
- by split=> //; exact: inv_i I.
- by split; [exact: inv_z0 I|exact: inv_z I].
- by move=> /size0nil e; rewrite (inv_h I) e.
- move=> ad' a e; rewrite (inv_h I) e; case: ad' {e} => [|b ad'] //=.
  by rewrite size_rcons last_rcons.
- by case: pend {L} I => [a|] I; rewrite (inv_z1 I) (inv_h1 I).
Qed.

(* C38: the value of every successful run in a history *)
Theorem C38_run_output f ti z0 ops outs ac ad pend a h ac' :
  ac_exec X (ac_new f ti z0) ops = Ret (outs, ac) ->
  ledger [::] None ops outs = (ad, pend) ->
  ac_run X ac (ra_u a) (ra_U a) (ra_w a) (ra_t a) = (Ret h, ac') ->
  let k := count (@is_next F E) ops in
  h = hash_io X k.+1%:R z0 (foldl f z0 [seq ra_w b | b <- rcons ad a]) (next_running X ti k%:R a).
Proof.
move=> Ex L /ac_run_ok[-> _]; have [I] := ac_exec_inv (ac_inv_new f ti z0) Ex L.
rewrite add0n => <- /=; rewrite (inv_i I) natr1 (inv_z0 I) (inv_ti I) (inv_f I) (inv_z I).
by rewrite map_rcons foldl_rcons.
Qed.

(* C38: next_step panics exactly when no run succeeded since the last one *)
Theorem C38_next_step_panics f ti z0 ops outs ac ad pend :
  ac_exec X (ac_new f ti z0) ops = Ret (outs, ac) ->
  ledger [::] None ops outs = (ad, pend) ->
  ac_next_step ac = Panic <-> pend = None.
Proof. by move=> Ex L; have [/ac_next_panic] := ac_exec_inv (ac_inv_new f ti z0) Ex L. Qed.

(* ------------------------------------------------------------------ *)
(* C42: which runs succeed; the running instance plays no part *)
Theorem C42_run_succeeds_iff ac u U w T :
  (forall b, (8 <= size (digest X b))%N) ->
  (exists h ac', ac_run X ac u U w T = (Ret h, ac')) <->
  ac_i ac = 0 \/
  [/\ U <> None /\ T <> None,
      exists h x0, [/\ ac_h_i ac = Some h, ohead (fi_x u) = Some x0 & x0 = fr_of_fq X h],
      fi_com_e u = fi_com_e (ac_trivial ac) & fi_u u = 1].
Proof.
move=> Hl; rewrite /ac_run; case: eqP => [ei|ni] /=.
  by split=> [_|_]; [left|do 2 eexists].
split.
  case: U => [U|] [h [ac']] //; case: T => [T|] //; case: (ac_h_i ac) => [h0|] //.
  case: (fi_x u) => [|x0 xs] //=; rewrite /index_at /=.
  case: eqP => //= e1; case: eqP => //= e2; case: eqP => //= e3 _; right; split=> //.
  by exists h0, x0.
case=> [//|[[]]]; case: U => [U|] // _; case: T => [T|] // _ [h [x0 [-> ex e1]]] e2 e3.
case: (fi_x u) ex => [|x1 xs] //= [->]; rewrite /index_at /= e1 e2 e3 !eqxx /=.
by have [t ->] := challenge_run 1 (fi_u U) T Hl; do 2 eexists.
Qed.

Theorem C42_any_running_instance ac u U U' w w' T T' h ac1 :
  (forall b, (8 <= size (digest X b))%N) ->
  ac_run X ac u (Some U) w (Some T) = (Ret h, ac1) ->
  exists h' ac1', ac_run X ac u (Some U') w' (Some T') = (Ret h', ac1').
Proof.
move=> Hl Er; apply/C42_run_succeeds_iff => //.
have /C42_run_succeeds_iff : exists h ac1, ac_run X ac u (Some U) w (Some T) = (Ret h, ac1).
  by do 2 eexists; exact: Er.
by move/(_ Hl) => [|[[_ _] H e1 e2]]; [left|right].
Qed.

End C38.

(* ------------------------------------------------------------------ *)
Section C41.
Variables (F B : fieldType) (E : pairing_group F) (X : nova_env B E).
Implicit Types (ac : acircuit B E) (pf : zk_ivc_proof E).
Local Notation H := (digest X).

(* C41 *)
Theorem C41_step_zero (S : srs E) ac pf t :
  ac_i ac = 0 ->
  ivc_verify X S ac pf t =
  if ac_z_0 ac == ac_z_i ac then Ret t else Err "Verify failed: wrong state"%string.
Proof. by rewrite /ivc_verify => ->; rewrite eqxx. Qed.

Theorem C41_later_accepts_iff (S : srs E) ac pf t t' :
  ac_i ac <> 0 ->
  ivc_verify X S ac pf t = Ret t' <->
  exists com_t np x0,
  [/\ zk_com_t pf = Some com_t /\ zk_folded_u_proof pf = Some np,
      ohead (fi_x (zk_u_i pf)) = Some x0 /\
      x0 = fr_of_fq X (hash_io X (ac_i ac) (ac_z_0 ac) (ac_z_i ac) (zk_big_u_i pf)),
      fi_com_e (zk_u_i pf) = fi_com_e (ac_trivial ac), fi_u (zk_u_i pf) = 1
    & nifs_verify X np (zk_u_i pf) (zk_big_u_i pf)
        (nifs_verifier (np_r np) (zk_u_i pf) (zk_big_u_i pf) com_t) com_t S t = Ret t'].
Proof.
move=> /eqP/negbTE ni; rewrite /ivc_verify ni; split.
  case: (zk_com_t pf) => [ct|] //; case: (zk_folded_u_proof pf) => [np|] //.
  case: (fi_x _) => [|x0 xs] //=; case: eqP => //= e1; case: eqP => //= e2; case: eqP => //= e3 V.
  by exists ct, np, x0.
case=> ct [np [x0 [[-> ->] [ex e1] e2 e3 V]]].
by case: (fi_x _) ex => [|x1 xs] //= [->]; rewrite e1 e2 e3 !eqxx.
Qed.

Theorem C41_missing_parts (S : srs E) ac pf t :
  ac_i ac <> 0 -> zk_com_t pf = None \/ zk_folded_u_proof pf = None ->
  exists m, ivc_verify X S ac pf t = Err m.
Proof.
move=> /eqP/negbTE ni H; rewrite /ivc_verify ni.
by case: (zk_com_t pf) H => [ct [//|->]|_]; eexists.
Qed.

Theorem C41_wrong_instance (S : srs E) ac pf t com_t np x0 :
  ac_i ac <> 0 -> zk_com_t pf = Some com_t -> zk_folded_u_proof pf = Some np ->
  ohead (fi_x (zk_u_i pf)) = Some x0 ->
  [\/ x0 <> fr_of_fq X (hash_io X (ac_i ac) (ac_z_0 ac) (ac_z_i ac) (zk_big_u_i pf)),
      fi_com_e (zk_u_i pf) <> fi_com_e (ac_trivial ac) | fi_u (zk_u_i pf) <> 1] ->
  exists m, ivc_verify X S ac pf t = Err m.
Proof.
move=> /eqP/negbTE ni; rewrite /ivc_verify ni => -> ->.
case: (fi_x _) => [|x1 xs] //= [->] H; case: eqP => /= [e1|_]; last by eexists.
case: eqP => /= [e2|_]; last by eexists.
by case: eqP => /= [e3|_]; [case: H|eexists].
Qed.

Theorem C41_no_public_input (S : srs E) ac pf t com_t np :
  ac_i ac <> 0 -> zk_com_t pf = Some com_t -> zk_folded_u_proof pf = Some np ->
  fi_x (zk_u_i pf) = [::] -> ivc_verify X S ac pf t = Panic.
Proof. by move=> /eqP/negbTE ni; rewrite /ivc_verify ni => -> -> ->. Qed.

(* C62: the NIFS verifier's decision, on a transcript fed with ms *)
Theorem C62_nifs_verify_iff (pf : nifs_proof E) (fi1 fi2 fi3 : finstance E) com_t (s : F) (n : nat)
  (ops : seq (nt_op E)) outs t :
  pairing_ok E -> (forall b, (8 <= size (H b))%N) ->
  nt_run X nt_default ops = Ret (outs, t) ->
  let ms := fed X ops in
  let ms1 := ms ++ [:: ser_fr X (fi_u fi1); ser_fr X (fi_u fi2); ser_g1 X com_t] in
  let ms2 := ms1 ++ [:: ser_g1 X (fi_com_e fi3); ser_g1 X (fi_com_w fi3)] in
  let z := np_opening_point pf in
  is_ret (nifs_verify X pf fi1 fi2 fi3 com_t (srs_new_from_secret E s n) t) <->
  [/\ np_r pf = fs_challenge X ms1 0, z = fs_challenge X ms2 0,
      (s - z) *: (np_opening_w pf).1 = fi_com_w fi3 - (np_opening_w pf).2 *: g1_gen E
    & (s - z) *: (np_opening_e pf).1 = fi_com_e fi3 - (np_opening_e pf).2 *: g1_gen E].
Proof.
move=> ok Hl Er ms ms1 ms2 z.
have [[d _] _ _] := nt_run_state (tracks_default X) Er; rewrite cat0s -/ms in d.
have C1 : nt_challenge X (nt_feed X (nt_feed_scalar X (nt_feed_scalar X t (fi_u fi1)) (fi_u fi2)) com_t)
   = Ret (fs_challenge X ms1 0, NTranscript (Some (hash_chain X ms1)) true).
  by rewrite challenge_absorb // /fs_challenge /ms1 /hash_chain !foldl_cat -/(hash_chain X ms) -d.
have C2 : nt_challenge X (nt_feed X (nt_feed X (NTranscript (Some (hash_chain X ms1)) true)
    (fi_com_e fi3)) (fi_com_w fi3)) = Ret (fs_challenge X ms2 0, NTranscript (Some (hash_chain X ms2)) true).
  by rewrite challenge_absorb // /fs_challenge /ms2 [hash_chain X (ms1 ++ _)]/hash_chain foldl_cat.
rewrite /nifs_verify /verify_challenge C1 bindRet.
case: eqP => /= [<-|ne]; last by split=> // -[e]; rewrite e in ne.
rewrite /verify_opening C2 bindRet -/z; case: eqP => /= [ez|ne]; last first.
  by split=> // -[_ e]; rewrite e in ne.
case: (np_opening_w pf) (np_opening_e pf) => [Ww yw] [We ye] /=.
rewrite !C24_verify_equation // ez.
case: eqP => /= [->|ne]; last by split=> // -[_ _ e]; rewrite e in ne.
by case: eqP => /= [->|ne]; split=> // -[_ _ _ e]; rewrite e in ne.
Qed.

End C41.

(* ------------------------------------------------------------------ *)
Section C43.
Variables (F B : fieldType) (E : pairing_group F) (X : nova_env B E).
Local Notation H := (digest X).

Definition io_string (i z0 z : B) (U : finstance E) : bytes :=
  ser_fq X i ++ ser_fq X z0 ++ ser_fq X z ++ ser_g1 X (fi_com_e U) ++
  ser_fr X (fi_u U) ++ ser_g1 X (fi_com_w U) ++ flatten [seq ser_fr X x | x <- fi_x U].

Lemma eq_cat_size (T : eqType) (a b c d : seq T) : size a = size b -> a ++ c = b ++ d -> a = b /\ c = d.
Proof. by move=> es /eqP; rewrite eqseq_cat // => /andP[/eqP -> /eqP ->]. Qed.

Lemma flatten_inj (f : F -> bytes) (l : nat) (xs ys : seq F) :
  (forall x, size (f x) = l) -> (0 < l)%N -> injective f ->
  flatten [seq f x | x <- xs] = flatten [seq f x | x <- ys] -> xs = ys.
Proof.
move=> sz l0 inj; elim: xs ys => [|x xs IH] [|y ys] //=.
- by move=> /(congr1 size); rewrite size_cat sz /=; lia.
- by move=> /(congr1 size); rewrite size_cat sz /=; lia.
by case/eq_cat_size; rewrite ?sz // => /inj -> /IH ->.
Qed.

(* C43 *)
Theorem C43_hash_io_binding (i i' z0 z0' z z' : B) (U U' : finstance E) (dl ql gl fl : nat) :
  (forall b, size (H b) = dl) ->
  (forall b b', size b = dl -> size b' = dl -> fq_of_bytes X b = fq_of_bytes X b' -> b = b') ->
  (forall x, size (ser_fq X x) = ql) -> injective (ser_fq X) ->
  (forall x, size (ser_g1 X x) = gl) -> injective (ser_g1 X) ->
  (forall x, size (ser_fr X x) = fl) -> (0 < fl)%N -> injective (ser_fr X) ->
  hash_io X i z0 z U = hash_io X i' z0' z' U' ->
  [/\ i = i', z0 = z0', z = z' & U = U'] \/
  exists x y, x <> y /\ H x = H y.
Proof.
move=> Hs qi qs qinj gs ginj fs f0 finj eh.
have eH : H (io_string i z0 z U) = H (io_string i' z0' z' U') by apply: qi.
case: (eqVneq (io_string i z0 z U) (io_string i' z0' z' U')) => [e|/eqP ne]; last first.
  by right; exists (io_string i z0 z U), (io_string i' z0' z' U').
left; move: e; rewrite /io_string.
case/eq_cat_size; rewrite ?qs // => /qinj -> /eq_cat_size[]; rewrite ?qs // => /qinj ->.
case/eq_cat_size; rewrite ?qs // => /qinj -> /eq_cat_size[]; rewrite ?gs // => /ginj e1.
case/eq_cat_size; rewrite ?fs // => /finj e2 /eq_cat_size[]; rewrite ?gs // => /ginj e3.
move/(flatten_inj fs f0 finj) => e4; split=> //.
by case: (U) (U') e1 e2 e3 e4 => ? ? ? ? [] ? ? ? ? /= -> -> -> ->.
Qed.

End C43.

(* ------------------------------------------------------------------ *)
Section C40.
Variables (F B : fieldType) (E : pairing_group F) (X : nova_env B E).
Hypothesis ok : pairing_ok E.

Lemma trivial_pairE (s : F) (n xl wl : nat) :
  create_trivial_pair xl wl (srs_new_from_secret E s n) =
  Ret (FWitness (nseq wl 0) (nseq wl 0), FInstance (0 : G1 E) 1 0 (nseq xl 0)).
Proof.
have e0 : Poly (nseq wl 0 : seq F) = 0.
  by apply/polyP => i; rewrite coef_Poly nth_nseq coef0; case: ifP.
by rewrite /create_trivial_pair /fw_commit !C19_commit_vector /= e0 size_poly0 horner0 scale0r.
Qed.

(* C40: whatever the user function and the states, at any step but zero some
   proof is accepted *)
Theorem C40_accepts_any_state (f : B -> fwitness F -> B) (z0 z i : B) (h h1 : option B) (z1 : option B)
  (s : F) (n xl wl : nat) tw ti t :
  (forall b, (8 <= size (digest X b))%N) ->
  create_trivial_pair xl wl (srs_new_from_secret E s n) = Ret (tw, ti) ->
  i <> 0 ->
  exists pf t', ivc_verify X (srs_new_from_secret E s n) (ACircuit f i ti z0 z z1 h h1) pf t = Ret t'.
Proof.
rewrite trivial_pairE => Hl [_ <-] ni.
pose U := FInstance (0 : G1 E) 1 0 [::].
pose x := fr_of_fq X (hash_io X i z0 z U).
have [np [t' V]] := @C35_forgery F B E X ok [:: x] [::] 1 1 s n t Hl.
exists (ZkIvcProof (FInstance (0 : G1 E) 1 0 [:: x]) U (Some 0) (Some np)), t'.
by apply/C41_later_accepts_iff => //; exists 0, np, x; split.
Qed.

End C40.

(* ------------------------------------------------------------------ *)
Section C61.
Variables (F : fieldType) (E : pairing_group F).

Lemma dot_unit (row : seq F) (k : nat) : dot row (nseq k 0 ++ [:: 1]) = row`_k.
Proof.
rewrite /dot; case: (ltnP k (size row)) => lt; last first.
  rewrite nth_default // big1 // => j _; rewrite nth_cat size_nseq.
  case: ltnP => [ltj|le]; first by rewrite nth_nseq ltj mulr0.
  have := leq_trans (ltn_ord j) (geq_minl _ _) => lt'.
  by move: (leq_trans lt' lt); rewrite ltnNge le.
have lt' : (k < minn (size row) (size (nseq k (0%R : F) ++ [:: 1%R])))%N.
  by rewrite leq_min lt size_cat size_nseq addn1 /=.
rewrite (bigD1 (Ordinal lt')) //= nth_cat size_nseq ltnn subnn mulr1 big1 ?addr0 // => j nj.
rewrite nth_cat size_nseq; case: ltnP => [ltj|le]; first by rewrite nth_nseq ltj mulr0.
have le' : (j <= k)%N.
  by rewrite -ltnS; apply: leq_trans (leq_trans (ltn_ord j) (geq_minr _ _)) _; rewrite size_cat size_nseq addn1.
by case/negP: nj; apply/eqP/val_inj => /=; apply/eqP; rewrite eqn_leq le le'.
Qed.

(* C61: when the trivial pair satisfies a relation *)
Theorem C61_trivial_satisfied_iff (R : r1cs F) (s : F) (n xl wl : nat) tw (ti : finstance E) :
  let S := srs_new_from_secret E s n in
  create_trivial_pair xl wl S = Ret (tw, ti) ->
  is_r1cs_satisfied R ti tw S = Ret tt <->
  [/\ wl = num_vars R /\ xl = num_io R,
      [/\ wl = size (matrix_c R), size (matrix_a R) = size (matrix_c R)
        & (size (matrix_a R) <= size (matrix_b R))%N]
    & forall i, (i < size (matrix_a R))%N ->
        (nth [::] (matrix_a R) i)`_(wl + xl) * (nth [::] (matrix_b R) i)`_(wl + xl) =
        (nth [::] (matrix_c R) i)`_(wl + xl)].
Proof.
move=> S; rewrite /S trivial_pairE => -[<- <-]; rewrite C29_satisfied_iff /=.
have e0 : Poly (nseq wl 0 : seq F) = 0.
  by apply/polyP => i; rewrite coef_Poly nth_nseq coef0; case: ifP.
rewrite !size_nseq e0 size_poly0 catA.
have -> : nseq wl 0 ++ nseq xl 0 = nseq (wl + xl) 0 :> seq F by rewrite nseqD.
have z0 i : (nseq wl 0 : seq F)`_i = 0 by rewrite nth_nseq; case: ifP.
split.
  case=> [? ? H _ _]; split=> // i lt; have := H i lt.
  by rewrite /row_holds !dot_unit z0 addr0 mul1r.
case=> [? ? H]; split=> //; first by move=> i lt; rewrite /row_holds !dot_unit z0 addr0 mul1r; exact: H.
by split; rewrite /= e0 horner0 scale0r.
Qed.

(* the instance returned has u = 1, not the u = 0 of the relaxed trivial pair *)
Theorem C61_trivial_u_is_one (s : F) (n xl wl : nat) tw (ti : finstance E) :
  create_trivial_pair xl wl (srs_new_from_secret E s n) = Ret (tw, ti) ->
  [/\ fi_u ti = 1, fi_x ti = nseq xl 0, fi_com_e ti = 0, fi_com_w ti = 0
    & fw_e tw = nseq wl 0 /\ fw_w tw = nseq wl 0].
Proof. by rewrite trivial_pairE => -[<- <-]. Qed.

(* the repository's own relation is not satisfied by its trivial pair *)
Theorem C61_test_relation_unsatisfied (s : F) (n : nat) tw (ti : finstance E) :
  let S := srs_new_from_secret E s n in
  create_trivial_pair 1 4 S = Ret (tw, ti) -> 5%:R <> 0 :> F ->
  is_r1cs_satisfied (test_r1cs F) ti tw S <> Ret tt.
Proof.
move=> S C n5 /(C61_trivial_satisfied_iff _ C)[_ _ /(_ 3%N isT)] /=.
by rewrite mulr1 mulr0n.
Qed.

End C61.
