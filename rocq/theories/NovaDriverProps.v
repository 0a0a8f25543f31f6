(* The Nova property C39: the IVC driver of examples.rs for any number of steps. *)
From Coq Require Import String Ascii NArith.
Set Warnings "-notation-overridden,-ambiguous-paths".
From mathcomp Require Import all_ssreflect all_algebra.
From mathcomp Require Import zify ring.
From Verif Require Import Base BaseLemmas ArkPoly ArkPolyLemmas KzgModel KzgSpec KzgLemmas
  KzgProps NovaModel NovaSpec NovaHonestSpec NovaLemmas NovaTranscript NovaProps NovaIvcProps.

Set Implicit Arguments.
Unset Strict Implicit.
Unset Printing Implicit Defensive.

Import GRing.Theory.
Local Open Scope ring_scope.

Section Driver.
Variables (F B : fieldType) (E : pairing_group F) (X : nova_env B E).
Local Notation finst := (finstance E).
Local Notation fwit := (fwitness F).
Local Notation g1 := (g1_gen E).
Hypothesis ok : pairing_ok E.
Hypothesis Hl : forall b, (8 <= size (digest X b))%N.

(* the last iteration of a driver loop, split off *)
Definition driver_tail (S : srs E) R uws zs step (ds1 : driver_state B E) : outcome (driver_state B E) :=
  z0 <- index_at zs 0;;
  znext <- index_at zs step.+1;;
  '(u, w) <- index_at uws step.+1;;
  ds2 <- driver_advance X z0 znext u w ds1;;
  ds3 <- driver_prove X S R ds2;;
  '(u0, w0) <- index_at uws step.+1;;
  driver_check X S u0 w0 step.+1 ds3.

Lemma driver_loop_unfold (S : srs E) R uws zs step todo ds :
  driver_loop X S R uws zs step todo.+1 ds =
  ('(u0, w0) <- index_at uws step;;
   ds1 <- driver_check X S u0 w0 step ds;;
   z0 <- index_at zs 0;;
   znext <- index_at zs step.+1;;
   '(u, w) <- index_at uws step.+1;;
   ds2 <- driver_advance X z0 znext u w ds1;;
   ds3 <- driver_prove X S R ds2;;
   driver_loop X S R uws zs step.+1 todo ds3).
Proof. by []. Qed.

Lemma driver_loopS (S : srs E) R uws zs step todo ds :
  driver_loop X S R uws zs step todo.+1 ds =
  (ds1 <- driver_loop X S R uws zs step todo ds;; driver_tail S R uws zs (step + todo) ds1).
Proof.
elim: todo step ds => [|todo IH] step ds.
  rewrite addn0 /= /driver_tail; case: (index_at uws step) => [[u0 w0]||] //=.
  case: (driver_check _ _ _ _ _ _) => [ds1||] //=.
  case: (index_at zs 0) => [z0||] //=; case: (index_at zs step.+1) => [zn||] //=.
  case: (index_at uws step.+1) => [[u w]||] //=.
  case: (driver_advance _ _ _ _ _ _) => [ds2||] //=; case: (driver_prove _ _ _ _) => [ds3||] //=.
  by case: (driver_check _ _ _ _ _ _).
rewrite [LHS]driver_loop_unfold [in RHS]driver_loop_unfold.
case: (index_at uws step) => [[u0 w0]||] //; rewrite !bindRet.
case: (driver_check _ _ _ _ _ _) => [ds1||] //; rewrite !bindRet.
case: (index_at zs 0) => [z0||] //; rewrite !bindRet.
case: (index_at zs step.+1) => [zn||] //; rewrite !bindRet.
case: (index_at uws step.+1) => [[u w]||] //; rewrite !bindRet.
case: (driver_advance _ _ _ _ _ _) => [ds2||] //; rewrite !bindRet.
case: (driver_prove _ _ _ _) => [ds3||] //; rewrite !bindRet.
by rewrite IH addSnnS.
Qed.

Lemma Poly_take (k : nat) (v : seq F) : all (fun a => a == 0) (drop k v) -> Poly (take k v) = Poly v.
Proof.
move=> /allP z; apply/polyP => i; rewrite !coef_Poly.
case: (ltnP i k) => [lt|le]; first by rewrite nth_take.
rewrite nth_default; last by rewrite size_take_min geq_min le.
case: (ltnP i (size v)) => lt; last by rewrite nth_default.
apply/esym/eqP/z; rewrite -[i](subnKC le) -nth_drop; apply: mem_nth.
by rewrite size_drop ltn_sub2r // (leq_ltn_trans le).
Qed.

Lemma zip_take (T1 T2 : Type) (a : seq T1) (b : seq T2) k :
  (size a <= k)%N -> zip a (take k b) = zip a b.
Proof. by elim: a b k => [|x a IH] [|y b] [|k] //= le; rewrite IH. Qed.

(* folding keeps commitments, also when the second error vector is longer and
   zero beyond the rows *)
Lemma fold_commits_long (s r : F) (fw1 fw2 : fwit) (fi1 fi2 : finst) t :
  size (fw_w fw1) = size (fw_w fw2) -> size t = size (fw_e fw1) ->
  (size t <= size (fw_e fw2))%N -> all (fun a => a == 0) (drop (size t) (fw_e fw2)) ->
  commits s fw1 fi1 -> commits s fw2 fi2 ->
  commits s (fold_witness r fw1 fw2 t) (fold_instance r fi1 fi2 ((Poly t).[s] *: g1)).
Proof.
move=> ew et le z c1 [c2e c2w].
have -> : fold_witness r fw1 fw2 t = fold_witness r fw1 (FWitness (take (size t) (fw_e fw2)) (fw_w fw2)) t.
  rewrite /fold_witness /=; congr FWitness; congr map.
  by rewrite zip_take // size_zip geq_minr.
apply: fold_commits => //=.
- by rewrite size_takel.
- by split=> //=; rewrite Poly_take.
Qed.


Section Run.
Variables (s : F) (n : nat) (R : r1cs F) (f : B -> fwit -> B) (z0 : B) (wits xs : seq (seq F)) (wl : nat).
Local Notation S := (srs_new_from_secret E s n).
Local Notation rows := (size (matrix_a R)).
Hypothesis sx : size xs = size wits.
Hypothesis hw : all (fun w => size w == wl) wits.
Hypothesis fit : (wl <= n + 3)%N.
Hypothesis rwl : (rows <= wl)%N.
Hypothesis rab : (rows <= size (matrix_b R))%N.
Hypothesis rac : rows = size (matrix_c R).
Hypothesis cnt : forall k, (0 < k < size wits)%N -> k%:R <> 0 :> B.

Definition ws : seq fwit := [seq fw_new w rows | w <- wits].
Definition us : seq finst :=
  [seq FInstance (0 : G1 E) 1 ((Poly p.1).[s] *: g1) p.2 | p <- zip wits xs].
Definition tw : fwit := FWitness (nseq wl 0) (nseq wl 0).
Definition ti : finst := FInstance (0 : G1 E) 1 0 (nseq (size (nth [::] xs 0)) 0).
Definition st (k : nat) : B := foldl f z0 (take k ws).
Local Notation zs := (driver_states f z0 ws).
Local Notation uws := (zip us ws).
Local Notation inst0 := (FInstance (0 : G1 E) 0 0 [::]).
Local Notation wit0 := (FWitness [::] [::] : fwit).
Local Notation pair := (running_pair X s R f z0 wits xs).

Lemma stE k : st k = ivc_state R f z0 wits k.
Proof. by rewrite /st /ws -map_take. Qed.

Lemma Poly_nseq0 m : Poly (nseq m 0 : seq F) = 0.
Proof. by apply/polyP => i; rewrite coef_Poly nth_nseq coef0; case: ifP. Qed.

Lemma size_ws : size ws = size wits. Proof. exact: size_map. Qed.
Lemma size_us : size us = size wits. Proof. by rewrite size_map size_zip sx minnn. Qed.

Lemma size_wit k : (k < size wits)%N -> size (nth [::] wits k) = wl.
Proof. by move=> lt; apply/eqP/(allP hw)/mem_nth. Qed.

Lemma nth_ws k : (k < size wits)%N -> nth wit0 ws k = fw_new (nth [::] wits k) rows.
Proof. by move=> lt; rewrite (nth_map [::]). Qed.

Lemma nth_us k : (k < size wits)%N ->
  nth inst0 us k = FInstance (0 : G1 E) 1 ((Poly (nth [::] wits k)).[s] *: g1) (nth [::] xs k).
Proof. by move=> lt; rewrite (nth_map ([::], [::])) ?size_zip ?sx ?minnn // nth_zip. Qed.

Lemma index_uws k : (k < size wits)%N -> index_at uws k = Ret (nth inst0 us k, nth wit0 ws k).
Proof.
move=> lt; rewrite (index_at_Ret (inst0, wit0)) ?nth_zip ?size_us ?size_ws //.
by rewrite size_zip size_us size_ws minnn.
Qed.

Lemma index_zs k : (k <= size wits)%N -> index_at zs k = Ret (st k).
Proof.
rewrite -size_ws /st; elim: ws z0 k => [|w l IH] z [|k] //= le.
by rewrite -(IH (f z w)).
Qed.

Lemma st_next k : (k < size wits)%N -> f (st k) (nth wit0 ws k) = st k.+1.
Proof. by move=> lt; rewrite /st (take_nth wit0) ?size_ws // foldl_rcons. Qed.

Lemma driver_mainE : (0 < size wits)%N ->
  driver_main X S R f z0 wits xs =
  driver_loop X S R uws zs 0 (size wits).-1 (driver_init f tw ti z0).
Proof.
move=> lt; rewrite /driver_main -/ws.
rewrite (@omapM_total _ _ _ (fun p => FInstance (0 : G1 E) 1 ((Poly (fw_w p.1)).[s] *: g1) p.2)); last first.
  move=> [fw x] /(In_nth (wit0, [::]))[i]; rewrite size_zip size_ws sx minnn => lti.
  rewrite nth_zip ?size_ws // nth_ws // => -[<- <-]; rewrite /fw_commit !C19_commit_vector /=.
  rewrite Poly_nseq0 size_poly0 horner0 scale0r (leq_trans (size_Poly _)) ?size_wit //.
rewrite bindRet (index_at_Ret [::]) ?sx // bindRet (index_at_Ret [::]) // bindRet.
rewrite trivial_pairE // bindRet size_wit // -/tw -/ti.
congr driver_loop; congr zip.
apply: (@eq_from_nth _ inst0); first by rewrite size_us size_map size_zip size_ws sx minnn.
move=> i; rewrite size_map size_zip size_ws sx minnn => lti.
by rewrite (nth_map (wit0, [::])) ?size_zip ?size_ws ?sx ?minnn // nth_zip ?size_ws // nth_ws // nth_us.
Qed.

(* invariant after the checks of iteration k *)
Record after_check (k : nat) (ds : driver_state B E) : Prop := {
  j_f : ac_f (ds_ac ds) = f;
  j_ti : ac_trivial (ds_ac ds) = ti;
  j_z0 : ac_z_0 (ds_ac ds) = z0;
  j_i : ac_i (ds_ac ds) = k%:R;
  j_z : ac_z_i (ds_ac ds) = st k;
  j_z1 : ac_z_i1 (ds_ac ds) = Some (st k.+1);
  j_h1 : ac_h_i1 (ds_ac ds) = Some (hash_io X k.+1%:R z0 (st k.+1) (ds_U ds));
  j_p : (ds_W ds, ds_U ds) = pair k;
  j_c : commits s (ds_W ds) (ds_U ds);
  j_w : size (fw_w (ds_W ds)) = wl;
  j_e : (rows <= size (fw_e (ds_W ds)))%N;
  j_e0 : all (fun a => a == 0) (drop rows (fw_e (ds_W ds)));
}.

Lemma init_check : (0 < size wits)%N ->
  exists ds, driver_check X S (nth inst0 us 0) (nth wit0 ws 0) 0 (driver_init f tw ti z0) = Ret ds
             /\ after_check 0 ds.
Proof.
move=> lt; rewrite /driver_check /= /ac_run /= eqxx /= /ivc_verify /= !eqxx /=.
eexists; split; first by [].
split=> //=.
- by rewrite /st take0.
- by rewrite -st_next // /st take0.
- by rewrite -st_next // /st take0.
- by rewrite /first_pair /step_wit /ti /tw size_wit.
- by split; rewrite /= Poly_nseq0 horner0 scale0r.
- by rewrite size_nseq.
- by rewrite size_nseq.
- by apply/allP => a /mem_drop /nseqP[->].
Qed.

Lemma fold_pair k (W0 : fwit) (U0 : finst) (r : F) :
  size (nth [::] wits k) = size (fw_w W0) -> (rows <= size (fw_e W0))%N ->
  let tv := step_cross X s R f z0 wits k (W0, U0) in
  (fold_witness r (fw_new (nth [::] wits k) rows) W0 tv,
   fold_instance r (step_instance X s R f z0 wits k U0) U0 (commitment_of E s (Poly tv))) =
  step_fold X s R f z0 wits k (W0, U0) r.
Proof.
move=> sw se tv; rewrite /step_fold -/tv /step_wit; congr (_, _); last first.
  rewrite -(fold_instance_x _ _ _ (commitment_of E s (Poly tv))) /fold_instance -!expr2.
  by rewrite [fi_com_e (step_instance _ _ _ _ _ _ _ _)]/= add0r [fi_u U0 * r]mulrC.
have st : size tv = rows by rewrite size_mkseq.
rewrite -[LHS]/(FWitness (fw_e (fold_witness r (fw_new (nth [::] wits k) rows) W0 tv))
  (fw_w (fold_witness r (fw_new (nth [::] wits k) rows) W0 tv))).
rewrite fold_witness_e fold_witness_w; congr FWitness.
  apply: (@eq_from_nth _ 0); rewrite !size_comb size_nseq st minnn (minn_idPl se) ?size_mkseq // => i li.
  have zt : zip (vec_comb r (nseq rows 0) tv) (fw_e W0) =
            zip (vec_comb r (nseq rows 0) tv) (take rows (fw_e W0)).
    by rewrite zip_take // size_comb size_nseq st minnn.
  rewrite /vec_comb -/(vec_comb r (nseq rows 0) tv) zt -/(vec_comb _ _ (take rows (fw_e W0))).
  rewrite nth_mkseq // !nth_comb ?size_comb ?size_nseq ?st ?minnn ?size_takel //.
  by rewrite nth_nseq li add0r nth_take // expr2.
apply: (@eq_from_nth _ 0); rewrite size_comb -sw minnn ?size_mkseq // => i li.
by rewrite nth_mkseq // nth_comb.
Qed.

Lemma tail_step k ds : after_check k ds -> (k.+1 < size wits)%N ->
  exists ds2 W U T r t',
  [/\ driver_advance X z0 (st k.+1) (nth inst0 us k.+1) (nth wit0 ws k.+1) ds = Ret ds2,
      nifs_prover X R (ip_w_i (ds_ip ds2)) (ip_big_w_i (ds_ip ds2)) (ip_u_i (ds_ip ds2))
        (ip_big_u_i (ds_ip ds2)) S nt_default = Ret (W, U, T, r, t'),
      (W, U) = pair k.+1
    & if all (fun a => a == 0) (fw_e W) || all (fun a => a == 0) (fw_w W)
      then driver_tail S R uws zs k ds = Panic /\ driver_prove X S R ds2 = Panic
      else exists ds', driver_tail S R uws zs k ds = Ret ds' /\ after_check k.+1 ds'].
Proof.
case=> jf jti jz0 ji jz jz1 jh1 jp jc jw je je0 lt.
pose u := nth inst0 us k.+1; pose w := nth wit0 ws k.+1.
pose h := hash_io X k.+1%:R z0 (st k.+1) (ds_U ds).
pose u' := FInstance (fi_com_e u) (fi_u u) (fi_com_w u) [:: fr_of_fq X h].
pose ac2 := ACircuit f (k.+1%:R : B) ti z0 (st k.+1) None (Some h) None.
pose ds2 := DriverState ac2 (IvcProof u' w (ds_U ds) (ds_W ds)) (ds_zk ds) (ds_W ds) (ds_U ds) nt_default.
have Ea : driver_advance X z0 (st k.+1) u w ds = Ret ds2.
  by rewrite /driver_advance /ac_next_step jz1 /= eqxx /= jf ji jti jz0 jh1 natr1.
have ni : (k.+1%:R : B) != 0 by apply/eqP/cnt.
have Eu : u = FInstance (0 : G1 E) 1 ((Poly (nth [::] wits k.+1)).[s] *: g1) (nth [::] xs k.+1).
  exact: nth_us.
have Ew : w = fw_new (nth [::] wits k.+1) rows by exact: nth_ws.
have [tv Etv] : exists tv, compute_t R (fi_u u') (fi_u (ds_U ds)) (assignment w u')
    (assignment (ds_W ds) (ds_U ds)) = Ret tv /\ size tv = rows.
  by have [|tv Et st] := proj2 (C31_cross_term_total R (fi_u u') (fi_u (ds_U ds)) (assignment w u')
       (assignment (ds_W ds) (ds_U ds))); last by exists tv.
case: Etv => Etv stv.
have fitv : (size (Poly tv) <= n + 3)%N.
  by rewrite (leq_trans (size_Poly _)) // stv (leq_trans rwl).
pose T := (Poly tv).[s] *: g1; pose r := folding_challenge X [::] 1 (fi_u (ds_U ds)) T.
have [t' Er] := challenge_run 1 (fi_u (ds_U ds)) T Hl.
pose W := fold_witness r w (ds_W ds) tv; pose U := fold_instance r u' (ds_U ds) T.
have Ep : nifs_prover X R w (ds_W ds) u' (ds_U ds) S nt_default = Ret (W, U, T, r, t').
  rewrite /nifs_prover -/(assignment w u') -/(assignment (ds_W ds) (ds_U ds)) Etv bindRet.
  by rewrite C19_commit_vector fitv bindRet -/T /= Eu /= Er.
have cW : commits s W U.
  apply: fold_commits_long; rewrite ?stv //.
  - by rewrite jw Ew /= size_wit.
  - by rewrite Ew /= size_nseq.
  - by split; rewrite /= Eu Ew //= Poly_nseq0 horner0 scale0r.
have szWw : size (fw_w W) = wl by rewrite size_fold_w // Ew /= size_wit.
have szWe : size (fw_e W) = rows.
  by rewrite /W fold_witness_e !size_comb Ew /= size_nseq stv minnn (minn_idPl je).
have Eh : step_instance X s R f z0 wits k.+1 (ds_U ds) = u' by rewrite /u' Eu /step_instance -stE.
have Ex : step_cross X s R f z0 wits k.+1 (ds_W ds, ds_U ds) = tv.
  move: Etv; rewrite compute_tE; case: ifP => // _ [<-]; rewrite /step_cross Eh Ew.
  by rewrite -[fi_u u']/(fi_u u) Eu.
have EW : (W, U) = pair k.+1.
  rewrite -[RHS]/(step_fold X s R f z0 wits k.+1 (pair k)
    (fs_challenge X (step_messages X s R f z0 wits k.+1 (pair k)) 0)) -jp /step_messages Ex.
  rewrite -fold_pair ?size_wit //.
  by rewrite Ex Eh /W Ew.
exists ds2, W, U, T, r, t'; split=> //.
rewrite /driver_tail index_zs // bindRet index_zs ?(ltnW lt) // bindRet.
rewrite (_ : st 0 = z0); last by rewrite /st take0.
rewrite (index_uws lt) !bindRet -/u -/w Ea !bindRet.
have PE : driver_prove X S R ds2 =
  ('(pf, t2) <- nifs_prove X r W U S t';;
   Ret (DriverState ac2 (ds_ip ds2) (ZkIvcProof u' (ds_U ds) (Some T) (Some pf)) W U nt_default)).
  rewrite /driver_prove /ivc_prove /= ni Ep bindRet.
  by case: (nifs_prove _ _ _ _ _ _) => [[]||].
case: ifP => [zz|nz].
  by rewrite PE C34_prove_zero_panics.
have [pf [t2 Epf]] : exists pf t2, nifs_prove X r W U S t' = Ret (pf, t2).
  rewrite /nifs_prove challenge_absorb // bindRet; move/negbT: nz; rewrite negb_or => /andP[ne nw].
  rewrite !open_vectorE -!pis_zeroP /pis_zero (negbTE ne) (negbTE nw).
  by rewrite !(leq_trans (size_Poly _)) ?szWw ?szWe //=; [do 2 eexists|lia|lia].
have [er V] := verify_of_commits ok Ep cW Epf.
rewrite PE Epf !bindRet /driver_check /=.
rewrite /ac_run /= ni /index_at /= eqxx /= Eu /= !eqxx /= Er /=.
set ac3 := ac_store ac2 _ _; set zk := ZkIvcProof _ _ _ _.
have -> : ivc_verify X S ac3 zk nt_default = Ret t2.
  apply/C41_later_accepts_iff; first exact/eqP.
  exists T, pf, (fr_of_fq X h); split=> //=; rewrite ?Eu //.
  by rewrite er.
eexists; split; first by [].
by split=> //=; rewrite ?szWe ?leqnn ?drop_oversize ?szWe // ?natr1 st_next.
Qed.


(* the loop, by number of later iterations *)
Lemma loop_outcome m : (m < size wits)%N ->
  (exists ds, driver_loop X S R uws zs 0 m (driver_init f tw ti z0) = Ret ds /\ after_check m ds) \/
  (driver_loop X S R uws zs 0 m (driver_init f tw ti z0) = Panic /\
   exists k ds ds2 W U T r t', [/\ (k < m)%N,
     driver_loop X S R uws zs 0 k (driver_init f tw ti z0) = Ret ds,
     driver_advance X z0 (st k.+1) (nth inst0 us k.+1) (nth wit0 ws k.+1) ds = Ret ds2,
     nifs_prover X R (ip_w_i (ds_ip ds2)) (ip_big_w_i (ds_ip ds2)) (ip_u_i (ds_ip ds2))
        (ip_big_u_i (ds_ip ds2)) S nt_default = Ret (W, U, T, r, t')
    & (W, U) = pair k.+1 /\ all (fun a => a == 0) (fw_e W) || all (fun a => a == 0) (fw_w W)]).
Proof.
elim: m => [|m IH] lt.
  left; have [ds [Ec J]] := init_check lt; exists ds; split=> //.
  by rewrite [driver_loop _ _ _ _ _ _ _ _]/= index_uws // bindRet Ec.
case: (IH (ltnW lt)) => [[ds [El J]]|[El [k [ds [ds2 [W [U [T [r [t' [ltk P1 P2 P3 P4]]]]]]]]]]]; last first.
  right; rewrite driver_loopS El; split=> //.
  by exists k, ds, ds2, W, U, T, r, t'; split=> //; exact: ltnW.
have [ds2 [W [U [T [r [t' [Ea Ep EW]]]]]]] := tail_step J lt.
rewrite driver_loopS El bindRet add0n; case: ifP => [zz [-> _]|_ [ds' [-> J']]]; last first.
  by left; exists ds'.
by right; split=> //; exists m, ds, ds2, W, U, T, r, t'.
Qed.

End Run.

Lemma driver_loop_ext (S : srs E) R uws uws' zs zs' step todo ds :
  (forall j, (j <= step + todo)%N -> index_at uws j = index_at uws' j) ->
  (forall j, (j <= step + todo)%N -> index_at zs j = index_at zs' j) ->
  driver_loop X S R uws zs step todo ds = driver_loop X S R uws' zs' step todo ds.
Proof.
elim: todo step ds => [|todo IH] step ds Hu Hz.
  by rewrite /= Hu // addn0.
rewrite !driver_loop_unfold Hu ?leq_addr // Hu ?addnS ?ltnS ?leq_addr //.
rewrite Hz ?leq_addr // (Hz step.+1) ?addnS ?ltnS ?leq_addr //.
case: (index_at uws' step) => [[u0 w0]||] //; rewrite !bindRet.
case: (driver_check _ _ _ _ _ _) => [ds1||] //; rewrite !bindRet.
case: (index_at zs' 0) => [z0||] //; rewrite !bindRet.
case: (index_at zs' step.+1) => [zn||] //; rewrite !bindRet.
case: (index_at uws' step.+1) => [[u w]||] //; rewrite !bindRet.
case: (driver_advance _ _ _ _ _ _) => [ds2||] //; rewrite !bindRet.
case: (driver_prove _ _ _ _) => [ds3||] //; rewrite !bindRet.
by apply: IH => j le; [apply: Hu|apply: Hz]; rewrite addnS -addSn.
Qed.

(* C39 *)
Theorem C39_ivc_driver (s : F) (n : nat) (R : r1cs F) (f : B -> fwit -> B) (z0 : B)
  (wits xs : seq (seq F)) (wl : nat) :
  let S := srs_new_from_secret E s n in
  let rows := size (matrix_a R) in
  let states k := foldl f z0 [seq fw_new w rows | w <- take k wits] in
  (0 < size wits)%N -> size xs = size wits -> all (fun w => size w == wl) wits ->
  (wl <= n + 3)%N -> (rows <= wl)%N ->
  (rows <= size (matrix_b R))%N -> rows = size (matrix_c R) ->
  (forall k, (0 < k < size wits)%N -> k%:R <> 0 :> B) ->
  (exists ds, driver_main X S R f z0 wits xs = Ret ds /\
     [/\ ac_i (ds_ac ds) = (size wits).-1%:R, ac_z_i (ds_ac ds) = states (size wits).-1
       & ac_z_i1 (ds_ac ds) = Some (states (size wits))] /\
     (ds_W ds, ds_U ds) = running_pair X s R f z0 wits xs (size wits).-1)
  \/
  (driver_main X S R f z0 wits xs = Panic /\
   exists k ds u ds2 W U T r t',
   let w := fw_new (nth [::] wits k.+1) rows in
   [/\ (k.+1 < size wits)%N /\ driver_main X S R f z0 (take k.+1 wits) (take k.+1 xs) = Ret ds,
       fw_commit w S (nth [::] xs k.+1) = Ret u,
       driver_advance X z0 (states k.+1) u w ds = Ret ds2,
       nifs_prover X R (ip_w_i (ds_ip ds2)) (ip_big_w_i (ds_ip ds2)) (ip_u_i (ds_ip ds2))
        (ip_big_u_i (ds_ip ds2)) S nt_default = Ret (W, U, T, r, t')
     & (W, U) = running_pair X s R f z0 wits xs k.+1 /\
       all (fun a => a == 0) (fw_e W) || all (fun a => a == 0) (fw_w W)]).
Proof.
move=> S rows states lt0 sx hw fit rwl rab rac cnt.
have stE k : st R f z0 wits k = states k by rewrite /st /ws -map_take.
rewrite /S (@driver_mainE s n R f z0 wits xs wl) //.
have ltp : ((size wits).-1 < size wits)%N by rewrite ltn_predL.
have := @loop_outcome s n R f z0 wits xs wl sx hw fit rwl rab rac cnt _ ltp.
case=> [[ds [-> J]]|[-> [k [ds [ds2 [W [U [T [r [t' [ltk P1 P2 P3 P4]]]]]]]]]]].
  left; exists ds; split=> //; split; last exact: j_p J.
  split; first exact: j_i J.
    by rewrite -stE; exact: j_z J.
  by rewrite -[X in states X](prednK lt0) -stE; exact: j_z1 J.
right; split=> //; have ltk' : (k.+1 < size wits)%N by lia.
exists k, ds, (nth (FInstance (0 : G1 E) 0 0 [::]) (us s wits xs) k.+1), ds2, W, U, T, r, t'.
rewrite /= -nth_ws // nth_us // -stE; split=> //.
- split=> //; rewrite -P1.
  have szt : size (take k.+1 wits) = k.+1 by rewrite size_takel // ltnW.
  have szx : size (take k.+1 xs) = k.+1 by rewrite size_takel // sx ltnW.
  rewrite (@driver_mainE s n R f z0 (take k.+1 wits) (take k.+1 xs) wl) ?szt ?szx //; last first.
    by apply/allP => w /mem_take; exact: (allP hw).
  rewrite /ti nth_take //; apply: driver_loop_ext => j; rewrite add0n => le.
    have hw' : all (fun w => size w == wl) (take k.+1 wits).
      by apply/allP => w /mem_take; exact: (allP hw).
    have ltj : (j < size wits)%N by apply: leq_ltn_trans le (ltnW _).
    rewrite (@index_uws s R (take k.+1 wits) (take k.+1 xs)) ?szt ?szx //.
    rewrite (@index_uws s R wits xs) // !nth_ws ?szt // !nth_us ?szt ?szx //.
    by rewrite !nth_take.
  have ltj : (j <= size wits)%N by apply: leq_trans le _; rewrite ltnW // ltnW.
  rewrite (@index_zs R f z0 (take k.+1 wits)) ?szt // ?(leqW le) //.
  rewrite (@index_zs R f z0 wits) // /st /ws !map_take take_take // (leqW le) //.
- rewrite nth_ws // /fw_commit !C19_commit_vector /= Poly_nseq0 size_poly0 horner0 scale0r /=.
  by rewrite (leq_trans (size_Poly _)) // (size_wit hw).
- by rewrite -nth_us.
Qed.

End Driver.
