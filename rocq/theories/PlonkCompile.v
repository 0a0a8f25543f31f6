(* Lemmas about `compile`: what the compiled polynomials are. *)
From Coq Require Import String Ascii NArith.
Set Warnings "-notation-overridden,-ambiguous-paths".
From mathcomp Require Import all_ssreflect all_algebra.
From mathcomp Require Import zify ring.
From Verif Require Import Base BaseLemmas ArkPoly ArkPolyLemmas ArkDomain ArkDomainLemmas
  ArkPolyFft ArkPolyFftLemmas KzgModel KzgSpec PlonkModel PlonkSpec PlonkLemmas.

Set Implicit Arguments.
Unset Strict Implicit.
Unset Printing Implicit Defensive.

Import GRing.Theory.
Local Open Scope ring_scope.

Lemma omapM_map (A B C : Type) (f : B -> outcome C) (h : A -> B) (s : seq A) :
  omapM f (map h s) = omapM (fun a => f (h a)) s.
Proof. by elim: s => //= a s ->. Qed.

Lemma omapM_if (A : eqType) (B : Type) (f : A -> outcome B) (p : pred A) (h : A -> B) (s : seq A) :
  (forall a, a \in s -> f a = if p a then Ret (h a) else Panic) ->
  omapM f s = if all p s then Ret (map h s) else Panic.
Proof.
elim: s => //= a s IH H; rewrite H ?mem_head //; case: ifP => //= _.
rewrite IH; first by case: ifP.
by move=> x xs; rewrite H // inE xs orbT.
Qed.

Lemma zip_iota (A : Type) (x0 : A) (s : seq A) k :
  zip (iota k (size s)) s = [seq (i, nth x0 s (i - k)) | i <- iota k (size s)].
Proof.
elim: s k => //= a s IH k; rewrite subnn IH; congr (_ :: _).
by apply/eq_in_map => i; rewrite mem_iota => /andP[lt _]; rewrite -[in RHS](subnSK lt).
Qed.

Section Compile.
Variables (F : fieldType) (P : fft_field F).
Hypothesis ok : fft_ok P.
Implicit Types (g : gate_call F) (calls : seq (gate_call F)).

Definition gate_of g : gate F :=
  let a := wire_pos (call_a g) in let b := wire_pos (call_b g) in let c := wire_pos (call_c g) in
  match call_type g with
  | Addition => new_add_gate a b c (call_pi g)
  | Multiplication => new_mul_gate a b c (call_pi g)
  | Constant => new_constant_gate a b c (call_a g).2 (call_pi g)
  end.

Lemma build_from cir calls : foldl (@apply_call F) cir calls =
  Circuit (gates cir ++ map gate_of calls) (vals_a cir ++ [seq (call_a g).2 | g <- calls])
    (vals_b cir ++ [seq (call_b g).2 | g <- calls]) (vals_c cir ++ [seq (call_c g).2 | g <- calls]).
Proof.
elim: calls cir => [|g calls IH] cir /=; first by rewrite !cats0; case: cir.
rewrite IH -!cat_rcons; congr Circuit; rewrite /apply_call /gate_of; by case: call_type.
Qed.

Lemma buildE calls : build calls = Circuit (map gate_of calls) [seq (call_a g).2 | g <- calls]
    [seq (call_b g).2 | g <- calls] [seq (call_c g).2 | g <- calls].
Proof. by rewrite /build build_from. Qed.

Definition csize calls : nat := next_power_of_two (size calls).

Lemma pad_buildE calls : pad_circuit (build calls) =
  if (1 < size calls)%N then
    Ret (Circuit (map gate_of calls ++ nseq (csize calls - size calls) (new_dummy_gate F))
      [seq (call_a g).2 | g <- calls] [seq (call_b g).2 | g <- calls] [seq (call_c g).2 | g <- calls])
  else Panic.
Proof.
rewrite buildE /pad_circuit /= size_map; case: calls => [|g [|h calls]] //=.
by rewrite /csize /next_power_of_two up_log_trunc_log // addn1.
Qed.

Lemma gate_of_not_dummy g : is_dummy_gate (gate_of g) = false.
Proof. by rewrite /gate_of; case: call_type. Qed.

Definition row_of g : row F := ((call_a g).2, (call_b g).2, (call_c g).2, gate_of g).

Lemma assignment_dummies cir i m : assignment_from cir i (nseq m (new_dummy_gate F)) = Ret [::].
Proof. by elim: m i => //= m IH i. Qed.

Lemma assignmentE calls m :
  get_assignment (Circuit (map gate_of calls ++ nseq m (new_dummy_gate F))
    [seq (call_a g).2 | g <- calls] [seq (call_b g).2 | g <- calls] [seq (call_c g).2 | g <- calls]) =
  Ret (map row_of calls).
Proof.
rewrite /get_assignment /=; set cir := Circuit _ _ _ _.
suff H : forall pre suf, calls = pre ++ suf ->
    assignment_from cir (size pre) (map gate_of suf ++ nseq m (new_dummy_gate F)) = Ret (map row_of suf).
  exact: (H [::] calls).
move=> pre suf; elim: suf pre => [|g suf IH] pre Ec /=; first exact: assignment_dummies.
have idx (f : gate_call F -> F) : index_at [seq f g | g <- calls] (size pre) = Ret (f g).
  rewrite (@index_at_Ret _ 0) Ec; last by rewrite size_map size_cat /=; lia.
  by rewrite map_cat nth_cat size_map ltnn subnn.
rewrite gate_of_not_dummy !idx !bindRet.
by have := IH (rcons pre g); rewrite size_rcons cat_rcons => ->.
Qed.

Lemma mem_slots n (x : slot) : (x \in slots n) = (x.1 < 3)%N && (x.2 < n)%N.
Proof.
case: x => l i; rewrite /slots; apply/allpairsP/andP.
  by case=> -[l' i']; rewrite !mem_iota => -[/= h1 h2 [-> ->]].
by case=> h1 h2; exists (l, i); rewrite !mem_iota.
Qed.

Section Sigma.
Variables (n : nat) (w : F).
Local Notation dom := (Domain n w).
Local Notation roots := (dom_elements dom).
Local Notation coset1 := [seq r * (1 + 1) | r <- roots].
Local Notation coset2 := [seq r * (1 + 1 + 1) | r <- roots].

Lemma index_roots i : index_at roots i = if (i < n)%N then Ret (w ^+ i) else Panic.
Proof.
case: ltnP => h; last by rewrite index_at_Panic // size_map size_iota.
by rewrite (@index_at_Ret _ 0) ?size_map ?size_iota // (nth_map 0%N) ?size_iota // nth_iota.
Qed.

Lemma index_coset a i : index_at [seq r * a | r <- roots] i = if (i < n)%N then Ret (w ^+ i * a) else Panic.
Proof.
case: ltnP => h; last by rewrite index_at_Panic // !size_map size_iota.
rewrite (@index_at_Ret _ 0) ?size_map ?size_iota // (nth_map 0) ?size_map ?size_iota //.
by rewrite (nth_map 0%N) ?size_iota // nth_iota.
Qed.

Lemma map_elementE (x : slot) : map_element roots coset1 coset2 (Pos x.1 x.2) =
  if x \in slots n then Ret (slot_code w x) else Panic.
Proof.
rewrite mem_slots; case: x => -[|[|[|l]]] i //=; rewrite ?index_roots ?index_coset /slot_code /=;
  case: ifP => // _; congr Ret.
- by rewrite mul1r.
- by rewrite mulrC.
- by rewrite mulrC; congr (_ * _); rewrite -addrA [3%:R]mulrS [2%:R]mulrS.
Qed.

Lemma slot_pos_call calls l i : (i < size calls)%N ->
  slot_pos calls (l, i) = (call_wire (nth (GateCall Constant (0%N,0%N,0) (0%N,0%N,0) (0%N,0%N,0) 0) calls i) l).1.
Proof. by move=> li; rewrite /slot_pos /= (drop_nth (GateCall Constant (0%N,0%N,0) (0%N,0%N,0) (0%N,0%N,0) 0) li). Qed.

Lemma slot_pos_pad calls x : (size calls <= x.2)%N -> slot_pos calls x = x.
Proof. by move=> le; rewrite /slot_pos drop_oversize. Qed.

Lemma sigma_rowsE calls : (size calls <= n)%N ->
  sigma_rows roots coset1 coset2 (map gate_of calls ++ nseq (n - size calls) (new_dummy_gate F)) =
  if positions_ok calls n then
    Ret [seq (slot_code w (slot_pos calls (0%N, i)), slot_code w (slot_pos calls (1%N, i)),
              slot_code w (slot_pos calls (2%N, i))) | i <- iota 0 n]
  else Panic.
Proof.
move=> le; rewrite /sigma_rows (@zip_iota _ (new_dummy_gate F)).
rewrite size_cat size_map size_nseq subnKC // omapM_map.
rewrite (@omapM_if _ _ _ (fun i => all (fun l => slot_pos calls (l, i) \in slots n) (iota 0 3))
  (fun i => (slot_code w (slot_pos calls (0%N, i)), slot_code w (slot_pos calls (1%N, i)),
              slot_code w (slot_pos calls (2%N, i))))).
  congr (if _ then _ else _); apply/allP/allP => H.
    move=> [l i] li; move: (li); rewrite (mem_slots n (l, i)) => /andP[/= h1 h2].
    by have := H i; rewrite mem_iota h2 => /(_ isT)/allP; apply; rewrite mem_iota.
  move=> i; rewrite mem_iota /= => h; rewrite andbT.
  by rewrite !H ?mem_slots.
move=> i; rewrite mem_iota add0n => /andP[_ li]; rewrite subn0 nth_cat size_map.
case: ltnP => h; last first.
  rewrite nth_nseq if_same /= !slot_pos_pad // !mem_slots /= li /=.
  have nroot : nth 0 roots i = w ^+ i by rewrite (nth_map 0%N) ?size_iota // nth_iota.
  rewrite (nth_map 0) ?size_map ?size_iota // (nth_map 0) ?size_map ?size_iota // nroot.
  rewrite /slot_code /= mul1r; congr (Ret (_, _, _)).
    by rewrite mulrC.
  by rewrite mulrC; congr (_ * _); rewrite -addrA [3%:R]mulrS [2%:R]mulrS.
rewrite (nth_map (GateCall Constant (0%N,0%N,0) (0%N,0%N,0) (0%N,0%N,0) 0)) // gate_of_not_dummy.
rewrite /= !slot_pos_call //; set g := nth _ _ _.
have -> : a_pos (gate_of g) = Pos (call_a g).1.1 (call_a g).1.2 by rewrite /gate_of; case: call_type.
have -> : b_pos (gate_of g) = Pos (call_b g).1.1 (call_b g).1.2 by rewrite /gate_of; case: call_type.
have -> : c_pos (gate_of g) = Pos (call_c g).1.1 (call_c g).1.2 by rewrite /gate_of; case: call_type.
rewrite !map_elementE /call_wire /=.
by case: ifP => //= _; case: ifP => //= _; case: ifP.
Qed.

End Sigma.

(* the domain and the result of a successful compilation *)
Definition cgen calls : F := root_of_unity P (up_log 2 (size calls)).
Definition cdom calls : domain F := Domain (csize calls) (cgen calls).
Definition compiled_of calls : compiled_circuit F :=
  let col (f : gate_call F -> F) := interpolate (cdom calls) (map f calls) in
  let sig l := interpolate (cdom calls)
    [seq slot_code (cgen calls) (slot_pos calls (l, i)) | i <- iota 0 (csize calls)] in
  CompiledCircuit (csize calls)
   (GateConstraints (col (fun g => (call_a g).2)) (col (fun g => (call_b g).2))
     (col (fun g => (call_c g).2)) (col (fun g => q_l (gate_of g))) (col (fun g => q_r (gate_of g)))
     (col (fun g => q_o (gate_of g))) (col (fun g => q_m (gate_of g))) (col (fun g => q_c (gate_of g)))
     (col (fun g => g_pi (gate_of g))))
   (CopyConstraints (sig 0%N) (sig 1%N) (sig 2%N) 2%:R 3%:R).

Lemma compileE calls : compile P (build calls) =
  if [&& (1 < size calls)%N, (up_log 2 (size calls) <= two_adicity P)%N &
         positions_ok calls (csize calls)]
  then Ret (compiled_of calls) else Panic.
Proof.
rewrite /compile pad_buildE; case: ltnP => //= gt1.
have le : (size calls <= csize calls)%N by apply: next_pow2_ge.
rewrite size_cat size_map size_nseq subnKC // domain_newE.
case: ifP => //= dle; rewrite assignmentE /= /cal_permutation /=.
rewrite size_cat size_map size_nseq subnKC // domain_newE dle /=.
rewrite /find_cosets index_roots expn_gt0 /= expr0 sigma_rowsE //.
case: ifP => //= _; congr Ret; rewrite /compiled_of -!map_comp.
by rewrite -[3%:R]/((1 + (1 + 1))%N%:R) natrD addrC.
Qed.

Section Rows.
Variable calls : seq (gate_call F).
Hypothesis dle : (up_log 2 (size calls) <= two_adicity P)%N.
Local Notation n := (csize calls).
Local Notation w := (cgen calls).
Local Notation cc := (compiled_of calls).

Lemma cprim : n.-primitive_root w.
Proof. exact: root_of_unity_prim. Qed.

Lemma cnz : n%:R != 0 :> F.
Proof. exact: (two_pow_neq0 ok). Qed.

Lemma csize_ge : (size calls <= n)%N.
Proof. exact: next_pow2_ge. Qed.

Lemma up_csize : up_log 2 n = up_log 2 (size calls).
Proof. by rewrite /csize /next_power_of_two up_expnK. Qed.

Lemma omega_compiled : omega_of P cc = w.
Proof. by rewrite /omega_of /= up_csize. Qed.

Lemma nth_col (f : gate_call F -> F) i :
  nth 0 (map f calls) i = if ohead (drop i calls) is Some g then f g else 0.
Proof.
case: (ltnP i (size calls)) => li; last by rewrite nth_default ?size_map // drop_oversize.
case: calls li => // g0 s li; rewrite (nth_map g0) // (drop_nth g0) //.
Qed.

Lemma col_at (f : gate_call F -> F) i : (i < n)%N ->
  (Poly (interpolate (cdom calls) (map f calls))).[w ^+ i] =
  if ohead (drop i calls) is Some g then f g else 0.
Proof. by move=> li; rewrite (@interpolateE _ (cdom calls) cprim cnz _ _ li); apply: nth_col. Qed.

Lemma sig_at l i : (i < n)%N ->
  (Poly (interpolate (cdom calls)
    [seq slot_code w (slot_pos calls (l, i)) | i <- iota 0 n])).[w ^+ i] =
  slot_code w (slot_pos calls (l, i)).
Proof.
move=> li; rewrite (@interpolateE _ (cdom calls) cprim cnz _ _ li).
by rewrite (nth_map 0%N) ?size_iota // nth_iota.
Qed.

Lemma interpolate_wf v : (trim (interpolate (cdom calls) v) == interpolate (cdom calls) v) &&
  (size (interpolate (cdom calls) v) <= n)%N.
Proof.
have tr : trimmed (interpolate (cdom calls) v) by apply: trimmed_interpolate.
apply/andP; split; first exact: tr.
by rewrite (trimmed_size tr); apply: size_interpolate.
Qed.

Lemma wf_compiled_of : wf_compiled P cc.
Proof.
apply/and3P; split.
- by rewrite /= !interpolate_wf.
- by rewrite /= up_csize.
- by rewrite /= up_csize.
Qed.

(* the three wire polynomials at row i *)
Lemma wires_at i : (i < n)%N ->
  [/\ (Poly (f_ax (cc_gate cc))).[w ^+ i] = slot_value calls (0%N, i),
      (Poly (f_bx (cc_gate cc))).[w ^+ i] = slot_value calls (1%N, i) &
      (Poly (f_cx (cc_gate cc))).[w ^+ i] = slot_value calls (2%N, i)].
Proof. by move=> li; rewrite /= !col_at. Qed.

Lemma sigmas_at i : (i < n)%N ->
  [/\ (Poly (s_sigma_1 (cc_copy cc))).[w ^+ i] = slot_code w (slot_pos calls (0%N, i)),
      (Poly (s_sigma_2 (cc_copy cc))).[w ^+ i] = slot_code w (slot_pos calls (1%N, i)) &
      (Poly (s_sigma_3 (cc_copy cc))).[w ^+ i] = slot_code w (slot_pos calls (2%N, i))].
Proof. by move=> li; rewrite /= !sig_at. Qed.

Lemma gate_at i : (i < n)%N ->
  ((gate_poly cc (Poly (f_ax (cc_gate cc))) (Poly (f_bx (cc_gate cc)))
     (Poly (f_cx (cc_gate cc)))).[w ^+ i] == 0) =
  (if ohead (drop i calls) is Some g then call_holds g else true).
Proof.
move=> li; rewrite /gate_poly !(hornerD, hornerM) /= !col_at //.
case: ohead => [g|]; last by rewrite !(mulr0, addr0) eqxx.
rewrite /gate_of /call_holds; case: call_type => /=.
- rewrite -[RHS]subr_eq0; congr (_ == 0); ring.
- rewrite -[RHS]subr_eq0; congr (_ == 0); ring.
- rewrite -[RHS]subr_eq0; congr (_ == 0); ring.
Qed.

End Rows.

End Compile.

Section RowsHold.
Variables (F : fieldType) (E : pairing_group F) (X : plonk_env E).
Hypothesis ok : fft_ok (pk_fft X).
Variable calls : seq (gate_call F).
Hypothesis dle : (up_log 2 (size calls) <= two_adicity (pk_fft X))%N.
Local Notation n := (csize calls).
Local Notation w := (cgen (pk_fft X) calls).
Local Notation cc := (compiled_of (pk_fft X) calls).

Lemma rows_holdE : rows_hold X cc = all (@call_holds F) calls.
Proof.
rewrite /rows_hold omega_compiled.
have -> : all (@call_holds F) calls =
    all (fun i => if ohead (drop i calls) is Some g then call_holds g else true) (iota 0 n).
  case: (calls) (csize_ge calls) => [|g0 s] le; first by apply/esym/allP.
  apply/(all_nthP g0)/allP => H.
    move=> i _; case: (ltnP i (size (g0 :: s))) => li; last by rewrite drop_oversize.
    by rewrite (drop_nth g0 li) /=; apply: H.
  move=> i li; have := H i; rewrite mem_iota (leq_trans li le) => /(_ isT).
  by rewrite (drop_nth g0 li).
apply/eq_in_all => i; rewrite mem_iota /= => li.
exact: gate_at.
Qed.

(* the permutation products, as products over the slots *)
Lemma prod_slots (f : slot -> F) : 
  \prod_(x <- slots n) f x = \prod_(i < n) (f (0%N, val i) * f (1%N, val i) * f (2%N, val i)).
Proof.
have row l : \prod_(i <- iota 0 n) f (l, i) = \prod_(i < n) f (l, val i).
  by rewrite -(big_mkord xpredT (fun i => f (l, i))) /index_iota subn0.
rewrite /slots big_allpairs; under eq_bigr do rewrite row.
rewrite -[iota 0 3]/[:: 0; 1; 2]%N !big_cons big_nil !big_split /=.
by rewrite mulr1 mulrA.
Qed.

Lemma product_numE beta gamma :
  \prod_(i < n) perm_num w cc beta gamma i =
  \prod_(x <- slots n) (slot_value calls x + beta * slot_code w x + gamma).
Proof.
rewrite prod_slots; apply: eq_bigr => i _; rewrite /perm_num.
have [-> -> ->] := wires_at ok dle (ltn_ord i).
by rewrite /slot_code /= mul1r !mulrA.
Qed.

Lemma product_denE beta gamma :
  \prod_(i < n) perm_den w cc beta gamma i =
  \prod_(x <- slots n) (slot_value calls x + beta * slot_code w (slot_pos calls x) + gamma).
Proof.
rewrite prod_slots; apply: eq_bigr => i _; rewrite /perm_den.
have [-> -> ->] := wires_at ok dle (ltn_ord i).
by have [-> -> ->] := sigmas_at ok dle (ltn_ord i).
Qed.

Lemma products_copies beta gamma : positions_permute calls n -> copies_hold calls n ->
  \prod_(i < n) perm_num w cc beta gamma i = \prod_(i < n) perm_den w cc beta gamma i.
Proof.
move=> pp ch; rewrite product_numE product_denE.
rewrite -(perm_big _ pp) big_map big_seq [RHS]big_seq; apply: eq_bigr => x xs.
by rewrite (eqP (allP ch _ xs)).
Qed.

End RowsHold.
