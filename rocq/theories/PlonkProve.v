(* The prover of PlonkModel.v against the honest run of PlonkSpec.v. *)
From Coq Require Import String Ascii NArith.
Set Warnings "-notation-overridden,-ambiguous-paths".
From mathcomp Require Import all_ssreflect all_algebra.
From mathcomp Require Import zify ring.
From Verif Require Import Base BaseLemmas ArkPoly ArkPolyLemmas ArkDomain ArkDomainLemmas
  ArkPolyFft ArkPolyFftLemmas KzgModel KzgSpec KzgLemmas PlonkModel PlonkSpec PlonkLemmas PlonkRefine.

Set Implicit Arguments.
Unset Strict Implicit.
Unset Printing Implicit Defensive.

Import GRing.Theory.
Local Open Scope ring_scope.

Section Prove.
Variables (F : fieldType) (E : pairing_group F) (X : plonk_env E).
Variables (cc : compiled_circuit F) (b : nat -> F).
Local Notation P := (pk_fft X).
Hypotheses (ok : fft_ok P) (wf : wf_compiled P cc).
Local Notation n := (cc_size cc).
Local Notation w := (omega_of P cc).
Local Notation g := (cc_gate cc).
Local Notation k := (cc_copy cc).
Local Notation dom := (Domain n w).
Local Notation bd := (4 * n + 6 <= 2 ^ two_adicity P)%N.
Let prim := wf_prim ok wf.
Let n0 := wf_gt0 wf.
Local Notation A := (wireA n cc b).
Local Notation B := (wireB n cc b).
Local Notation C := (wireC n cc b).

Lemma ZH_root i : (ZH F n).[w ^+ i] = 0.
Proof.
rewrite /ZH -polyC1 hornerD hornerN hornerXn hornerC.
by rewrite -exprM mulnC exprM (w_n ok wf) expr1n subrr.
Qed.

Lemma blind_root (f h : {poly F}) i : (f + h * ZH F n).[w ^+ i] = f.[w ^+ i].
Proof. by rewrite hornerD hornerM ZH_root mulr0 addr0. Qed.

Lemma gate_root i : (gate_poly cc A B C).[w ^+ i] =
  (gate_poly cc (Poly (f_ax g)) (Poly (f_bx g)) (Poly (f_cx g))).[w ^+ i].
Proof. by rewrite /gate_poly !hornerD !hornerM !blind_root. Qed.

Lemma gate_dvd : (ZH F n %| gate_poly cc A B C) =
  all (fun i => (gate_poly cc (Poly (f_ax g)) (Poly (f_bx g)) (Poly (f_cx g))).[w ^+ i] == 0) (iota 0 n).
Proof. by rewrite -[ZH _ _]/(zpoly F n) (zpoly_dvd _ prim); apply: eq_all => i; rewrite gate_root. Qed.

Section Perm.
Variables (beta gamma : F).
Local Notation num := (perm_num w cc beta gamma).
Local Notation den := (perm_den w cc beta gamma).
Local Notation z := (permZ n w cc b beta gamma).
Local Notation gp := (gp X cc beta gamma).

Lemma perm_root i : (i < n)%N -> (perm_poly w cc beta gamma A B C z).[w ^+ i] =
  num i * gp i - den i * (if i.+1 == n then 1 else gp i.+1).
Proof.
move=> li; have Ez := permZ_root ok wf b beta gamma li.
have Ez1 : z.[w ^+ i.+1] = if i.+1 == n then 1 else gp i.+1.
  case: eqP => [->|/eqP ne]; first by rewrite (w_n ok wf) (permZ_1 ok wf).
  by rewrite (permZ_root ok wf) // ltn_neqAle ne.
have eA : A.[w ^+ i] = (Poly (f_ax g)).[w ^+ i] by exact: blind_root.
have eB : B.[w ^+ i] = (Poly (f_bx g)).[w ^+ i] by exact: blind_root.
have eC : C.[w ^+ i] = (Poly (f_cx g)).[w ^+ i] by exact: blind_root.
rewrite -Ez -Ez1; move: A B C z eA eB eC {Ez Ez1} => A' B' C' z' eA eB eC.
rewrite /perm_poly !(hornerD, hornerN, hornerM) !hornerZ !hornerX !hornerC.
by rewrite horner_comp hornerZ hornerX -exprS eA eB eC.
Qed.

Hypothesis dn : all (fun i => den i != 0) (iota 0 n.-1).

Lemma den_neq0 i : (i < n.-1)%N -> den i != 0.
Proof. by move=> li; apply: (allP dn); rewrite mem_iota. Qed.

Lemma gpE i : (i <= n.-1)%N -> gp i * \prod_(j < i) den j = \prod_(j < i) num j.
Proof.
elim: i => [|i IH] le; first by rewrite /gp !big_ord0 mulr1.
rewrite gpS !big_ord_recr /= -(IH (ltnW le)).
have := den_neq0 le; move: (den i) (num i) (gp i) (\prod_(_ < i) _) => d m q p d0.
by field.
Qed.

Lemma perm_dvd : (ZH F n %| perm_poly w cc beta gamma A B C z) =
  (\prod_(i < n) num i == \prod_(i < n) den i).
Proof.
rewrite -[ZH _ _]/(zpoly F n) (zpoly_dvd _ prim).
have key : ((perm_poly w cc beta gamma A B C z).[w ^+ n.-1] == 0) =
  (\prod_(i < n) num i == \prod_(i < n) den i).
  rewrite perm_root ?prednK // eqxx mulr1.
  have p0 : \prod_(j < n.-1) den j != 0.
    by apply/prodf_neq0 => j _; apply: den_neq0.
  rewrite -(prednK n0) !big_ord_recr /= -(gpE (leqnn _)).
  rewrite subr_eq0 -(inj_eq (mulfI p0)).
  congr (_ == _).
  by move: (num _) (gp _) (\prod_(_ < _) _) => m q p; ring.
rewrite -key; apply/allP/idP => [H|H i]; first by apply: H; rewrite mem_iota /= add0n prednK.
rewrite mem_iota add0n /= => li.
have [->//|ne] := eqVneq i n.-1.
have li1 : (i < n.-1)%N by rewrite ltn_neqAle ne -ltnS prednK.
rewrite perm_root // ifF; last by apply/negbTE; apply: contra ne => /eqP <-.
rewrite gpS subr_eq0; apply/eqP.
have := den_neq0 li1; move: (den i) (num i) (gp i) => d m q d0.
by field.
Qed.

Lemma first_dvd : ZH F n %| (z - 1) * lagrange n w 0.
Proof.
rewrite -[ZH _ _]/(zpoly F n) (zpoly_dvd _ prim); apply/allP => i; rewrite mem_iota add0n /= => li.
rewrite hornerM (lagrangeE prim) //; case: i li => [|i] li; last by rewrite mulr0.
by rewrite expr0 -[in (z - 1)]polyC1 hornerD hornerN hornerC (permZ_1 ok wf) subrr mul0r.
Qed.

Lemma constraint_dvd alpha :
  all (fun i => (gate_poly cc (Poly (f_ax g)) (Poly (f_bx g)) (Poly (f_cx g))).[w ^+ i] == 0) (iota 0 n) ->
  (alpha == 0) || (\prod_(i < n) num i == \prod_(i < n) den i) ->
  ZH F n %| constraint_poly n w cc b beta gamma alpha.
Proof.
rewrite -gate_dvd -perm_dvd => h1 h2; rewrite /constraint_poly /=; apply: dvdp_add; first apply: dvdp_add => //.
  by case/orP: h2 => [/eqP ->|h]; rewrite ?scale0r ?dvdp0 // -mul_polyC dvdp_mull.
by rewrite -mul_polyC dvdp_mull // first_dvd.
Qed.

End Perm.

(* sizes *)
Lemma sA : (size A <= n + 2)%N. Proof. exact: (size_blind ok wf _ _ (proj2 (wf_fa wf))). Qed.
Lemma sB : (size B <= n + 2)%N. Proof. exact: (size_blind ok wf _ _ (proj2 (wf_fb wf))). Qed.
Lemma sC : (size C <= n + 2)%N. Proof. exact: (size_blind ok wf _ _ (proj2 (wf_fc wf))). Qed.

Lemma size_quotient beta gamma alpha : (size (quotient_poly n w cc b beta gamma alpha) <= 3 * n + 6)%N.
Proof.
have sz := size_permZ ok wf b beta gamma.
rewrite /quotient_poly size_divp; last by rewrite -[ZH _ _]/(zpoly F n) zpoly_neq0.
rewrite -[ZH _ _]/(zpoly F n) size_zpoly //=.
suff : (size (constraint_poly n w cc b beta gamma alpha) <= 4 * n + 6)%N.
  by move: (size _) => m; clear; lia.
have le m : (m <= n + 3)%N -> (m <= 4 * n + 6)%N by clear; lia.
rewrite /constraint_poly; apply: size_add_le; first apply: size_add_le.
- have := sA; have := sB; have := sC; move: A B C => A' B' C' hC hB hA.
  rewrite /gate_poly; repeat apply: size_add_le.
  + apply: (@size_mul_le _ _ _ (2 * n + 3) n); [|exact: (proj2 (wf_qm wf))|by clear; lia].
    by apply: size_mul_le hA hB _; clear; lia.
  + by apply: size_mul_le hA (proj2 (wf_ql wf)) _; clear; lia.
  + by apply: size_mul_le hB (proj2 (wf_qr wf)) _; clear; lia.
  + by apply: size_mul_le hC (proj2 (wf_qo wf)) _; clear; lia.
  + by apply: leq_trans (proj2 (wf_pi wf)) _; clear; lia.
  + by apply: leq_trans (proj2 (wf_qc wf)) _; clear; lia.
- apply: size_scale_le; rewrite perm_polyE; apply: size_sub_le.
    by apply: size_mul_le (size_numP (polyseqK _) (polyseqK _) (polyseqK _) sA sB sC _ _) sz _; clear; lia.
  have szw : (size (permZ n w cc b beta gamma \Po (w *: 'X)) <= n + 3)%N by rewrite (size_compw ok wf).
  by apply: size_mul_le (size_denP wf (polyseqK _) (polyseqK _) (polyseqK _) sA sB sC _ _) szw _; clear; lia.
- have sz1 : (size (permZ n w cc b beta gamma - 1)%R <= n + 3)%N.
    by apply: size_sub_le sz _; rewrite size_poly1 addn3.
  by apply: size_scale_le; apply: size_mul_le sz1 (size_lagrange prim n0) _; clear; lia.
Qed.

Lemma slice_len_le beta gamma alpha :
  (slice_len (quotient_poly n w cc b beta gamma alpha) <= n + 2)%N.
Proof.
have := size_quotient beta gamma alpha; rewrite /slice_len; move: (size _) => m; clear; lia.
Qed.

Lemma size_linearisation beta gamma alpha zeta :
  (size (linearisation n w cc b beta gamma alpha zeta) <= n + 3)%N.
Proof.
have le m : (m <= n -> m <= n + 3)%N by clear; lia.
have sz := size_permZ ok wf b beta gamma.
have ss i : (size (slice_of (quotient_poly n w cc b beta gamma alpha) i) <= n + 3)%N.
  apply: leq_trans (size_slice_of _ _) _; apply: leq_trans (slice_len_le _ _ _) _; clear; lia.
have c1 (a : F) : (size a%:P <= n + 3)%N by apply: size_polyC_le; rewrite addn3.
rewrite /linearisation; apply: size_sub_le; last first.
  apply: size_scale_le; apply: size_add_le; first apply: size_add_le => //.
    by apply: size_scale_le.
  by apply: size_scale_le.
apply: size_add_le; last first.
  by apply: size_scale_le; apply: size_sub_le => //; rewrite size_poly1 addn3.
apply: size_sub_le; last first.
  apply: size_scale_le; apply: size_add_le => //; apply: size_scale_le.
  exact: le (proj2 (wf_s3 wf)).
apply: size_add_le; last by apply: size_scale_le.
apply: size_add_le => //; rewrite /lin_gate; repeat apply: size_add_le; try apply: size_scale_le.
- exact: le (proj2 (wf_qm wf)).
- exact: le (proj2 (wf_ql wf)).
- exact: le (proj2 (wf_qr wf)).
- exact: le (proj2 (wf_qo wf)).
- exact: le (proj2 (wf_qc wf)).
Qed.

Lemma size_div_le (f h : {poly F}) m : (size f <= m)%N -> (size (f %/ h)%R <= m)%N.
Proof. by apply: leq_trans; apply: leq_divp. Qed.

Lemma size_openW beta gamma alpha zeta v :
  (size (openW n w cc b beta gamma alpha zeta v) <= n + 3)%N.
Proof.
have le m : (m <= n -> m <= n + 3)%N by clear; lia.
have le2 m : (m <= n + 2 -> m <= n + 3)%N by clear; lia.
have op (f : {poly F}) : (size f <= n + 3)%N -> (size (f - (f.[zeta])%:P)%R <= n + 3)%N.
  by move=> sf; apply: size_sub_le => //; apply: size_polyC_le; rewrite addn3.
rewrite /openW; apply: size_div_le.
apply: size_add_le; last by apply: size_scale_le; apply: op; exact: le (proj2 (wf_s2 wf)).
apply: size_add_le; last by apply: size_scale_le; apply: op; exact: le (proj2 (wf_s1 wf)).
apply: size_add_le; last by apply: size_scale_le; apply: op; exact: le2 sC.
apply: size_add_le; last by apply: size_scale_le; apply: op; exact: le2 sB.
apply: size_add_le; last by apply: size_scale_le; apply: op; exact: le2 sA.
by apply: op; exact: size_linearisation.
Qed.

Lemma size_openWw beta gamma zeta : (size (openWw n w cc b beta gamma zeta) <= n + 3)%N.
Proof.
rewrite /openWw; apply: size_div_le; apply: size_sub_le; first exact: size_permZ.
by apply: size_polyC_le; rewrite addn3.
Qed.

Variables (s : F) (m : nat).
Hypotheses (nm : (n <= m)%N) (long : digest_long (pk_sha256 X)).
Local Notation S := (srs_new_from_secret E s m).

Lemma commitE (p : seq F) (f : {poly F}) : normal p -> Poly p = f -> (size f <= n + 3)%N ->
  kzg_commit S p = Ret (commitment_of E s f).
Proof.
move=> np <- sz; rewrite commit_normal // ifT //; apply: leq_trans sz _; by rewrite leq_add2r.
Qed.

Lemma commit_paraE y : kzg_commit_para S y = Ret (y *: g1_gen E).
Proof. by rewrite /kzg_commit_para /srs_new_from_secret addn3 /index_at /= scale1r. Qed.

Lemma slice_newP bd' (p : seq F) : trimmed p ->
  ois bd' (Poly p != 0) (slice_new p) (fun sp => [/\ size (sl_slices sp) = 3%N,
     sl_degree sp = (slice_len (Poly p) - 1)%N &
      forall i, (i < 3)%N -> Poly (nth [::] (sl_slices sp) i) = slice_of (Poly p) i /\
                trimmed (nth [::] (sl_slices sp) i)]).
Proof.
move=> tp; rewrite -trimmed_eq0 //; case: eqP => [->|/eqP ne] //=.
by have [sp -> ?] := slice_newE tp ne.
Qed.

Lemma slice_commitE sp t : size (sl_slices sp) = 3%N -> (slice_len t <= n + 2)%N ->
  (forall i, (i < 3)%N -> Poly (nth [::] (sl_slices sp) i) = slice_of t i /\
                trimmed (nth [::] (sl_slices sp) i)) ->
  slice_commit S sp = Ret [seq commitment_of E s (slice_of t i) | i <- [:: 0%N; 1%N; 2%N]].
Proof.
rewrite /slice_commit; case: (sl_slices sp) => [|p0 [|p1 [|p2 [|]]]] // _ le H.
have sz i : (size (slice_of t i) <= n + 3)%N.
  by apply: leq_trans (size_slice_of _ _) (leq_trans le _); rewrite leq_add2l.
have [e0 t0] := H 0%N isT; have [e1 t1] := H 1%N isT; have [e2 t2] := H 2%N isT.
rewrite [omapM _ _]/= (commitE (trimmed_normal t0) e0 (sz _)) /=.
by rewrite (commitE (trimmed_normal t1) e1 (sz _)) /= (commitE (trimmed_normal t2) e2 (sz _)).
Qed.

Theorem generate_proofE T :
  ois bd [&& rows_hold X cc, (hr_alpha X cc b s == 0) || product_holds X cc b s & no_accident X cc b s]
    (generate_proof X T b cc S) (fun pf => pf = honest_proof X cc b s).
Proof.
rewrite /generate_proof (wf_domain wf) [unwrap _]/= bindRet.
set ax := blind_wire dom (f_ax g) _ _; set bx := blind_wire dom (f_bx g) _ _.
set cx := blind_wire dom (f_cx g) _ _.
have EA : Poly ax = A by exact: blind_wireE.
have EB : Poly bx = B by exact: blind_wireE.
have EC : Poly cx = C by exact: blind_wireE.
have tA : trimmed ax by exact: trimmed_trim.
have tB : trimmed bx by exact: trimmed_trim.
have tC : trimmed cx by exact: trimmed_trim.
have le2 l : (l <= n + 2 -> l <= n + 3)%N by clear; lia.
rewrite (commitE (trimmed_normal tA) EA (le2 _ sA)) bindRet.
rewrite (commitE (trimmed_normal tB) EB (le2 _ sB)) bindRet.
rewrite (commitE (trimmed_normal tC) EC (le2 _ sC)) bindRet.

rewrite -[cg_feed X _ (cg_feed X _ (cg_feed _ _ _ _) _) _]/(cg_from_commitments X (pk_sha256 X) (hr_fed1 E cc b s)).
rewrite from_commitments_chain challenge2_chain // bindRet.
rewrite -/(hr_fed1 E cc b s) -/(hr_beta X cc b s) -/(hr_gamma X cc b s).
set beta := hr_beta X cc b s; set gamma := hr_gamma X cc b s.
lazy beta iota zeta.
set c0 := all (fun i => perm_den w cc beta gamma i != 0) (iota 0 n.-1).
set alpha := hr_alpha X cc b s.
set t := hr_t X cc b s.
set zeta := hr_zeta X cc b s.
set r := hr_r X cc b s.
have -> : [&& rows_hold X cc, (alpha == 0) || product_holds X cc b s & no_accident X cc b s] =
  c0 && (((ZH F n %| gate_poly cc A B C) &&
          (ZH F n %| alpha *: perm_poly w cc beta gamma A B C (permZ n w cc b beta gamma))) &&
   ((t != 0) && (((lin_gate cc A.[zeta] B.[zeta] C.[zeta] != 0) &&
         ((beta != 0) && (Poly (s_sigma_3 k) != 0))) &&
     ((r != 0) && ((A != 0) && ((B != 0) && ((C != 0) && ((Poly (s_sigma_1 k) != 0) &&
       (Poly (s_sigma_2 k) != 0))))))))).
  rewrite /no_accident -/beta -/gamma -/c0 -/t -/r -/zeta gate_dvd -/(rows_hold X cc).
  rewrite -/(hr_A cc b) -/(hr_B cc b) -/(hr_C cc b).
  case Ec0: c0; last by rewrite !(andFb, andbF).
  have -> : (ZH F n %| alpha *: perm_poly w cc beta gamma (hr_A cc b) (hr_B cc b) (hr_C cc b)
     (permZ n w cc b beta gamma)) = (alpha == 0) || product_holds X cc b s.
    case: eqP => [->|/eqP ne] /=; first by rewrite scale0r dvdp0.
    by rewrite dvdpZr // perm_dvd.
  move: (rows_hold _ _) ((alpha == 0) || _) (beta != 0) (Poly (s_sigma_1 k) != 0)
    (Poly (s_sigma_2 k) != 0) (Poly (s_sigma_3 k) != 0) (hr_A cc b != 0) (hr_B cc b != 0)
    (hr_C cc b != 0) (t != 0) (lin_gate _ _ _ _ != 0) (r != 0).
  by do 12 (case; rewrite ?(andbF, andbT, andFb, andTb) //).
apply: ois_bind; first by apply: (ois_bd (b1 := true)) => //; apply: compute_accE.
move=> [acc_x acc_wx] _ [/= Ex Ew tx tw].
set z_x := padd _ acc_x; set z_wx := padd _ acc_wx.
have Ez : Poly z_x = permZ n w cc b beta gamma by exact: z_xE.
have Ezw : Poly z_wx = permZ n w cc b beta gamma \Po (w *: 'X) by exact: z_wxE.
have tz : trimmed z_x by exact: trimmed_trim.
have tzw : trimmed z_wx by exact: trimmed_trim.
have sz := size_permZ ok wf b beta gamma.
rewrite (commitE (trimmed_normal tz) Ez sz) bindRet.
rewrite feed_chain -cats1 -/(hr_z X cc b s) -/(hr_fed2 X cc b s) challenge1_chain // bindRet.
rewrite -/(hr_alpha X cc b s) -/alpha; lazy beta iota zeta.
have z1 := permZ_1 ok wf b beta gamma.
apply: ois_bind.
  exact: (quotientE ok wf EA EB EC Ez Ezw tA tB tC tz tzw sA sB sC sz beta gamma z1 alpha).
move=> tq _ [Et tt].
have {}Et : Poly tq = t by [].
apply: ois_bind; first by apply: ois_cond (slice_newP bd tt); rewrite Et.
move=> sp tn0; rewrite Et => -[s3 dg Hs].
rewrite (slice_commitE s3 _ Hs) ?bindRet; last exact: slice_len_le.
rewrite [nth 0 _ 0]/= [nth 0 _ 1]/= [nth 0 _ 2]/=.
have feed3 x y z c d : cg_feed X (pk_sha256 X) (cg_feed X (pk_sha256 X)
    (cg_feed X (pk_sha256 X) (ChallengeGen (Some (fs_chain X (pk_sha256 X) c)) d) x) y) z =
    ChallengeGen (Some (fs_chain X (pk_sha256 X) (c ++ [:: x; y; z]))) false.
  exact: (feeds_chain X (pk_sha256 X) c d x [:: y; z]).
rewrite feed3 -[hr_fed2 X cc b s ++ _]/(hr_fed3 X cc b s) challenge1_chain // bindRet.
rewrite -/(hr_zeta X cc b s) -/zeta; lazy beta iota zeta.
have [tc Etc [Ptc _]] := slice_compactE zeta tn0 s3 dg Hs.
rewrite Etc bindRet !commit_paraE !bindRet !pevalE EA EB EC Ez /dom_element /= expr1.
have feed6 y1 y2 y3 y4 y5 y6 c d : cg_feed X (pk_sha256 X) (cg_feed X (pk_sha256 X)
    (cg_feed X (pk_sha256 X) (cg_feed X (pk_sha256 X) (cg_feed X (pk_sha256 X)
      (cg_feed X (pk_sha256 X) (ChallengeGen (Some (fs_chain X (pk_sha256 X) c)) d) y1) y2) y3) y4) y5) y6 =
    ChallengeGen (Some (fs_chain X (pk_sha256 X) (c ++ [:: y1; y2; y3; y4; y5; y6]))) false.
  exact: (feeds_chain X (pk_sha256 X) c d y1 [:: y2; y3; y4; y5; y6]).
rewrite feed6 -[hr_fed3 X cc b s ++ _]/(hr_fed4 X cc b s) challenge1_chain // bindRet.
rewrite -/(hr_v X cc b s); lazy beta iota zeta; set v := hr_v X cc b s.
apply: ois_bind.
  exact: (linearisationE ok wf EA EB EC Ez Ezw tz tzw sA sB sC sz beta gamma z1 alpha zeta Ptc).
move=> r_x _ [Er tr].
have {}Er : Poly r_x = r by [].
rewrite pevalE Er -[X in ois _ X]andbT; apply: ois_bind.
  exact: (openingE wf EA EB EC tA tB tC v zeta Er tr).
move=> ws _ [Ews tws].
have Wz : (Poly ws).[zeta] = 0.
  rewrite Ews !(hornerD, hornerZ, hornerN, hornerC) !subrr !mulr0 !addr0 //.
have [w1 -> [Ew1 nw1]] := checked_divE erefl (trimmed_normal tws) Wz.
rewrite bindRet /poly_sub_para.
have [wz Ewz] := padd_coeff0_ret (- (permZ n w cc b beta gamma).[zeta * w]) (z_neq0 Ez tz z1).
rewrite Ewz bindRet; have [_ Pwz nwz] := padd_coeff0P Ewz.
have {}Pwz : Poly wz = hr_z X cc b s - ((hr_z X cc b s).[zeta * w])%:P by rewrite Pwz Ez rmorphN.
have Wwz : (hr_z X cc b s - ((hr_z X cc b s).[zeta * w])%:P).[zeta * w] = 0.
  by rewrite hornerD hornerN hornerC subrr.
have [w2 -> [Ew2 nw2]] := checked_divE Pwz (nwz tz) Wwz.
rewrite bindRet.
have {}Ew1 : Poly w1 = hr_W X cc b s by rewrite Ew1 Ews.
have {}Ew2 : Poly w2 = hr_Ww X cc b s by rewrite Ew2.
rewrite (commitE nw1 Ew1 (size_openW _ _ _ _ _)) bindRet.
rewrite (commitE nw2 Ew2 (size_openWw _ _ _)) bindRet.
have feed2 x y c d : cg_feed X (pk_sha256 X)
    (cg_feed X (pk_sha256 X) (ChallengeGen (Some (fs_chain X (pk_sha256 X) c)) d) x) y =
    ChallengeGen (Some (fs_chain X (pk_sha256 X) (c ++ [:: x; y]))) false.
  exact: (feeds_chain X (pk_sha256 X) c d x [:: y]).
rewrite feed2 -[hr_fed4 X cc b s ++ _]/(hr_fed5 X cc b s) challenge1_chain // bindRet.
by split=> //; rewrite dg.
Qed.


End Prove.
