(* C71: verification depends on the public part of a circuit only.
   C72: the example programs. *)
From Coq Require Import NArith.
Set Warnings "-notation-overridden,-ambiguous-paths".
From mathcomp Require Import all_ssreflect all_algebra.
From mathcomp Require Import zify ring.
From Verif Require Import Base BaseLemmas ArkPoly ArkPolyLemmas ArkDomain ArkDomainLemmas FriModel FriSpec
  FriProps KzgModel KzgSpec KzgLemmas KzgProps PlonkModel PlonkSpec PlonkLemmas PlonkCompile PlonkProps
  Concrete ConcreteProps StatementSpec ProgramModel.

Set Implicit Arguments.
Unset Strict Implicit.
Unset Printing Implicit Defensive.

Import GRing.Theory.
Local Open Scope ring_scope.

(* ------------------------------------------------------------------ *)
(* C71 *)
Section C71.
Variables (F : fieldType).
Implicit Types (calls : seq (gate_call F)) (cc : compiled_circuit F) (g : gate_call F).

Lemma same_size calls calls' : same_statement calls calls' -> size calls = size calls'.
Proof. by move/(congr1 size); rewrite !size_map. Qed.

Lemma same_map (A : Type) (f : gate_call F -> A) calls calls' :
  (forall g g', public_call g = public_call g' -> f g = f g') ->
  same_statement calls calls' -> map f calls = map f calls'.
Proof.
move=> H; rewrite /same_statement; elim: calls calls' => [|g calls IH] [|g' calls'] //= [].
move=> e1 e2 e3 e4 e5 e6 e; rewrite (IH _ e); congr cons; apply: H.
by rewrite /public_call; congr (_, _, _, _, _, _).
Qed.

Lemma same_pos calls calls' x : same_statement calls calls' -> slot_pos calls x = slot_pos calls' x.
Proof.
case: x => l i; rewrite /slot_pos /=; move: (l, i) => d; elim: calls calls' i => [|g calls IH] [|g' calls'] i //.
case=> e1 e2 e3 e4 e5 e6 e; case: i => [|i]; last exact: IH.
by rewrite /call_wire /=; clear IH; case: l => [|[|l]] /=; rewrite ?nth_nil ?e2 ?e3 ?e4.
Qed.

Lemma same_gates calls calls' : same_statement calls calls' -> map (@gate_of F) calls = map (@gate_of F) calls'.
Proof.
apply: same_map => g g'; case=> e1 e2 e3 e4 e5; rewrite /gate_of /wire_pos -e1 -e2 -e3 -e4 -e5.
by case: (call_type g) => // -[->].
Qed.

Lemma verify_public (E : pairing_group F) (X : plonk_env E) T cc cc' S pf :
  cc_size cc = cc_size cc' -> cc_copy cc = cc_copy cc' ->
  [:: q_lx (cc_gate cc); q_rx (cc_gate cc); q_ox (cc_gate cc); q_mx (cc_gate cc); q_cx (cc_gate cc);
      pi_x (cc_gate cc)] =
  [:: q_lx (cc_gate cc'); q_rx (cc_gate cc'); q_ox (cc_gate cc'); q_mx (cc_gate cc'); q_cx (cc_gate cc');
      pi_x (cc_gate cc')] ->
  verify X T cc S pf = verify X T cc' S pf.
Proof.
case: cc cc' => n [fa fb fc ql qr qo qm qc pi] k [n' [fa' fb' fc' ql' qr' qo' qm' qc' pi'] k'] /=.
by move=> <- <- [<- <- <- <- <- <-].
Qed.

(* Two circuits with the same public part: one compiles iff the other does, and
   the two compiled circuits accept the same proofs, whatever proof, reference
   string and digest are given to the verifier. *)
Theorem C71_verdict_depends_on_public_part (E : pairing_group F) (X : plonk_env E) calls calls' cc :
  same_statement calls calls' ->
  compile (pk_fft X) (build calls) = Ret cc ->
  exists cc', [/\ compile (pk_fft X) (build calls') = Ret cc', cc_size cc' = cc_size cc
    & forall T S (pf : proof E), verify X T cc' S pf = verify X T cc S pf].
Proof.
move=> same; rewrite compileE; case: ifP => // /and3P[h1 h2 h3] [<-].
have sz := same_size same; have Ec : csize calls = csize calls' by rewrite /csize sz.
have Eg : cgen (pk_fft X) calls = cgen (pk_fft X) calls' by rewrite /cgen sz.
have Ed : cdom (pk_fft X) calls = cdom (pk_fft X) calls' by rewrite /cdom Ec Eg.
have h3' : positions_ok calls' (csize calls').
  by rewrite -Ec; apply/allP => x xs; rewrite -(same_pos x same); exact: (allP h3).
exists (compiled_of (pk_fft X) calls'); split; rewrite ?compileE -?sz ?h1 ?h2 ?h3' //.
move=> T S pf; apply: verify_public; rewrite /compiled_of /=.
- by rewrite Ec.
- rewrite -Ed -Eg -Ec; congr CopyConstraints; congr ArkPolyFft.interpolate; apply: eq_map => i;
    by rewrite (same_pos _ same).
- have Em (f : gate F -> F) : map (fun g => f (gate_of g)) calls' = map (fun g => f (gate_of g)) calls.
    by rewrite (map_comp f (@gate_of F)) -(same_gates same) -map_comp.
  by rewrite -Ed !Em.
Qed.

Lemma same_blank calls : same_statement calls (map (@blank_call F) calls).
Proof. by rewrite /same_statement -map_comp; apply: eq_map => -[[]]. Qed.

(* The verifier needs no witness: compiling the calls with every wire value
   replaced by zero (constants kept) gives the same verdicts. *)
Theorem C71_verifier_needs_no_witness (E : pairing_group F) (X : plonk_env E) calls cc :
  compile (pk_fft X) (build calls) = Ret cc ->
  exists cc', [/\ compile (pk_fft X) (build (map (@blank_call F) calls)) = Ret cc',
    cc_size cc' = cc_size cc & forall T S (pf : proof E), verify X T cc' S pf = verify X T cc S pf].
Proof. exact: C71_verdict_depends_on_public_part (same_blank calls). Qed.

(* Hence a proof for one witness is accepted for any circuit with the same public
   part, whatever wire values that circuit was built with. *)
Theorem C71_completeness_across_witnesses (E : pairing_group F) (X : plonk_env E) calls calls' cc cc' b s m T :
  pairing_ok E -> fft_ok (pk_fft X) -> digest_long (pk_sha256 X) ->
  same_statement calls calls' ->
  compile (pk_fft X) (build calls) = Ret cc -> compile (pk_fft X) (build calls') = Ret cc' ->
  (cc_size cc <= m)%N -> (4 * cc_size cc + 6 <= 2 ^ two_adicity (pk_fft X))%N ->
  positions_permute calls (cc_size cc) -> satisfied calls (cc_size cc) -> no_accident X cc b s ->
  let srs := srs_new_from_secret E s m in
  exists2 pf, generate_proof X T b cc srs = Ret pf &
    verify X (pk_sha256 X) cc' srs pf = if ch_zeta X (pk_sha256 X) pf == 1 then Panic else Ret tt.
Proof.
move=> okE ok long same comp comp' nm bd perm /andP[sat copies] na srs.
have [cc2 [c2 _ Ev]] := C71_verdict_depends_on_public_part same comp.
move: c2; rewrite comp' => -[E2]; rewrite -E2 in Ev.
by have [pf gen ver] := C51_satisfied_circuits okE ok long comp nm T bd sat perm copies na;
  exists pf; rewrite ?Ev.
Qed.

End C71.

(* ------------------------------------------------------------------ *)
(* C72 *)

(* The KZG example succeeds for every secret. *)
Theorem C72_kzg_example (F : fieldType) (E : pairing_group F) (s : F) :
  pairing_ok E -> kzg_example E s = Ret tt.
Proof.
move=> okE; rewrite /kzg_example; set p := trim _.
have tp : trim [:: 5%:R; 3%:R; 0; 1 : F] = [:: 5%:R; 3%:R; 0; 1] by rewrite /= oner_eq0.
have Ep : p = polyseq (Poly [:: 5%:R; 3%:R; 0; 1 : F]) by rewrite /p trimE.
have sp : size (Poly [:: 5%:R; 3%:R; 0; 1 : F]) = 4%N by rewrite -Ep /p tp.
have nz : Poly [:: 5%:R; 3%:R; 0; 1 : F] != 0 by rewrite -size_poly_eq0 sp.
have -> : peval p 1 == 9%:R.
  by rewrite /p tp /=; apply/eqP; ring.
have [C [o [-> -> /= ->]]] : exists C o, [/\ kzg_commit (srs_new_from_secret E s 10) p = Ret C,
    kzg_open (srs_new_from_secret E s 10) p 4%:R = Ret o
    & kzg_verify (srs_new_from_secret E s 10) C o 4%:R].
  by rewrite Ep; apply: C23_completeness => //; rewrite sp.
by [].
Qed.

(* The FRI example returns, or panics because the six coefficients fold to zero. *)
Theorem C72_fri_example (F : fieldType) (X : fri_env F) (H : bytes -> bytes) :
  fft_consts_ok X -> generator X != 0 -> digest_8_bytes H -> (4 <= two_adicity (fft X))%N ->
  6%:R != 0 :> F ->
  let p := Poly [:: 1; 2%:R; 3%:R; 4%:R; 5%:R; 6%:R : F] in
  fri_example X H = Ret tt \/
  fri_example X H = Panic /\
  exists2 roots, honest_root_list X H p (generator X) 4 roots & folded X H p roots 4 = 0.
Proof.
move=> ok g0 Hl two nz6 p; rewrite /fri_example.
have -> : trim [:: 1; 2%:R; 3%:R; 4%:R; 5%:R; 6%:R : F] = [:: 1; 2%:R; 3%:R; 4%:R; 5%:R; 6%:R].
  by rewrite /= (negbTE nz6).
set q := [:: 1; _; _; _; _; _]; have [pan ret] := C08_generate_panics_iff q 2 2 ok Hl.
have n4 : up_log 2 (size q * 2) = 4%N by [].
rewrite n4 in pan; case E : (fri_generate_proof X H q 2 2) => [pf|m|].
- by left; rewrite bindRet (C07_fri_completeness ok g0 E).
- by have [|pf] := ret; rewrite E.
- right; split=> //; case: ((proj1 pan) E) => [//|lt|//].
  by move: two lt; clear; lia.
Qed.

(* The PLONK example: the circuit compiles to eight rows; unless one of the
   accidents of C51 happens proof generation returns, and the program succeeds
   unless the evaluation challenge is 1. *)
Lemma example_positions (F : fieldType) :
  positions_permute (plonk_example_calls F) 8 && positions_ok (plonk_example_calls F) 8.
Proof. by vm_compute. Qed.

Lemma example_satisfied (F : fieldType) : satisfied (plonk_example_calls F) 8.
Proof.
rewrite /satisfied; apply/andP; split.
  rewrite /= /call_holds /= !andbT.
  by do ?[apply/andP; split]; apply/eqP; ring.
by rewrite /copies_hold /slots /= /slot_value /slot_pos /= !eqxx.
Qed.

Theorem C72_plonk_example (F : fieldType) (E : pairing_group F) (X : plonk_env E) b s :
  pairing_ok E -> fft_ok (pk_fft X) -> digest_long (pk_sha256 X) -> (6 <= two_adicity (pk_fft X))%N ->
  exists cc, [/\ compile (pk_fft X) (build (plonk_example_calls F)) = Ret cc, cc_size cc = 8%N
    & no_accident X cc b s ->
      plonk_example X b s =
      if ch_zeta X (pk_sha256 X) (honest_proof X cc b s) == 1 then Panic else Ret tt].
Proof.
move=> okE ok long two; have /andP[perm pos] := example_positions F.
have [|cc comp] := (proj2 (C45_compile_returns_iff (pk_fft X) (plonk_example_calls F))).
- split=> //.
  by apply: leq_trans (_ : 2 ^ 3 <= _)%N => //; rewrite leq_exp2l //; move: two; clear; lia.
have sz : cc_size cc = 8%N by have [-> _ _ _] := compile_inv comp.
exists cc; split=> // na; rewrite /plonk_example comp bindRet.
have /andP[hold copies] := example_satisfied F.
have bd : (4 * cc_size cc + 6 <= 2 ^ two_adicity (pk_fft X))%N.
  by rewrite sz; apply: leq_trans (_ : 2 ^ 6 <= _)%N => //; rewrite leq_exp2l.
rewrite -sz in perm copies.
have [pf gen ver] := C51_satisfied_circuits okE ok long comp (leqnn _) (pk_sha256 X) bd hold perm copies na.
rewrite gen bindRet ver.
by have [<- _ _ _] := generate_inv ok long comp (leqnn _) gen; case: ifP.
Qed.

(* The seven calls of the example with other wire values: x, y, z, the factor k of
   x^2, and the outputs they give.  Kinds, positions and the constant 3 are those
   of the example. *)
Definition example_values (F : fieldType) (x y z k : F) : seq (gate_call F) :=
  let wire (l i : nat) (v : F) : nat * nat * F := (l, i, v) in
  [:: GateCall Multiplication (wire 0%N 1%N x) (wire 1%N 0%N y) (wire 0%N 3%N (x * y)) 0;
      GateCall Multiplication (wire 1%N 1%N x) (wire 0%N 0%N x) (wire 0%N 2%N (x * x)) 0;
      GateCall Multiplication (wire 2%N 1%N (x * x)) (wire 2%N 6%N k) (wire 1%N 3%N (x * x * k)) 0;
      GateCall Addition (wire 0%N 4%N (x * y)) (wire 2%N 2%N (x * x * k)) (wire 0%N 5%N (x * y + x * x * k)) 0;
      GateCall Multiplication (wire 2%N 0%N (x * y)) (wire 1%N 4%N z) (wire 1%N 5%N (x * y * z)) 0;
      GateCall Addition (wire 2%N 3%N (x * y + x * x * k)) (wire 2%N 4%N (x * y * z))
        (wire 2%N 5%N (x * y + x * x * k + x * y * z)) 0;
      GateCall Constant (wire 0%N 6%N 3%:R) (wire 1%N 6%N 0) (wire 1%N 2%N k) 0].

(* The example's circuit accepts a proof for every choice of these values: neither
   the result 11 nor the coefficient 3 of the equation is part of the statement. *)
Theorem C72_example_proves_no_equation (F : fieldType) (E : pairing_group F) (X : plonk_env E)
  (x y z k : F) b s cc :
  pairing_ok E -> fft_ok (pk_fft X) -> digest_long (pk_sha256 X) -> (6 <= two_adicity (pk_fft X))%N ->
  compile (pk_fft X) (build (plonk_example_calls F)) = Ret cc ->
  let srs := srs_new_from_secret E s (cc_size cc) in
  exists2 cc', compile (pk_fft X) (build (example_values x y z k)) = Ret cc' &
  no_accident X cc' b s ->
  exists2 pf, generate_proof X (pk_sha256 X) b cc' srs = Ret pf &
    verify X (pk_sha256 X) cc srs pf = if ch_zeta X (pk_sha256 X) pf == 1 then Panic else Ret tt.
Proof.
move=> okE ok long two comp srs.
have same : same_statement (plonk_example_calls F) (example_values x y z k) by [].
have [cc' [comp' sz _]] := C71_verdict_depends_on_public_part same comp.
have sz8 : cc_size cc = 8%N by have [-> _ _ _] := compile_inv comp.
exists cc' => // na; refine (C71_completeness_across_witnesses (pk_sha256 X) okE ok long (esym same) comp' comp _ _ _ _ na).
- by rewrite sz.
- by rewrite sz sz8; apply: leq_trans (_ : 2 ^ 6 <= _)%N => //; rewrite leq_exp2l.
- by rewrite sz sz8; vm_compute.
rewrite sz sz8 /satisfied; apply/andP; split.
  by rewrite /= /call_holds /= !addr0 !eqxx.
by rewrite /copies_hold /slots /= /slot_value /slot_pos /= !eqxx.
Qed.

(* The field constants these theorems ask for are those of the two curves' fields
   the programs use. *)
Theorem C72_example_fields (G R : fieldType) :
  N.to_nat goldilocks_p \in [char G] -> N.to_nat bls_r \in [char R] ->
  [/\ (4 <= two_adicity (goldilocks_fft G))%N, 6%:R != 0 :> G, (6 <= two_adicity (bls_fft R))%N,
      fft_ok (goldilocks_fft G) & fft_ok (bls_fft R)].
Proof.
move=> cg cr; have [_ _ okg] := C63_goldilocks cg.
split; [exact (isT : (3 < 32)%N)| |exact (isT : (5 < 32)%N)|exact okg|exact (C63_bls cr)].
by apply/eqP => e; have := @inR_inj G goldilocks_p cg 6%num 0%num erefl erefl e.
Qed.
