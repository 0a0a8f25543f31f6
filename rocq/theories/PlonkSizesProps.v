(* C83: sizes on machine words.  Compiling a circuit of at least one gate does the
   same in debug and release builds; the empty circuit panics in a debug build and
   compiles in a release build; the reference string of the three largest sizes is
   a panic in a debug build and has at most two points in a release build. *)
From Coq Require Import String Ascii NArith.
Set Warnings "-notation-overridden,-ambiguous-paths".
From mathcomp Require Import all_ssreflect all_algebra.
From mathcomp Require Import zify.
From Verif Require Import Base BaseLemmas ArkPoly ArkPolyLemmas ArkDomain ArkDomainLemmas ArkPolyFft
  ArkPolyFftLemmas KzgModel KzgSpec KzgLemmas PlonkModel PlonkMachine.

Set Implicit Arguments.
Unset Strict Implicit.
Unset Printing Implicit Defensive.

Import GRing.Theory.
Local Open Scope ring_scope.

Section C83.
Variables (F : fieldType) (P : fft_field F).

(* what compilation does after padding *)
Let rest (cir : circuit F) : outcome (compiled_circuit F) :=
  let circuit_size := size (gates cir) in
  dom <- unwrap (domain_new P circuit_size);;
  rows <- get_assignment cir;;
  let interp (f : row F -> F) := interpolate dom [seq f r | r <- rows] in
  let gc := {|
    f_ax := interp (fun r => r.1.1.1);
    f_bx := interp (fun r => r.1.1.2);
    f_cx := interp (fun r => r.1.2);
    q_lx := interp (fun r => q_l r.2);
    q_rx := interp (fun r => q_r r.2);
    q_ox := interp (fun r => q_o r.2);
    q_mx := interp (fun r => q_m r.2);
    q_cx := interp (fun r => q_c r.2);
    pi_x := interp (fun r => g_pi r.2) |} in
  cc <- cal_permutation P cir;;
  Ret (CompiledCircuit circuit_size gc cc).

Let rest_big cir : (two_adicity P < up_log 2 (size (gates cir)))%N -> rest cir = Panic.
Proof. by move=> big; rewrite /rest /domain_new leqNgt big. Qed.

(* For every circuit with at least one gate (and fewer than 2^bits: lengths are
   words), in both profiles, as long as the field's largest domain fits in a word. *)
Theorem C83_nonempty checked bits (cir : circuit F) :
  (two_adicity P < bits)%N -> (0 < size (gates cir) < 2 ^ bits)%N ->
  compile_machine P checked bits cir = compile P cir.
Proof.
move=> Sb; rewrite /compile_machine /compile -/(rest) /pad_circuit_machine /pad_circuit.
case Eg : (size (gates cir)) => [|m] //= lt; rewrite /padded_length /=.
rewrite /ilog2; case: eqP => [//|/eqP m0]; rewrite /= /word_shl1.
have m_gt0 : (0 < m)%N by rewrite lt0n.
have tl : (trunc_log 2 m < bits)%N.
  by rewrite -(ltn_exp2l _ _ (isT : (1 < 2)%N)); apply: leq_ltn_trans (trunc_logP _ m_gt0) (ltnW _).
case: ifP => lb; first by [].
have Eb : (trunc_log 2 m + 1)%N = bits by move: tl lb; clear; lia.
rewrite Eb.
have -> : rest (Circuit (gates cir ++ nseq (2 ^ bits - m.+1) (new_dummy_gate F))
   (vals_a cir) (vals_b cir) (vals_c cir)) = Panic.
  apply: rest_big; rewrite /= size_cat size_nseq Eg subnKC ?up_expnK //; exact: ltnW.
case: checked => //=; apply: rest_big.
rewrite /= size_cat size_nseq Eg modnn expn0 subSS sub0n addn0.
have -> : up_log 2 m.+1 = bits by rewrite up_log_trunc_log ?ltnS //= -addn1.
by [].
Qed.

(* The empty circuit: a panic with overflow checks; without them one row with no
   constraint is compiled (the padded length wraps around to one). *)
Theorem C83_empty bits : (0 < bits)%N -> fft_ok P -> 2%:R != 0 :> F -> 3%:R != 0 :> F ->
  compile_machine P true bits (circuit_default F) = Panic /\
  compile_machine P false bits (circuit_default F) =
  Ret (CompiledCircuit 1
    {| f_ax := [::]; f_bx := [::]; f_cx := [::]; q_lx := [::]; q_rx := [::];
       q_ox := [::]; q_mx := [::]; q_cx := [::]; pi_x := [::] |}
    (CopyConstraints [:: 1] [:: 2%:R] [:: 3%:R] 2%:R 3%:R)).
Proof.
move=> b0 ok n2 n3; split=> //.
rewrite /compile_machine /pad_circuit_machine /padded_length /= /ilog2 /=.
have p0 : (2 ^ bits - 1 == 0)%N = false.
  by apply/negbTE; rewrite subn_eq0 -ltnNge -{1}(expn0 2) ltn_exp2l.
rewrite p0 /=.
have -> : trunc_log 2 (2 ^ bits - 1) = bits.-1.
  apply: trunc_log_eq => //; rewrite prednK //; apply/andP; split; last by rewrite subn1 prednK ?expn_gt0.
  rewrite -{2}(prednK b0) expnS mul2n -addnn -addnBA ?expn_gt0 //; exact: leq_addr.
rewrite addn1 prednK // /word_shl1 ltnn modnn expn0 /=.
have w1 : root_of_unity P 0 = 1.
  by have := root_of_unity_prim ok (leq0n _); rewrite expn0 => /prim_expr_order; rewrite expr1.
rewrite /= /cal_permutation /= /domain_new /= w1 /=.
rewrite /interpolate /resize /peval /= invr1 !expr0 ?mul0r ?add0r ?mul1r ?mulr0 ?addr0.
have e3 : 1 + 1 + 1 = 3%:R :> F by rewrite -addrA.
rewrite /dom_element expr0 e3 -[1 + 1]/(2%:R) (negbTE n2) (negbTE n3) (negbTE (oner_neq0 F)).
by rewrite eqxx.
Qed.

(* In a release build the empty circuit compiles, but no proof is ever produced for
   it: whatever the blinders, the reference string and the digest, the prover
   does not return. *)
Theorem C83_empty_unprovable (E : pairing_group F) (X : plonk_env E) bits cc T b S pf :
  (0 < bits)%N -> fft_ok P -> 2%:R != 0 :> F -> 3%:R != 0 :> F -> pk_fft X = P ->
  compile_machine P false bits (circuit_default F) = Ret cc ->
  generate_proof X T b cc S <> Ret pf.
Proof.
move=> b0 ok n2 n3 EP; have [_ ->] := C83_empty b0 ok n2 n3; case=> <-.
suff bind_stop : forall A B (x : B) (m : outcome A) (k : A -> outcome B),
  (forall a, k a <> Ret x) -> obind m k <> Ret x.
  do 4!apply: (bind_stop) => ?.
  apply: (bind_stop) => -[[? ?] ?]; apply: (bind_stop) => -[? ?]; apply: (bind_stop) => ?.
  apply: (bind_stop) => -[? ?]; do 3!apply: (bind_stop) => ?; apply: (bind_stop) => -[? ?].
  do 7!apply: (bind_stop) => ?; apply: (bind_stop) => -[? ?].
  by rewrite [compute_linearisation_polynomial _ _ _ _ _ _ _ _ _ _ _ _ _ _ _ _ _ _ _]/=.
by move=> A B x [a k /(_ a)| |].
Qed.

(* The reference string: exact sizes when size + 3 fits in a word; otherwise (the
   three largest sizes) a panic, or at most two points. *)
Theorem C83_srs (E : pairing_group F) checked bits s n : (1 < bits)%N -> (n < 2 ^ bits)%N ->
  srs_new_machine checked bits E s n =
  if (n + 3 < 2 ^ bits)%N then Ret (srs_new_from_secret E s n)
  else if checked then Panic
  else Ret (Srs (take (n + 3 - 2 ^ bits) (srs_g1_points (srs_new_from_secret E s n)))
              (g2_gen E) (s *: g2_gen E)).
Proof.
move=> b1 lt; rewrite /srs_new_machine /word; case: ifP => [//|/negbT]; rewrite -leqNgt => ge.
case: checked => //=; congr (Ret (Srs _ _ _)).
have p4 : (4 <= 2 ^ bits)%N by rewrite (leq_exp2l 2 bits (isT : (1 < 2)%N)).
have -> : ((n + 3) %% 2 ^ bits)%N = (n + 3 - 2 ^ bits)%N.
  by rewrite -{1}(subnK ge) modnDr modn_small //; move: lt ge p4; clear; lia.
have tk : forall k m c, (k <= m)%N -> srs_points E s c k = take k (srs_points E s c m).
  by elim=> [|k IH] [|m] c //= le; rewrite -(IH m).
by apply: tk; rewrite leq_subr.
Qed.

(* Such a string commits to no polynomial with more than two coefficients. *)
Theorem C83_srs_useless (E : pairing_group F) bits s n S (p : seq F) : (1 < bits)%N ->
  (n < 2 ^ bits)%N -> (2 ^ bits <= n + 3)%N ->
  srs_new_machine false bits E s n = Ret S -> (2 < size p)%N -> last 0 p != 0 ->
  kzg_commit S p = Panic.
Proof.
move=> b1 lt ge; rewrite C83_srs // ltnNge ge /= => -[<-] sz lp.
rewrite /kzg_commit /evaluate_in_s /pdegree /=.
have -> : pis_zero p = false.
  by apply: contraNF lp; case: (p) => [|a q] //= /andP[/eqP-> /allP q0];
    case: (q) q0 => [|b r] // q0; rewrite /= (eqP (q0 _ (mem_last _ _))).
rewrite (negbTE lp) /= size_take; set m := size (srs_points _ _ _ _).
suff -> : ((size p).-1 < (if (n + 3 - 2 ^ bits < m)%N then (n + 3 - 2 ^ bits)%N else m))%N = false by [].
apply/negbTE; rewrite -leqNgt; apply: leq_trans (_ : n + 3 - 2 ^ bits <= _)%N; last first.
  by move: lt ge sz; clear; lia.
by case: ifP => // /negbT; rewrite -leqNgt.
Qed.
End C83.
