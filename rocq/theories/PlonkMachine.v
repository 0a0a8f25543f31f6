(* The PLONK verifier with machine integers.  PlonkModel.verify computes the two
   exponents made from the proof's degree field with unbounded naturals; here they
   are computed on words of a given number of bits (64 in the code), as built with
   overflow checks (debug profile: panic) or without (release profile: wrap
   around).  Definitions only. *)
From Coq Require Import String Ascii NArith.
Set Warnings "-notation-overridden,-ambiguous-paths".
From mathcomp Require Import all_ssreflect all_algebra.
From Verif Require Import Base ArkPoly ArkDomain ArkPolyFft KzgModel PlonkModel.

Set Implicit Arguments.
Unset Strict Implicit.
Unset Printing Implicit Defensive.

Import GRing.Theory.
Local Open Scope ring_scope.

Section Machine.
Variables (F : fieldType) (E : pairing_group F) (X : plonk_env E) (checked : bool) (bits : nat).
Local Notation P := (pk_fft X).

(* verifier.rs:66-102 for given exponents of the two upper quotient parts *)
Definition ver_d_exp (cc : compiled_circuit F) (cs : seq (G1 E)) (pf : proof E)
  (alpha beta gamma ec u z_h_e l_1_e : F) (e_mid e_hi : nat) : G1 E :=
  let k := cc_copy cc in
  let q_m_c := nth 0 cs 0 in let q_l_c := nth 0 cs 1 in let q_r_c := nth 0 cs 2 in
  let q_o_c := nth 0 cs 3 in let q_c_c := nth 0 cs 4 in let s_sigma_3_c := nth 0 cs 7 in
  let d_line1 :=
    com_add (com_add (com_add (com_add (com_mul q_m_c (bar_a pf * bar_b pf))
      (com_mul q_l_c (bar_a pf))) (com_mul q_r_c (bar_b pf))) (com_mul q_o_c (bar_c pf))) q_c_c in
  let d_line2 := com_mul (z_commit pf)
    ((bar_a pf + beta * ec + gamma) * (bar_b pf + beta * cc_k1 k * ec + gamma) *
     (bar_c pf + beta * cc_k2 k * ec + gamma) * alpha + l_1_e * alpha * alpha + u) in
  let d_line3 := com_mul s_sigma_3_c
    ((bar_a pf + beta * bar_s_sigma_1 pf + gamma) *
     (bar_b pf + beta * bar_s_sigma_2 pf + gamma) * alpha * beta * bar_z_w pf) in
  let d_line4 := com_mul
    (com_add (com_add (t_lo_commit pf) (com_mul (t_mid_commit pf) (ec ^+ e_mid)))
      (com_mul (t_hi_commit pf) (ec ^+ e_hi))) z_h_e in
  com_sub (com_sub (com_add d_line1 d_line2) d_line3) d_line4.

(* verifier.rs:19-157; the exponents are those of verifier.rs:96 and 99 *)
Definition verify_machine (T : bytes -> bytes) cc (S : srs E) (pf : proof E) : outcome unit :=
  cs <- get_circuit_commitment cc S;;
  chs <- verify_challenges X T S pf;;
  let: (alpha, beta, gamma, ec, v, u) := chs in
  if u != pf_u pf then Err "Verify: Challenge verification failed."
  else
    dom <- unwrap (domain_new P (cc_size cc));;
    let w := dom_element dom 1 in
    let z_h_e := ec ^+ dom_size dom - 1 in
    l_1_e <- fdiv z_h_e ((cc_size cc)%:R * (ec - 1));;
    let p_i_e := peval (pi_x (cc_gate cc)) ec in
    let r_0 := ver_r0 pf alpha beta gamma l_1_e p_i_e in
    e_mid <- word checked bits (pf_degree pf + 1);;
    twice <- word checked bits (pf_degree pf * 2);;
    e_hi <- word checked bits (twice + 2);;
    let d := ver_d_exp cc cs pf alpha beta gamma ec u z_h_e l_1_e e_mid e_hi in
    let f := ver_f cs pf d v in
    e <- kzg_commit_para S (ver_e pf r_0 v u);;
    let left := com_add (w_ev_x_commit pf) (com_mul (w_ev_wx_commit pf) u) in
    let right := com_sub (com_add (com_add (com_mul (w_ev_x_commit pf) ec)
                   (com_mul (w_ev_wx_commit pf) (u * ec * w))) f) e in
    if @pairing F E left (srs_g2s S) != @pairing F E right (srs_g2 S)
    then Err "Verify: Pairing failed, rejected"
    else Ret tt.

End Machine.

(* Sizes on machine words: padding, compilation and the reference string. *)
Section Sizes.
Variables (F : fieldType) (P : fft_field F) (checked : bool) (bits : nat).

(* `n - 1` on usize: a panic or the largest word for n = 0 *)
Definition word_pred (n : nat) : outcome nat :=
  if n is n'.+1 then Ret n' else if checked then Panic else Ret (2 ^ bits - 1)%N.

(* `1 << e` on usize with e : u32.  For e >= bits: a panic, or (release) a shift
   by e modulo the number of bits *)
Definition word_shl1 (e : nat) : outcome nat :=
  if (e < bits)%N then Ret (2 ^ e)%N else if checked then Panic else Ret (2 ^ (e %% bits))%N.

(* circuit.rs:149-153 and cpi_circuit.rs:173-175: the padded length *)
Definition padded_length (len : nat) : outcome nat :=
  m <- word_pred len;;
  l <- ilog2 m;;
  word_shl1 (l + 1).

(* circuit.rs:148-157 *)
Definition pad_circuit_machine (cir : circuit F) : outcome (circuit F) :=
  let len := size (gates cir) in
  new_len <- padded_length len;;
  Ret (Circuit (gates cir ++ nseq (new_len - len) (new_dummy_gate F))
         (vals_a cir) (vals_b cir) (vals_c cir)).

(* circuit.rs:166-197 *)
Definition compile_machine (cir0 : circuit F) : outcome (compiled_circuit F) :=
  cir <- pad_circuit_machine cir0;;
  let circuit_size := size (gates cir) in
  dom <- unwrap (domain_new P circuit_size);;
  rows <- get_assignment cir;;
  let interp (f : row F -> F) := interpolate dom [seq f r | r <- rows] in
  let gc := {|
    f_ax := interp (fun r => r.1.1.1);
    f_bx := interp (fun r => r.1.1.2);
    f_cx := interp (fun r => r.1.2);
    q_lx := interp (fun r => q_l r.2);
    q_rx := interp (fun r => q_r r.2);
    q_ox := interp (fun r => q_o r.2);
    q_mx := interp (fun r => q_m r.2);
    q_cx := interp (fun r => q_c r.2);
    pi_x := interp (fun r => g_pi r.2) |} in
  cc <- cal_permutation P cir;;
  Ret (CompiledCircuit circuit_size gc cc).

(* srs.rs:48-69; the allocation itself is not modelled (a length that does not
   fit in memory aborts or panics in both profiles) *)
Definition srs_new_machine (E : pairing_group F) (secret : F) (circuit_size : nat)
  : outcome (srs E) :=
  n <- word checked bits (circuit_size + 3);;
  Ret (Srs (srs_points E secret 1 n) (g2_gen E) (secret *: g2_gen E)).

End Sizes.
