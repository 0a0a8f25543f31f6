(* Specification vocabulary for the PLONK properties: circuits as lists of
   gate-adding calls, Fiat-Shamir challenges as a hash chain, and the PLONK
   protocol written with polynomials ({poly F}) instead of coefficient lists. *)
From Coq Require Import String Ascii NArith.
Set Warnings "-notation-overridden,-ambiguous-paths".
From mathcomp Require Import all_ssreflect all_algebra.
From Verif Require Import Base ArkPoly ArkDomain KzgModel KzgSpec PlonkModel.

Set Implicit Arguments.
Unset Strict Implicit.
Unset Printing Implicit Defensive.

Import GRing.Theory.
Local Open Scope ring_scope.

(* ------------------------------------------------------------------ *)
(* Circuits as the user builds them: a list of calls of the three public
   gate-adding functions on an initially empty circuit. *)
Record gate_call (F : Type) := GateCall {
  call_type : gate_type;
  call_a : nat * nat * F;
  call_b : nat * nat * F;
  call_c : nat * nat * F;
  call_pi : F;
}.

Section CircuitSpec.
Variable F : fieldType.
Implicit Types (calls : seq (gate_call F)) (g : gate_call F).

Definition apply_call (cir : circuit F) g : circuit F :=
  match call_type g with
  | Addition => add_addition_gate cir (call_a g) (call_b g) (call_c g) (call_pi g)
  | Multiplication => add_multiplication_gate cir (call_a g) (call_b g) (call_c g) (call_pi g)
  | Constant => add_constant_gate cir (call_a g) (call_b g) (call_c g) (call_pi g)
  end.
Definition build calls : circuit F := foldl apply_call (circuit_default F) calls.

(* PLONK's gate equation of a gate for wire values a, b, c:
   q_M a b + q_L a + q_R b + q_O c + PI + q_C. *)
Definition gate_value (g : gate F) (a b c : F) : F :=
  q_m g * a * b + q_l g * a + q_r g * b + q_o g * c + g_pi g + q_c g.

(* The relation a call states between its wire values and its public input.
   (A constant gate compares its first wire with that wire's own value.) *)
Definition call_holds g : bool :=
  match call_type g with
  | Addition => (call_a g).2 + (call_b g).2 == (call_c g).2 + call_pi g
  | Multiplication => (call_a g).2 * (call_b g).2 == (call_c g).2 + call_pi g
  | Constant => (call_a g).2 == (call_a g).2 + call_pi g
  end.

(* The wire of call g in column l (0, 1, 2). *)
Definition call_wire g (l : nat) : nat * nat * F :=
  nth (call_c g) [:: call_a g; call_b g] l.

(* A wire slot is (column, row).  Value and stored position of a slot; rows
   beyond the calls are padding: value 0, position the slot itself. *)
Definition slot : Type := (nat * nat)%type.
Definition slot_value calls (x : slot) : F :=
  if ohead (drop x.2 calls) is Some g then (call_wire g x.1).2 else 0.
Definition slot_pos calls (x : slot) : slot :=
  if ohead (drop x.2 calls) is Some g then (call_wire g x.1).1 else x.

(* The slots of a circuit with n rows. *)
Definition slots (n : nat) : seq slot := [seq (l, i) | l <- iota 0 3, i <- iota 0 n].

(* All stored positions are slots. *)
Definition positions_ok calls (n : nat) : bool :=
  all (fun x => slot_pos calls x \in slots n) (slots n).

(* The stored positions permute the slots. *)
Definition positions_permute calls (n : nat) : bool :=
  perm_eq [seq slot_pos calls x | x <- slots n] (slots n).

(* Copy constraints: each slot has the value of the slot its position names. *)
Definition copies_hold calls (n : nat) : bool :=
  all (fun x => slot_value calls (slot_pos calls x) == slot_value calls x) (slots n).

(* Field code of a slot: (column + 1) times the row-th root of unity. *)
Definition slot_code (w : F) (x : slot) : F := (x.1.+1)%:R * w ^+ x.2.

End CircuitSpec.

(* ------------------------------------------------------------------ *)
(* Challenges: the hash chain of the commitments fed so far, its first eight
   bytes as the seed of the generator. *)
Section ChallengeSpec.
Variables (F : fieldType) (E : pairing_group F) (X : plonk_env E) (H : bytes -> bytes).

Definition digest_long : Prop := forall b, (8 <= size (H b))%N.

Definition fs_chain (cs : seq (G1 E)) : bytes :=
  foldl (fun d c => H (d ++ pk_ser_g1 X c)) [::] cs.
Definition fs_challenge (cs : seq (G1 E)) (i : nat) : F :=
  pk_rand X (le_decode (take 8 (fs_chain cs))) i.

(* What has been fed before each challenge of a proof. *)
Implicit Types (pf : proof E).
Definition fed1 pf := [:: a_commit pf; b_commit pf; c_commit pf].
Definition fed2 pf := fed1 pf ++ [:: z_commit pf].
Definition fed3 pf := fed2 pf ++ [:: t_lo_commit pf; t_mid_commit pf; t_hi_commit pf].
Definition fed4 pf := fed3 pf ++
  [seq y *: g1_gen E | y <- [:: bar_a pf; bar_b pf; bar_c pf; bar_s_sigma_1 pf;
                                bar_s_sigma_2 pf; bar_z_w pf]].
Definition fed5 pf := fed4 pf ++ [:: w_ev_x_commit pf; w_ev_wx_commit pf].

Definition ch_beta pf := fs_challenge (fed1 pf) 0.
Definition ch_gamma pf := fs_challenge (fed1 pf) 1.
Definition ch_alpha pf := fs_challenge (fed2 pf) 0.
Definition ch_zeta pf := fs_challenge (fed3 pf) 0.
Definition ch_v pf := fs_challenge (fed4 pf) 0.
Definition ch_u pf := fs_challenge (fed5 pf) 0.

(* Call histories of a challenge generator: feeding a commitment, drawing n
   challenges. *)
Inductive cg_op := CFeed of G1 E | CDraw of nat.

Fixpoint cg_run (t : challenge_gen) (ops : seq cg_op) : outcome (seq (seq F) * challenge_gen) :=
  match ops with
  | [::] => Ret ([::], t)
  | CFeed c :: ops' =>
      '(outs, t2) <- cg_run (cg_feed X H t c) ops';;
      Ret ([::] :: outs, t2)
  | CDraw n :: ops' =>
      '(out, t1) <- cg_challenges X t n;;
      '(outs, t2) <- cg_run t1 ops';;
      Ret (out :: outs, t2)
  end.

(* the commitments fed by a history *)
Definition cg_fed (ops : seq cg_op) : seq (G1 E) :=
  pmap (fun o => if o is CFeed c then Some c else None) ops.

(* some draw is the first call or directly follows another draw *)
Definition draws_hungry (ops : seq cg_op) : Prop :=
  exists pre n post, ops = pre ++ CDraw n :: post /\
    (pre = [::] \/ exists pre' n', pre = rcons pre' (CDraw n')).

(* the strings hashed when a list of commitments is fed *)
Fixpoint fs_inputs (d : bytes) (cs : seq (G1 E)) : seq bytes :=
  if cs is c :: cs' then (d ++ pk_ser_g1 X c) :: fs_inputs (H (d ++ pk_ser_g1 X c)) cs' else [::].

End ChallengeSpec.

(* ------------------------------------------------------------------ *)
(* Compiled circuits as they come out of `compile`: stored polynomials have no
   trailing zeros and at most `size` coefficients, and the size is a power of
   two for which the field has a domain. *)
Definition stored_polys (F : Type) (cc : compiled_circuit F) : seq (seq F) :=
  let g := cc_gate cc in let k := cc_copy cc in
  [:: f_ax g; f_bx g; f_cx g; q_lx g; q_rx g; q_ox g; q_mx g; q_cx g; pi_x g;
      s_sigma_1 k; s_sigma_2 k; s_sigma_3 k].
Definition wf_compiled (F : fieldType) (P : fft_field F) (cc : compiled_circuit F) : bool :=
  [&& all (fun p => (trim p == p) && (size p <= cc_size cc)%N) (stored_polys cc),
      cc_size cc == (2 ^ up_log 2 (cc_size cc))%N & (up_log 2 (cc_size cc) <= two_adicity P)%N].

(* The generator of the size-n domain. *)
Definition omega_of (F : fieldType) (P : fft_field F) (cc : compiled_circuit F) : F :=
  root_of_unity P (up_log 2 (cc_size cc)).

(* ------------------------------------------------------------------ *)
(* The protocol with polynomials. *)
Section Protocol.
Variables (F : fieldType) (n : nat) (w : F).

(* Z_H *)
Definition ZH : {poly F} := 'X^n - 1.

(* the i-th Lagrange polynomial of the domain {1, w, ..., w^(n-1)} *)
Definition lagrange (i : nat) : {poly F} :=
  \prod_(j < n | val j != i) ((w ^+ i - w ^+ j)^-1 *: ('X - (w ^+ j)%:P)).

(* the polynomial with values e 0, e 1, ... on the domain *)
Definition interp (e : nat -> F) : {poly F} := \sum_(i < n) e i *: lagrange i.

Variable cc : compiled_circuit F.
Local Notation g := (cc_gate cc).
Local Notation k := (cc_copy cc).
Local Notation k1 := (cc_k1 k).
Local Notation k2 := (cc_k2 k).
Local Notation f_a := (Poly (f_ax g)).
Local Notation f_b := (Poly (f_bx g)).
Local Notation f_c := (Poly (f_cx g)).
Local Notation ql := (Poly (q_lx g)).
Local Notation qr := (Poly (q_rx g)).
Local Notation qo := (Poly (q_ox g)).
Local Notation qm := (Poly (q_mx g)).
Local Notation qc := (Poly (q_cx g)).
Local Notation pi := (Poly (pi_x g)).
Local Notation s1 := (Poly (s_sigma_1 k)).
Local Notation s2 := (Poly (s_sigma_2 k)).
Local Notation s3 := (Poly (s_sigma_3 k)).

(* the gate constraint of three wire polynomials *)
Definition gate_poly (A B C : {poly F}) : {poly F} :=
  A * B * qm + A * ql + B * qr + C * qo + pi + qc.

(* numerator and denominator of the permutation argument at row i *)
Definition perm_num (beta gamma : F) (i : nat) : F :=
  let x := w ^+ i in
  (f_a.[x] + beta * x + gamma) * (f_b.[x] + beta * k1 * x + gamma) *
  (f_c.[x] + beta * k2 * x + gamma).
Definition perm_den (beta gamma : F) (i : nat) : F :=
  let x := w ^+ i in
  (f_a.[x] + beta * s1.[x] + gamma) * (f_b.[x] + beta * s2.[x] + gamma) *
  (f_c.[x] + beta * s3.[x] + gamma).

(* the permutation constraint *)
Definition perm_poly (beta gamma : F) (A B C z : {poly F}) : {poly F} :=
  (A + beta *: 'X + gamma%:P) * (B + (beta * k1) *: 'X + gamma%:P) *
    (C + (beta * k2) *: 'X + gamma%:P) * z
  - (A + beta *: s1 + gamma%:P) * (B + beta *: s2 + gamma%:P) *
    (C + beta *: s3 + gamma%:P) * (z \Po (w *: 'X)).

(* blinded wire polynomials *)
Variable b : nat -> F.
Definition wireA : {poly F} := f_a + ((b 2)%:P + (b 1) *: 'X) * ZH.
Definition wireB : {poly F} := f_b + ((b 4)%:P + (b 3) *: 'X) * ZH.
Definition wireC : {poly F} := f_c + ((b 6)%:P + (b 5) *: 'X) * ZH.

(* the permutation polynomial *)
Definition permZ (beta gamma : F) : {poly F} :=
  interp (fun i => \prod_(j < i) (perm_num beta gamma j / perm_den beta gamma j))
  + ((b 9)%:P + (b 8) *: 'X + (b 7) *: 'X^2) * ZH.

(* numerator of the quotient polynomial, and the quotient *)
Definition constraint_poly (beta gamma alpha : F) : {poly F} :=
  let z := permZ beta gamma in
  gate_poly wireA wireB wireC + alpha *: perm_poly beta gamma wireA wireB wireC z
  + (alpha ^+ 2) *: ((z - 1) * lagrange 0).
Definition quotient_poly (beta gamma alpha : F) : {poly F} :=
  constraint_poly beta gamma alpha %/ ZH.

(* its three slices of d coefficients each *)
Definition slice_len (t : {poly F}) : nat := ((size t + 2) %/ 3)%N.
Definition slice_of (t : {poly F}) (i : nat) : {poly F} :=
  \poly_(j < slice_len t) t`_(i * slice_len t + j).

(* the linearisation polynomial *)
Definition lin_gate (ba bb bc : F) : {poly F} :=
  (ba * bb) *: qm + ba *: ql + bb *: qr + bc *: qo + qc.
Definition linearisation (beta gamma alpha zeta : F) : {poly F} :=
  let z := permZ beta gamma in
  let t := quotient_poly beta gamma alpha in
  let d := slice_len t in
  let ba := wireA.[zeta] in let bb := wireB.[zeta] in let bc := wireC.[zeta] in
  let bzw := z.[zeta * w] in
  lin_gate ba bb bc + (pi.[zeta])%:P
  + (alpha * (ba + beta * zeta + gamma) * (bb + beta * k1 * zeta + gamma) *
      (bc + beta * k2 * zeta + gamma)) *: z
  - (alpha * (ba + beta * s1.[zeta] + gamma) * (bb + beta * s2.[zeta] + gamma) * bzw)
      *: (beta *: s3 + (bc + gamma)%:P)
  + (alpha ^+ 2 * (lagrange 0).[zeta]) *: (z - 1)
  - (ZH.[zeta]) *: (slice_of t 0 + (zeta ^+ d) *: slice_of t 1 + (zeta ^+ (2 * d)) *: slice_of t 2).

(* the two opening quotients *)
Definition openW (beta gamma alpha zeta v : F) : {poly F} :=
  let open (f : {poly F}) := f - (f.[zeta])%:P in
  (open (linearisation beta gamma alpha zeta) + v *: open wireA + (v ^+ 2) *: open wireB +
   (v ^+ 3) *: open wireC + (v ^+ 4) *: open s1 + (v ^+ 5) *: open s2) %/ ('X - zeta%:P).
Definition openWw (beta gamma zeta : F) : {poly F} :=
  let z := permZ beta gamma in
  (z - (z.[zeta * w])%:P) %/ ('X - (zeta * w)%:P).

End Protocol.

(* ------------------------------------------------------------------ *)
(* The honest run: commitments under the secret s, challenges by SHA-256. *)
Section HonestRun.
Variables (F : fieldType) (E : pairing_group F) (X : plonk_env E).
Variables (cc : compiled_circuit F) (b : nat -> F) (s : F).
Local Notation n := (cc_size cc).
Local Notation w := (omega_of (pk_fft X) cc).
Local Notation com f := (commitment_of E s f).
Local Notation chal cs i := (fs_challenge X (pk_sha256 X) cs i).
Local Notation sg1 y := (y *: g1_gen E).

Definition hr_A := wireA n cc b.
Definition hr_B := wireB n cc b.
Definition hr_C := wireC n cc b.
Definition hr_fed1 := [:: com hr_A; com hr_B; com hr_C].
Definition hr_beta := chal hr_fed1 0.
Definition hr_gamma := chal hr_fed1 1.
Definition hr_z := permZ n w cc b hr_beta hr_gamma.
Definition hr_fed2 := hr_fed1 ++ [:: com hr_z].
Definition hr_alpha := chal hr_fed2 0.
Definition hr_t := quotient_poly n w cc b hr_beta hr_gamma hr_alpha.
Definition hr_fed3 := hr_fed2 ++ [seq com (slice_of hr_t i) | i <- [:: 0%N; 1%N; 2%N]].
Definition hr_zeta := chal hr_fed3 0.
Definition hr_bars := [:: hr_A.[hr_zeta]; hr_B.[hr_zeta]; hr_C.[hr_zeta];
  (Poly (s_sigma_1 (cc_copy cc))).[hr_zeta]; (Poly (s_sigma_2 (cc_copy cc))).[hr_zeta];
  hr_z.[hr_zeta * w]].
Definition hr_fed4 := hr_fed3 ++ [seq sg1 y | y <- hr_bars].
Definition hr_v := chal hr_fed4 0.
Definition hr_r := linearisation n w cc b hr_beta hr_gamma hr_alpha hr_zeta.
Definition hr_W := openW n w cc b hr_beta hr_gamma hr_alpha hr_zeta hr_v.
Definition hr_Ww := openWw n w cc b hr_beta hr_gamma hr_zeta.
Definition hr_fed5 := hr_fed4 ++ [:: com hr_W; com hr_Ww].
Definition hr_u := chal hr_fed5 0.

(* the proof of the honest run *)
Definition honest_proof : proof E := {|
  a_commit := com hr_A; b_commit := com hr_B; c_commit := com hr_C; z_commit := com hr_z;
  t_lo_commit := com (slice_of hr_t 0); t_mid_commit := com (slice_of hr_t 1);
  t_hi_commit := com (slice_of hr_t 2);
  w_ev_x_commit := com hr_W; w_ev_wx_commit := com hr_Ww;
  bar_a := nth 0 hr_bars 0; bar_b := nth 0 hr_bars 1; bar_c := nth 0 hr_bars 2;
  bar_s_sigma_1 := nth 0 hr_bars 3; bar_s_sigma_2 := nth 0 hr_bars 4;
  bar_z_w := nth 0 hr_bars 5;
  pf_u := hr_u; pf_degree := slice_len hr_t - 1 |}.

(* The witness satisfies the compiled circuit at the drawn challenges: the
   gate constraint holds on the domain, and the permutation product is 1
   (checked by the code only when alpha is not zero). *)
Definition rows_hold : bool :=
  all (fun i => (gate_poly cc (Poly (f_ax (cc_gate cc))) (Poly (f_bx (cc_gate cc)))
                   (Poly (f_cx (cc_gate cc)))).[w ^+ i] == 0) (iota 0 n).
Definition product_holds : bool :=
  \prod_(i < n) perm_num w cc hr_beta hr_gamma i ==
  \prod_(i < n) perm_den w cc hr_beta hr_gamma i.

(* Accidents that make the code panic: a zero denominator before the last row,
   beta = 0, or a polynomial whose first coefficient the code addresses being
   the zero polynomial. *)
Definition no_accident : bool :=
  [&& all (fun i => perm_den w cc hr_beta hr_gamma i != 0) (iota 0 n.-1),
      hr_beta != 0, Poly (s_sigma_1 (cc_copy cc)) != 0, Poly (s_sigma_2 (cc_copy cc)) != 0,
      Poly (s_sigma_3 (cc_copy cc)) != 0, hr_A != 0, hr_B != 0, hr_C != 0, hr_t != 0,
      lin_gate cc hr_A.[hr_zeta] hr_B.[hr_zeta] hr_C.[hr_zeta] != 0 & hr_r != 0].

End HonestRun.

(* ------------------------------------------------------------------ *)
(* The verifier's equation, in the notation of the protocol. *)
Section VerifierSpec.
Variables (F : fieldType) (E : pairing_group F) (X : plonk_env E).
Variables (cc : compiled_circuit F) (s : F) (T : bytes -> bytes) (pf : proof E).
Local Notation n := (cc_size cc).
Local Notation w := (omega_of (pk_fft X) cc).
Local Notation com p := (commitment_of E s (Poly p)).
Local Notation g := (cc_gate cc).
Local Notation k := (cc_copy cc).
Local Notation a := (bar_a pf).
Local Notation b := (bar_b pf).
Local Notation c := (bar_c pf).
Local Notation s1 := (bar_s_sigma_1 pf).
Local Notation s2 := (bar_s_sigma_2 pf).
Local Notation zw := (bar_z_w pf).
Local Notation beta := (ch_beta X T pf).
Local Notation gamma := (ch_gamma X T pf).
Local Notation alpha := (ch_alpha X T pf).
Local Notation zeta := (ch_zeta X T pf).
Local Notation v := (ch_v X T pf).
Local Notation u := (ch_u X T pf).
Local Notation d := (pf_degree pf).+1.

(* value of the first Lagrange polynomial *)
Definition vs_lagrange : F := (zeta ^+ n - 1) / (n%:R * (zeta - 1)).
(* [D]: the linearised relation *)
Definition vs_D : G1 E :=
  (a * b) *: com (q_mx g) + a *: com (q_lx g) + b *: com (q_rx g) + c *: com (q_ox g) + com (q_cx g)
  + (alpha * (a + beta * zeta + gamma) * (b + beta * cc_k1 k * zeta + gamma) *
       (c + beta * cc_k2 k * zeta + gamma) + alpha ^+ 2 * vs_lagrange + u) *: z_commit pf
  - (alpha * beta * (a + beta * s1 + gamma) * (b + beta * s2 + gamma) * zw) *: com (s_sigma_3 k)
  - (zeta ^+ n - 1) *: (t_lo_commit pf + zeta ^+ d *: t_mid_commit pf + zeta ^+ (2 * d) *: t_hi_commit pf).
(* its constant part *)
Definition vs_r0 : F :=
  (Poly (pi_x g)).[zeta] - alpha ^+ 2 * vs_lagrange
  - alpha * (a + beta * s1 + gamma) * (b + beta * s2 + gamma) * (c + gamma) * zw.
Definition vs_F : G1 E :=
  vs_D + v *: a_commit pf + v ^+ 2 *: b_commit pf + v ^+ 3 *: c_commit pf
  + v ^+ 4 *: com (s_sigma_1 k) + v ^+ 5 *: com (s_sigma_2 k).
Definition vs_e : F :=
  - vs_r0 + v * a + v ^+ 2 * b + v ^+ 3 * c + v ^+ 4 * s1 + v ^+ 5 * s2 + u * zw.

Definition verifier_equation : bool :=
  (s - zeta) *: w_ev_x_commit pf + (u * (s - zeta * w)) *: w_ev_wx_commit pf
  == vs_F - vs_e *: g1_gen E.

End VerifierSpec.
