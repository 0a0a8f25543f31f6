(* Specification vocabulary for the PLONK soundness and forgery properties. *)
From Coq Require Import String Ascii NArith.
Set Warnings "-notation-overridden,-ambiguous-paths".
From mathcomp Require Import all_ssreflect all_algebra.
From Verif Require Import Base ArkPoly ArkDomain KzgModel KzgSpec PlonkModel PlonkSpec.

Set Implicit Arguments.
Unset Strict Implicit.
Unset Printing Implicit Defensive.

Import GRing.Theory.
Local Open Scope ring_scope.

(* ------------------------------------------------------------------ *)
(* The public inputs of a circuit, and the same circuit with others. *)
Section PublicInputs.
Variable F : fieldType.
Implicit Types (calls : seq (gate_call F)) (ps : seq F).

Definition publics calls : seq F := [seq call_pi g | g <- calls].
Definition with_publics calls ps : seq (gate_call F) :=
  [seq GateCall (call_type gp.1) (call_a gp.1) (call_b gp.1) (call_c gp.1) gp.2 | gp <- zip calls ps].

(* value at zeta of the polynomial with the public inputs on the domain *)
Definition public_value (n : nat) (w : F) ps (zeta : F) : F :=
  \sum_(i < size ps) nth 0 ps i * (lagrange n w i).[zeta].

End PublicInputs.

(* ------------------------------------------------------------------ *)
(* What a circuit asks of an assignment of its wire slots: the relation of each
   call (a constant gate's constant is the value it was built with), and equal
   values for slots linked by the stored positions. *)
Section Satisfaction.
Variable F : fieldType.
Implicit Types (calls : seq (gate_call F)) (g : gate_call F) (val : slot -> F).

Definition relation_holds g (a b c : F) : Prop :=
  match call_type g with
  | Addition => a + b = c + call_pi g
  | Multiplication => a * b = c + call_pi g
  | Constant => a = (call_a g).2 + call_pi g
  end.

Definition satisfies calls (n : nat) val : Prop :=
  (forall g0 i, (i < size calls)%N ->
     relation_holds (nth g0 calls i) (val (0%N, i)) (val (1%N, i)) (val (2%N, i))) /\
  (forall x, x \in slots n -> val (slot_pos calls x) = val x).

(* the assignment read off three polynomials on the domain *)
Definition values_of (w : F) (A B C : {poly F}) (x : slot) : F := (nth C [:: A; B] x.1).[w ^+ x.2].

End Satisfaction.

(* ------------------------------------------------------------------ *)
(* The messages of a prover that computes its group elements from the reference
   string: the polynomials behind the nine commitments. *)
Record messages (F : fieldType) := Messages {
  ms_A : {poly F}; ms_B : {poly F}; ms_C : {poly F};
  ms_Z : {poly F};
  ms_Tlo : {poly F}; ms_Tmid : {poly F}; ms_Thi : {poly F};
  ms_W : {poly F}; ms_Ww : {poly F};
}.

(* the messages are commitments of pf, with at most N coefficients each *)
Definition explains (F : fieldType) (E : pairing_group F) (s : F) (N : nat)
  (M : messages F) (pf : proof E) : Prop :=
  [/\ [/\ commitment_of E s (ms_A M) = a_commit pf, commitment_of E s (ms_B M) = b_commit pf
        & commitment_of E s (ms_C M) = c_commit pf],
      commitment_of E s (ms_Z M) = z_commit pf,
      [/\ commitment_of E s (ms_Tlo M) = t_lo_commit pf, commitment_of E s (ms_Tmid M) = t_mid_commit pf
        & commitment_of E s (ms_Thi M) = t_hi_commit pf],
      commitment_of E s (ms_W M) = w_ev_x_commit pf /\ commitment_of E s (ms_Ww M) = w_ev_wx_commit pf
    & all (fun f : {poly F} => (size f <= N)%N)
        [:: ms_A M; ms_B M; ms_C M; ms_Z M; ms_Tlo M; ms_Tmid M; ms_Thi M; ms_W M; ms_Ww M]].

(* ------------------------------------------------------------------ *)
(* The ways a proof of a false statement can be accepted, one per challenge.
   Each is an unlucky value of one challenge, judged from what was fixed before
   that challenge was drawn. *)
Section Events.
Variables (F : fieldType) (n : nat) (w : F) (cc : compiled_circuit F).
Local Notation k := (cc_copy cc).
Local Notation k1 := (cc_k1 k).
Local Notation k2 := (cc_k2 k).
Local Notation s1 := (Poly (s_sigma_1 k)).
Local Notation s2 := (Poly (s_sigma_2 k)).
Local Notation s3 := (Poly (s_sigma_3 k)).
Local Notation pi := (Poly (pi_x (cc_gate cc))).
Variable M : messages F.
Local Notation A := (ms_A M).
Local Notation B := (ms_B M).
Local Notation C := (ms_C M).
Local Notation Z := (ms_Z M).

(* beta, gamma: fixed before are the wire polynomials.  A copy constraint fails
   although the two products over all slots agree. *)
Definition bad_beta_gamma (calls : seq (gate_call F)) (beta gamma : F) : Prop :=
  let val := values_of w A B C in
  (exists2 x, x \in slots n & val (slot_pos calls x) <> val x) /\
  \prod_(x <- slots n) (val x + beta * slot_code w x + gamma) =
  \prod_(x <- slots n) (val x + beta * slot_code w (slot_pos calls x) + gamma).

(* alpha: fixed before are moreover beta, gamma and Z.  Some row has a non-zero
   constraint although in all rows their combination is zero. *)
Definition row_constraints (beta gamma : F) (i : nat) : seq F :=
  [:: (gate_poly cc A B C).[w ^+ i]; (perm_poly w cc beta gamma A B C Z).[w ^+ i];
      ((Z - 1) * lagrange n w 0).[w ^+ i]].
Definition combine (v : F) (es : seq F) : F := \sum_(i < size es) v ^+ i * nth 0 es i.
Definition bad_alpha (beta gamma alpha : F) : Prop :=
  (exists2 i, (i < n)%N & exists2 e, e \in row_constraints beta gamma i & e <> 0) /\
  (forall i, (i < n)%N -> combine alpha (row_constraints beta gamma i) = 0).

(* zeta: fixed before are moreover alpha and the three parts of the quotient
   (d is one more than the proof's degree field).  The quotient equation fails
   as a polynomial identity but holds at zeta. *)
Definition quotient_gap (beta gamma alpha : F) (d : nat) : {poly F} :=
  gate_poly cc A B C + alpha *: perm_poly w cc beta gamma A B C Z
  + (alpha ^+ 2) *: ((Z - 1) * lagrange n w 0)
  - ZH F n * (ms_Tlo M + 'X^d * ms_Tmid M + 'X^(2 * d) * ms_Thi M).
Definition bad_zeta (beta gamma alpha : F) (d : nat) (zeta : F) : Prop :=
  quotient_gap beta gamma alpha d <> 0 /\ (quotient_gap beta gamma alpha d).[zeta] = 0.

(* v: fixed before are moreover zeta and the six values of the proof.  Some
   claimed value is wrong although the combination of the errors is zero. *)
Variables (beta gamma alpha zeta a b c e1 e2 zw : F) (d : nat).
Definition lin_poly : {poly F} :=
  lin_gate cc a b c + (pi.[zeta])%:P
  + (alpha * (a + beta * zeta + gamma) * (b + beta * k1 * zeta + gamma) *
      (c + beta * k2 * zeta + gamma)) *: Z
  - (alpha * (a + beta * e1 + gamma) * (b + beta * e2 + gamma) * zw) *: (beta *: s3 + (c + gamma)%:P)
  + (alpha ^+ 2 * (lagrange n w 0).[zeta]) *: (Z - 1)
  - (ZH F n).[zeta] *: (ms_Tlo M + (zeta ^+ d) *: ms_Tmid M + (zeta ^+ (2 * d)) *: ms_Thi M).
Definition value_errors : seq F :=
  [:: lin_poly.[zeta]; A.[zeta] - a; B.[zeta] - b; C.[zeta] - c; s1.[zeta] - e1; s2.[zeta] - e2].
Definition bad_v (v : F) : Prop :=
  (exists2 e, e \in value_errors & e <> 0) /\ combine v value_errors = 0.

(* u: fixed before are moreover v and the two opening polynomials.  One of the
   two opening identities fails although their combination holds. *)
Definition opening_gap (v : F) : {poly F} :=
  ('X - zeta%:P) * ms_W M
  - (lin_poly + v *: (A - a%:P) + (v ^+ 2) *: (B - b%:P) + (v ^+ 3) *: (C - c%:P)
     + (v ^+ 4) *: (s1 - e1%:P) + (v ^+ 5) *: (s2 - e2%:P)).
Definition shifted_gap : {poly F} := ('X - (zeta * w)%:P) * ms_Ww M - (Z - zw%:P).
Definition bad_u (v u : F) : Prop :=
  (opening_gap v <> 0 \/ shifted_gap <> 0) /\ opening_gap v + u *: shifted_gap = 0.

(* the trapdoor: it is a root of the non-zero difference of the two sides of
   the combined opening identity, a polynomial the prover can compute *)
Definition bad_trapdoor (v u s : F) : Prop :=
  let f := opening_gap v + u *: shifted_gap in f <> 0 /\ f.[s] = 0.

End Events.

(* ------------------------------------------------------------------ *)
(* The interactive protocol behind the code: the verifier sends the challenges
   instead of deriving them from a transcript.  The six challenges and the secret
   of the reference string, in the order in which they are drawn. *)
Definition coins (F : Type) : Type := (F * F * F * F * F * F * F)%type.

(* the equation the verifier checks, for given challenges *)
Section EquationAt.
Variables (F : fieldType) (E : pairing_group F) (P : fft_field F) (cc : compiled_circuit F).
Variables (r : coins F) (pf : proof E).
Local Notation n := (cc_size cc).
Local Notation w := (omega_of P cc).
Local Notation g := (cc_gate cc).
Local Notation k := (cc_copy cc).
Local Notation a := (bar_a pf).
Local Notation b := (bar_b pf).
Local Notation c := (bar_c pf).
Local Notation s1 := (bar_s_sigma_1 pf).
Local Notation s2 := (bar_s_sigma_2 pf).
Local Notation zw := (bar_z_w pf).
Local Notation d := (pf_degree pf).+1.

Definition equation_at : bool :=
  let: (beta, gamma, alpha, zeta, v, u, s) := r in
  let com p := commitment_of E s (Poly p) in
  let L1 := (zeta ^+ n - 1) / (n%:R * (zeta - 1)) in
  let D := (a * b) *: com (q_mx g) + a *: com (q_lx g) + b *: com (q_rx g) + c *: com (q_ox g) + com (q_cx g)
    + (alpha * (a + beta * zeta + gamma) * (b + beta * cc_k1 k * zeta + gamma) *
         (c + beta * cc_k2 k * zeta + gamma) + alpha ^+ 2 * L1 + u) *: z_commit pf
    - (alpha * beta * (a + beta * s1 + gamma) * (b + beta * s2 + gamma) * zw) *: com (s_sigma_3 k)
    - (zeta ^+ n - 1) *: (t_lo_commit pf + zeta ^+ d *: t_mid_commit pf + zeta ^+ (2 * d) *: t_hi_commit pf) in
  let r0 := (Poly (pi_x g)).[zeta] - alpha ^+ 2 * L1
    - alpha * (a + beta * s1 + gamma) * (b + beta * s2 + gamma) * (c + gamma) * zw in
  let FF := D + v *: a_commit pf + v ^+ 2 *: b_commit pf + v ^+ 3 *: c_commit pf
    + v ^+ 4 *: com (s_sigma_1 k) + v ^+ 5 *: com (s_sigma_2 k) in
  let e := - r0 + v * a + v ^+ 2 * b + v ^+ 3 * c + v ^+ 4 * s1 + v ^+ 5 * s2 + u * zw in
  (s - zeta) *: w_ev_x_commit pf + (u * (s - zeta * w)) *: w_ev_wx_commit pf == FF - e *: g1_gen E.

(* the interactive verifier: it rejects (the code panics) at zeta = 1 and when the
   proof repeats a wrong last challenge *)
Definition accepts_at : bool :=
  let: (beta, gamma, alpha, zeta, v, u, s) := r in
  [&& pf_u pf == u, zeta != 1 & equation_at].

End EquationAt.

(* A prover that computes its group elements from the points of the reference
   string: each message is a function of the challenges seen so far, a polynomial
   where a group element is sent. *)
Record strategy (F : fieldType) := Strategy {
  st_A : {poly F}; st_B : {poly F}; st_C : {poly F};
  st_Z : F -> F -> {poly F};
  st_Tlo : F -> F -> F -> {poly F}; st_Tmid : F -> F -> F -> {poly F}; st_Thi : F -> F -> F -> {poly F};
  st_a : F -> F -> F -> F -> F; st_b : F -> F -> F -> F -> F; st_c : F -> F -> F -> F -> F;
  st_s1 : F -> F -> F -> F -> F; st_s2 : F -> F -> F -> F -> F; st_zw : F -> F -> F -> F -> F;
  st_W : F -> F -> F -> F -> F -> {poly F}; st_Ww : F -> F -> F -> F -> F -> {poly F};
  st_degree : F -> F -> F -> F -> F -> F -> nat;
}.

(* the messages and the proof of a run *)
Definition run_messages (F : fieldType) (S : strategy F) (beta gamma alpha zeta v : F) : messages F := {|
  ms_A := st_A S; ms_B := st_B S; ms_C := st_C S; ms_Z := st_Z S beta gamma;
  ms_Tlo := st_Tlo S beta gamma alpha; ms_Tmid := st_Tmid S beta gamma alpha;
  ms_Thi := st_Thi S beta gamma alpha;
  ms_W := st_W S beta gamma alpha zeta v; ms_Ww := st_Ww S beta gamma alpha zeta v |}.
Definition run_proof (F : fieldType) (E : pairing_group F) (S : strategy F) (r : coins F) : proof E :=
  let: (beta, gamma, alpha, zeta, v, u, s) := r in
  let com (p : {poly F}) := commitment_of E s p in
  {| a_commit := com (st_A S); b_commit := com (st_B S); c_commit := com (st_C S);
     z_commit := com (st_Z S beta gamma);
     t_lo_commit := com (st_Tlo S beta gamma alpha); t_mid_commit := com (st_Tmid S beta gamma alpha);
     t_hi_commit := com (st_Thi S beta gamma alpha);
     w_ev_x_commit := com (st_W S beta gamma alpha zeta v);
     w_ev_wx_commit := com (st_Ww S beta gamma alpha zeta v);
     bar_a := st_a S beta gamma alpha zeta; bar_b := st_b S beta gamma alpha zeta;
     bar_c := st_c S beta gamma alpha zeta; bar_s_sigma_1 := st_s1 S beta gamma alpha zeta;
     bar_s_sigma_2 := st_s2 S beta gamma alpha zeta; bar_z_w := st_zw S beta gamma alpha zeta;
     pf_u := u; pf_degree := st_degree S beta gamma alpha zeta v u |}.

(* at most N coefficients in every polynomial, degree fields below D *)
Definition strategy_bounded (F : fieldType) (N D : nat) (S : strategy F) : Prop :=
  forall beta gamma alpha zeta v u,
  let M := run_messages S beta gamma alpha zeta v in
  all (fun f : {poly F} => (size f <= N)%N)
    [:: ms_A M; ms_B M; ms_C M; ms_Z M; ms_Tlo M; ms_Tmid M; ms_Thi M; ms_W M; ms_Ww M] /\
  (st_degree S beta gamma alpha zeta v u < D)%N.

(* the soundness error, times the number of field elements: n rows, N points of the
   reference string, degree fields below D *)
Definition error_values (n N D : nat) : nat :=
  (3 * n) ^ 2 + 3 * n + 2 + D * maxn (4 * N) (n + N + 2 * D) + 5 * D + D + N.
