(* Model of the plonk crate: /repo/plonk/src/{gate,constraint,circuit,
   compiled_circuit,slice_polynomial,challenge,prover,verifier}.rs.
   Definitions only.  Polynomials are the stored coefficient lists
   (`DensePolynomial::coeffs`), lowest degree first. *)
From Coq Require Import String Ascii NArith.
Set Warnings "-notation-overridden,-ambiguous-paths".
From mathcomp Require Import all_ssreflect all_algebra.
From Verif Require Import Base ArkPoly ArkDomain ArkPolyFft KzgModel.

Set Implicit Arguments.
Unset Strict Implicit.
Unset Printing Implicit Defensive.

Import GRing.Theory.
Local Open Scope ring_scope.

(* The externals: constants of the scalar field's FFT domain, SHA-256,
   `serialize_uncompressed` of a G1 point, and the i-th `Fr::rand` drawn from
   `StdRng::seed_from_u64(seed)`. *)
Record plonk_env (F : fieldType) (E : pairing_group F) := PlonkEnv {
  pk_fft : fft_field F;
  pk_sha256 : bytes -> bytes;
  pk_ser_g1 : G1 E -> bytes;
  pk_rand : N -> nat -> F;
}.

(* gate.rs:6-11 *)
Inductive position := Dummy | Pos of nat & nat.

(* `self == Position::Dummy` *)
Definition is_dummy_pos (p : position) : bool := if p is Dummy then true else false.

(* gate.rs:15-34 *)
Record gate (F : Type) := Gate {
  a_pos : position;
  b_pos : position;
  c_pos : position;
  q_l : F;
  q_r : F;
  q_o : F;
  q_m : F;
  q_c : F;
  g_pi : F;
}.

(* circuit.rs `GateType` *)
Inductive gate_type := Addition | Multiplication | Constant.

(* circuit.rs:14-17; the three value columns `vals[0..3]` *)
Record circuit (F : Type) := Circuit {
  gates : seq (gate F);
  vals_a : seq F;
  vals_b : seq F;
  vals_c : seq F;
}.

(* constraint.rs:7-26 *)
Record gate_constraints (F : Type) := GateConstraints {
  f_ax : seq F;
  f_bx : seq F;
  f_cx : seq F;
  q_lx : seq F;
  q_rx : seq F;
  q_ox : seq F;
  q_mx : seq F;
  q_cx : seq F;
  pi_x : seq F;
}.

(* constraint.rs:87-98 *)
Record copy_constraints (F : Type) := CopyConstraints {
  s_sigma_1 : seq F;
  s_sigma_2 : seq F;
  s_sigma_3 : seq F;
  cc_k1 : F;
  cc_k2 : F;
}.

(* compiled_circuit.rs:5-11 *)
Record compiled_circuit (F : Type) := CompiledCircuit {
  cc_size : nat;
  cc_gate : gate_constraints F;
  cc_copy : copy_constraints F;
}.

(* slice_polynomial.rs:15-18 *)
Record slice_poly (F : Type) := SlicePoly {
  sl_slices : seq (seq F);
  sl_degree : nat;
}.

(* challenge.rs:16-22 *)
Record challenge_gen := ChallengeGen { cg_data : option bytes; cg_generated : bool }.

(* prover.rs:24-58 *)
Record proof (F : fieldType) (E : pairing_group F) := Proof {
  a_commit : G1 E;
  b_commit : G1 E;
  c_commit : G1 E;
  z_commit : G1 E;
  t_lo_commit : G1 E;
  t_mid_commit : G1 E;
  t_hi_commit : G1 E;
  w_ev_x_commit : G1 E;
  w_ev_wx_commit : G1 E;
  bar_a : F;
  bar_b : F;
  bar_c : F;
  bar_s_sigma_1 : F;
  bar_s_sigma_2 : F;
  bar_z_w : F;
  pf_u : F;
  pf_degree : nat;
}.

Section Gates.
Variable F : fieldType.
Implicit Types (a b c : position) (g : gate F).

(* gate.rs:38-55; `pi.unwrap_or(zero)` is the argument p *)
Definition new_add_gate a b c (p : F) : gate F :=
  {| a_pos := a; b_pos := b; c_pos := c;
     q_l := 1; q_r := 1; q_m := 0; q_o := -1; q_c := 0; g_pi := - p |}.

(* gate.rs:58-75 *)
Definition new_mul_gate a b c (p : F) : gate F :=
  {| a_pos := a; b_pos := b; c_pos := c;
     q_l := 0; q_r := 0; q_m := 1; q_o := -1; q_c := 0; g_pi := - p |}.

(* gate.rs:78-96 *)
Definition new_constant_gate a b c (constant p : F) : gate F :=
  {| a_pos := a; b_pos := b; c_pos := c;
     q_l := 1; q_r := 0; q_m := 0; q_o := 0; q_c := - constant; g_pi := - p |}.

(* gate.rs:99-111 *)
Definition new_dummy_gate : gate F :=
  {| a_pos := Dummy; b_pos := Dummy; c_pos := Dummy;
     q_l := 0; q_r := 0; q_m := 0; q_o := 0; q_c := 0; g_pi := 0 |}.

(* gate.rs:114-116 *)
Definition is_dummy_gate g : bool := is_dummy_pos (a_pos g).

End Gates.

Section Circuits.
Variables (F : fieldType) (P : fft_field F).

(* circuit.rs:19-30 *)
Definition circuit_default : circuit F := Circuit [::] [::] [::] [::].

(* a wire argument `(usize, usize, Fr)` *)
Definition wire : Type := (nat * nat * F)%type.
Definition wire_pos (w : wire) : position := Pos w.1.1 w.1.2.

(* circuit.rs:46-82; the `Arc::get_mut(..).unwrap()` cannot fail (the vectors
   are never shared) *)
Definition add_gate (cir : circuit F) (a b c : wire) (t : gate_type) (p : F) : circuit F :=
  let g := match t with
           | Addition => new_add_gate (wire_pos a) (wire_pos b) (wire_pos c) p
           | Multiplication => new_mul_gate (wire_pos a) (wire_pos b) (wire_pos c) p
           | Constant => new_constant_gate (wire_pos a) (wire_pos b) (wire_pos c) a.2 p
           end in
  Circuit (rcons (gates cir) g) (rcons (vals_a cir) a.2) (rcons (vals_b cir) b.2)
    (rcons (vals_c cir) c.2).

(* circuit.rs:85-115 *)
Definition add_addition_gate cir a b c p := add_gate cir a b c Addition p.
Definition add_multiplication_gate cir a b c p := add_gate cir a b c Multiplication p.
Definition add_constant_gate cir a b c p := add_gate cir a b c Constant p.

(* circuit.rs:118-145: one row (a, b, c, gate) per non-dummy gate; the nine
   vectors of the result map are the projections of the rows *)
Definition row : Type := (F * F * F * gate F)%type.
Fixpoint assignment_from (cir : circuit F) (i : nat) (gs : seq (gate F)) : outcome (seq row) :=
  if gs is g :: gs' then
    if is_dummy_gate g then assignment_from cir i.+1 gs'
    else
      a <- index_at (vals_a cir) i;;
      b <- index_at (vals_b cir) i;;
      c <- index_at (vals_c cir) i;;
      rs <- assignment_from cir i.+1 gs';;
      Ret ((a, b, c, g) :: rs)
  else Ret [::].
Definition get_assignment (cir : circuit F) : outcome (seq row) :=
  assignment_from cir 0 (gates cir).

(* circuit.rs:148-157, 160-163; `len - 1` underflows (panics with overflow
   checks) for len = 0 *)
Definition pad_circuit (cir : circuit F) : outcome (circuit F) :=
  let len := size (gates cir) in
  if len is len'.+1 then
    l <- ilog2 len';;
    let new_len := (2 ^ (l + 1))%N in
    Ret (Circuit (gates cir ++ nseq (new_len - len) (new_dummy_gate F))
           (vals_a cir) (vals_b cir) (vals_c cir))
  else Panic.

(* circuit.rs:238-245 *)
Definition find_cosets (roots : seq F) : outcome (seq F * seq F * F * F) :=
  r0 <- index_at roots 0;;
  let k1 := r0 + 1 in
  let k2 := k1 + 1 in
  Ret ([seq r * k1 | r <- roots], [seq r * k2 | r <- roots], k1, k2).

(* circuit.rs:216-223 *)
Definition map_element (roots coset1 coset2 : seq F) (p : position) : outcome F :=
  match p with
  | Pos 0 i => index_at roots i
  | Pos 1 i => index_at coset1 i
  | Pos 2 i => index_at coset2 i
  | _ => Panic
  end.

(* circuit.rs:206-228: the three vectors, as a list of triples (row `index`
   keeps the identity entries for a dummy gate) *)
Definition sigma_rows (roots coset1 coset2 : seq F) (gs : seq (gate F))
  : outcome (seq (F * F * F)) :=
  omapM (fun ig : nat * gate F =>
    let: (i, g) := ig in
    if is_dummy_gate g then
      Ret (nth 0 roots i, nth 0 coset1 i, nth 0 coset2 i)
    else
      a <- map_element roots coset1 coset2 (a_pos g);;
      b <- map_element roots coset1 coset2 (b_pos g);;
      c <- map_element roots coset1 coset2 (c_pos g);;
      Ret (a, b, c)) (zip (iota 0 (size gs)) gs).

(* circuit.rs:200-235 *)
Definition cal_permutation (cir : circuit F) : outcome (copy_constraints F) :=
  let len := size (gates cir) in
  dom <- unwrap (domain_new P len);;
  let roots := dom_elements dom in
  cs <- find_cosets roots;;
  let: (coset1, coset2, k1, k2) := cs in
  rows <- sigma_rows roots coset1 coset2 (gates cir);;
  Ret (CopyConstraints
    (interpolate dom [seq r.1.1 | r <- rows])
    (interpolate dom [seq r.1.2 | r <- rows])
    (interpolate dom [seq r.2 | r <- rows]) k1 k2).

(* circuit.rs:166-197; the result is never an `Err` *)
Definition compile (cir0 : circuit F) : outcome (compiled_circuit F) :=
  cir <- pad_circuit cir0;;
  let circuit_size := size (gates cir) in
  dom <- unwrap (domain_new P circuit_size);;
  rows <- get_assignment cir;;
  let interp (f : row -> F) := interpolate dom [seq f r | r <- rows] in
  let gc := {|
    f_ax := interp (fun r => r.1.1.1);
    f_bx := interp (fun r => r.1.1.2);
    f_cx := interp (fun r => r.1.2);
    q_lx := interp (fun r => q_l r.2);
    q_rx := interp (fun r => q_r r.2);
    q_ox := interp (fun r => q_o r.2);
    q_mx := interp (fun r => q_m r.2);
    q_cx := interp (fun r => q_c r.2);
    pi_x := interp (fun r => g_pi r.2) |} in
  cc <- cal_permutation cir;;
  Ret (CompiledCircuit circuit_size gc cc).

End Circuits.

Section Slices.
Variables (F : fieldType) (E : pairing_group F).

(* `coefficients.chunks(k)` for k > 0 *)
Fixpoint chunks_fuel (fuel k : nat) (s : seq F) : seq (seq F) :=
  if fuel is f.+1 then
    if s is [::] then [::] else take k s :: chunks_fuel f k (drop k s)
  else [::].

(* slice_polynomial.rs:22-43; `chunks(0)` panics; writing slice number 3 would
   be out of bounds *)
Definition slice_new (p : seq F) : outcome (slice_poly F) :=
  let len := size p in
  let tmp0 := (len %/ 3)%N in
  let tmp := (if tmp0 * 3 < len then tmp0 + 1 else tmp0)%N in
  _ <- oassert (tmp != 0)%N;;
  let ch := [seq trim c | c <- chunks_fuel len tmp p] in
  _ <- oassert (size ch <= 3)%N;;
  Ret (SlicePoly (ch ++ nseq (3 - size ch) [::]) (tmp - 1)).

(* slice_polynomial.rs:51-53 *)
Definition slice_commit (S : srs E) (sp : slice_poly F) : outcome (seq (G1 E)) :=
  omapM (kzg_commit S) (sl_slices sp).

(* slice_polynomial.rs:56-69; the sparse monomial X^k is evaluated to point^k *)
Definition slice_compact (sp : slice_poly F) (point : F) : outcome (seq F) :=
  let terms := [seq pscale (nth [::] (sl_slices sp) i) (point ^+ ((sl_degree sp + 1) * i))
               | i <- iota 0 (size (sl_slices sp))] in
  if terms is t :: ts then Ret (foldl (@padd F) t ts) else Panic.

End Slices.

Section Challenge.
Variables (F : fieldType) (E : pairing_group F) (X : plonk_env E).
(* the digest type parameter `T` *)
Variable H : bytes -> bytes.
Implicit Types (t : challenge_gen).

(* challenge.rs:15 (derive Default) *)
Definition cg_default : challenge_gen := ChallengeGen None false.

(* challenge.rs:49-58; several `update`s hash the concatenation *)
Definition cg_feed t (c : G1 E) : challenge_gen :=
  ChallengeGen (Some (H (odflt [::] (cg_data t) ++ pk_ser_g1 X c))) false.

(* challenge.rs:34-40 *)
Definition cg_from_commitments (cs : seq (G1 E)) : challenge_gen := foldl cg_feed cg_default cs.

(* challenge.rs:60-71: seed and updated generator; `data[..8]` panics on a
   shorter digest *)
Definition cg_seed t : outcome (N * challenge_gen) :=
  if cg_generated t then Panic
  else
    if cg_data t is Some d then
      if (size d < 8)%N then Panic
      else Ret (le_decode (take 8 d), ChallengeGen (cg_data t) true)
    else Panic.

(* challenge.rs:82-89 *)
Definition cg_challenges t (n : nat) : outcome (seq F * challenge_gen) :=
  st <- cg_seed t;;
  let: (seed, t') := st in
  Ret ([seq pk_rand X seed i | i <- iota 0 n], t').

(* `let [x] = challenge.generate_challenges()` *)
Definition cg_challenge1 t : outcome (F * challenge_gen) :=
  st <- cg_challenges t 1;;
  let: (cs, t') := st in Ret (nth 0 cs 0, t').

(* `let [x, y] = challenge.generate_challenges()` *)
Definition cg_challenge2 t : outcome (F * F * challenge_gen) :=
  st <- cg_challenges t 2;;
  let: (cs, t') := st in Ret (nth 0 cs 0, nth 0 cs 1, t').

End Challenge.

Section Prover.
Variables (F : fieldType) (E : pairing_group F) (X : plonk_env E).
Local Notation P := (pk_fft X).
Local Notation SHA := (pk_sha256 X).
Implicit Types (cc : compiled_circuit F) (dom : domain F) (p : seq F).

(* prover.rs:296-300 *)
Definition poly_sub_para p (para : F) : outcome (seq F) := padd_coeff0 p (- para).

(* prover.rs:317-334 *)
Definition acc_numerator cc (beta gamma w : F) : F :=
  let g := cc_gate cc in let k := cc_copy cc in
  (peval (f_ax g) w + beta * w + gamma) *
  (peval (f_bx g) w + beta * cc_k1 k * w + gamma) *
  (peval (f_cx g) w + beta * cc_k2 k * w + gamma).

(* prover.rs:336-365 *)
Definition acc_denominator cc (beta gamma w : F) : F :=
  let g := cc_gate cc in let k := cc_copy cc in
  (peval (f_ax g) w + beta * peval (s_sigma_1 k) w + gamma) *
  (peval (f_bx g) w + beta * peval (s_sigma_2 k) w + gamma) *
  (peval (f_cx g) w + beta * peval (s_sigma_3 k) w + gamma).

(* prover.rs:308-369: the vector acc_e *)
Definition acc_values (beta gamma : F) dom cc : outcome (seq F) :=
  let roots := dom_elements dom in
  st <- ofold (fun (st : seq F * F) i =>
          w <- unwrap (ohead (drop (i - 1) roots));;
          q <- fdiv (st.2 * acc_numerator cc beta gamma w) (acc_denominator cc beta gamma w);;
          Ret (rcons st.1 q, q))
        ([:: 1], 1) (iota 1 (cc_size cc - 1));;
  Ret st.1.

(* prover.rs:302-377; `rotate_left(1)` *)
Definition compute_acc (beta gamma : F) dom cc : outcome (seq F * seq F) :=
  acc_e <- acc_values beta gamma dom cc;;
  Ret (interpolate dom acc_e, interpolate dom (rot 1 acc_e)).

(* prover.rs:459-464 *)
Definition l1_poly dom : seq F := interpolate dom (1 :: nseq (dom_size dom - 1) 0).

(* prover.rs:446-455 followed by the caller's `.expect` *)
Definition divide_by_vanishing_poly dom p : outcome (seq F) :=
  let: (result, rest) := div_vanishing dom p in
  if pis_zero rest then Ret result else Panic.

(* prover.rs:396-401 *)
Definition quotient_line1 cc (ax bx cx : seq F) : outcome (seq F) :=
  let g := cc_gate cc in
  ab <- pmul P ax bx;;
  t1 <- pmul P ab (q_mx g);;
  t2 <- pmul P ax (q_lx g);;
  t3 <- pmul P bx (q_rx g);;
  t4 <- pmul P cx (q_ox g);;
  Ret (padd (padd (padd (padd (padd t1 t2) t3) t4) (pi_x g)) (q_cx g)).

(* prover.rs:406-409, also 516-530: the product of the three identity factors *)
Definition perm_num_poly cc (beta gamma : F) (ax bx cx : seq F) : outcome (seq F) :=
  let k := cc_copy cc in
  m1 <- pmul P (padd ax (trim [:: gamma; beta])) (padd bx (trim [:: gamma; beta * cc_k1 k]));;
  pmul P m1 (padd cx (trim [:: gamma; beta * cc_k2 k])).

(* prover.rs:412-424, also 534-546: the product of the three sigma factors *)
Definition perm_den_poly cc (beta gamma : F) (ax bx cx : seq F) : outcome (seq F) :=
  let k := cc_copy cc in
  m1 <- pmul P (padd (padd ax (pscale (s_sigma_1 k) beta)) (trim [:: gamma]))
               (padd (padd bx (pscale (s_sigma_2 k) beta)) (trim [:: gamma]));;
  pmul P m1 (padd (padd cx (pscale (s_sigma_3 k) beta)) (trim [:: gamma])).

(* prover.rs:381-444 *)
Definition compute_quotient_polynomial (beta gamma alpha : F) (ax bx cx z_x z_wx : seq F)
  dom cc : outcome (seq F) :=
  line1 <- quotient_line1 cc ax bx cx;;
  quotient1 <- divide_by_vanishing_poly dom line1;;
  m2 <- perm_num_poly cc beta gamma ax bx cx;;
  m2z <- pmul P m2 z_x;;
  let line2 := pscale m2z alpha in
  m3 <- perm_den_poly cc beta gamma ax bx cx;;
  m3z <- pmul P m3 z_wx;;
  let line3 := pscale m3z alpha in
  let line23 := psub line2 line3 in
  quotient23 <- divide_by_vanishing_poly dom line23;;
  zx2 <- padd_coeff0 z_x (-1);;
  m4 <- pmul P zx2 (l1_poly dom);;
  let line4 := pscale m4 (alpha * alpha) in
  quotient4 <- divide_by_vanishing_poly dom line4;;
  Ret (padd (padd quotient1 quotient23) quotient4).

(* prover.rs:469-568 *)
Definition compute_linearisation_polynomial (beta gamma alpha ec : F)
  (ba bb bc bs1 bs2 bzw pi_e : F) (tx_compact z_x ax bx cx z_wx : seq F) dom cc
  : outcome (seq F) :=
  let g := cc_gate cc in let k := cc_copy cc in
  let line1_0 := padd (padd (padd (padd (pscale (q_mx g) (ba * bb)) (pscale (q_lx g) ba))
                   (pscale (q_rx g) bb)) (pscale (q_ox g) bc)) (q_cx g) in
  line1 <- padd_coeff0 line1_0 pi_e;;
  let l2 := (ba + beta * ec + gamma) * (bb + beta * cc_k1 k * ec + gamma) *
            (bc + beta * cc_k2 k * ec + gamma) * alpha in
  let line2 := pscale z_x l2 in
  let l3 := (ba + beta * bs1 + gamma) * (bb + beta * bs2 + gamma) * bzw * alpha in
  tmp2 <- padd_coeff0 (pscale (s_sigma_3 k) beta) (bc + gamma);;
  let line3 := pscale tmp2 l3 in
  (* check *)
  n2 <- perm_num_poly cc beta gamma ax bx cx;;
  line22 <- pmul P (pscale n2 alpha) z_x;;
  n3 <- perm_den_poly cc beta gamma ax bx cx;;
  line32 <- pmul P (pscale n3 alpha) z_wx;;
  let diff2 := peval line32 ec - peval line22 ec in
  let cur := peval line3 ec - peval line2 ec in
  _ <- oassert (diff2 == cur);;
  let l1_e := peval (l1_poly dom) ec in
  zx2 <- padd_coeff0 z_x (-1);;
  let line4 := pscale (pscale zx2 l1_e) (alpha * alpha) in
  let line5 := pscale tx_compact (vanishing_at dom ec) in
  Ret (padd (padd (padd (padd line1 line2) (pneg line3)) line4) (pneg line5)).

(* prover.rs:214-245, 246-265: the `check` block and the division by X - z *)
Definition checked_div p (z : F) : outcome (seq F) :=
  qr <- divide_qr_lin p z;;
  _ <- oassert (qr.2 == [::]);;
  Ret qr.1.

(* prover.rs:214-227 *)
Definition opening_sum cc (r_x ax bx cx : seq F) (bar_r ba bb bc bs1 bs2 v : F)
  : outcome (seq F) :=
  let k := cc_copy cc in
  p0 <- poly_sub_para r_x bar_r;;
  p1 <- poly_sub_para ax ba;;
  p2 <- poly_sub_para bx bb;;
  p3 <- poly_sub_para cx bc;;
  p4 <- poly_sub_para (s_sigma_1 k) bs1;;
  p5 <- poly_sub_para (s_sigma_2 k) bs2;;
  Ret (padd (padd (padd (padd (padd p0 (pscale p1 v)) (pscale p2 (v * v)))
    (pscale p3 (v * v * v))) (pscale p4 (v * v * v * v))) (pscale p5 (v * v * v * v * v))).

(* prover.rs:83-90: a wire polynomial blinded by (b' + b X) Z_H *)
Definition blind_wire dom (f : seq F) (b b' : F) : seq F :=
  padd f (mul_vanishing dom (trim [:: b'; b])).

(* prover.rs:61-293.  `T` is the digest type parameter; `b i` is the blinder
   b_i drawn from the entropy generator, i = 1..9. *)
Definition generate_proof (T : bytes -> bytes) (b : nat -> F) cc (S : srs E)
  : outcome (proof E) :=
  let g := cc_gate cc in let k := cc_copy cc in
  (* round 1 *)
  dom <- unwrap (domain_new P (cc_size cc));;
  let ax := blind_wire dom (f_ax g) (b 1%N) (b 2%N) in
  let bx := blind_wire dom (f_bx g) (b 3%N) (b 4%N) in
  let cx := blind_wire dom (f_cx g) (b 5%N) (b 6%N) in
  a_c <- kzg_commit S ax;;
  b_c <- kzg_commit S bx;;
  c_c <- kzg_commit S cx;;
  (* round 2 *)
  let ch := cg_feed X SHA (cg_feed X SHA (cg_feed X SHA cg_default a_c) b_c) c_c in
  bg <- cg_challenge2 X ch;;
  let: (beta, gamma, ch) := bg in
  let w := dom_element dom 1 in
  let pre4 := mul_vanishing dom (trim [:: b 9%N; b 8%N; b 7%N]) in
  let pre4w := mul_vanishing dom (trim [:: b 9%N; b 8%N * w; b 7%N * dom_element dom 2]) in
  acc <- compute_acc beta gamma dom cc;;
  let: (acc_x, acc_wx) := acc in
  let z_x := padd pre4 acc_x in
  let z_wx := padd pre4w acc_wx in
  z_c <- kzg_commit S z_x;;
  (* round 3 *)
  let ch := cg_feed X SHA ch z_c in
  al <- cg_challenge1 X ch;;
  let: (alpha, ch) := al in
  tx <- compute_quotient_polynomial beta gamma alpha ax bx cx z_x z_wx dom cc;;
  sp <- slice_new tx;;
  tcs <- slice_commit S sp;;
  let t_lo := nth 0 tcs 0 in let t_mid := nth 0 tcs 1 in let t_hi := nth 0 tcs 2 in
  (* round 4 *)
  let ch := cg_feed X SHA (cg_feed X SHA (cg_feed X SHA ch t_lo) t_mid) t_hi in
  ev <- cg_challenge1 X ch;;
  let: (ec, ch) := ev in
  let ba := peval ax ec in
  let bb := peval bx ec in
  let bc := peval cx ec in
  let bs1 := peval (s_sigma_1 k) ec in
  let bs2 := peval (s_sigma_2 k) ec in
  let bzw := peval z_x (ec * w) in
  let pi_e := peval (pi_x g) ec in
  tx_compact <- slice_compact sp ec;;
  (* round 5 *)
  p1 <- kzg_commit_para S ba;;
  p2 <- kzg_commit_para S bb;;
  p3 <- kzg_commit_para S bc;;
  p4 <- kzg_commit_para S bs1;;
  p5 <- kzg_commit_para S bs2;;
  p6 <- kzg_commit_para S bzw;;
  let ch := foldl (cg_feed X SHA) ch [:: p1; p2; p3; p4; p5; p6] in
  vv <- cg_challenge1 X ch;;
  let: (v, ch) := vv in
  r_x <- compute_linearisation_polynomial beta gamma alpha ec ba bb bc bs1 bs2 bzw pi_e
           tx_compact z_x ax bx cx z_wx dom cc;;
  let bar_r := peval r_x ec in
  ws <- opening_sum cc r_x ax bx cx bar_r ba bb bc bs1 bs2 v;;
  w_ev_x <- checked_div ws ec;;
  wz <- poly_sub_para z_x bzw;;
  w_ev_wx <- checked_div wz (ec * w);;
  w_c <- kzg_commit S w_ev_x;;
  ww_c <- kzg_commit S w_ev_wx;;
  let ch := cg_feed X SHA (cg_feed X SHA ch w_c) ww_c in
  uu <- cg_challenge1 X ch;;
  let: (u, ch) := uu in
  Ret {|
    a_commit := a_c; b_commit := b_c; c_commit := c_c; z_commit := z_c;
    t_lo_commit := t_lo; t_mid_commit := t_mid; t_hi_commit := t_hi;
    w_ev_x_commit := w_c; w_ev_wx_commit := ww_c;
    bar_a := ba; bar_b := bb; bar_c := bc;
    bar_s_sigma_1 := bs1; bar_s_sigma_2 := bs2; bar_z_w := bzw;
    pf_u := u; pf_degree := sl_degree sp |}.

(* verifier.rs:188-220; `T` is the digest; the result is
   (alpha, beta, gamma, evaluation_challenge, v, u) *)
Definition verify_challenges (T : bytes -> bytes) (S : srs E) (pf : proof E)
  : outcome (F * F * F * F * F * F) :=
  let ch := cg_from_commitments X T [:: a_commit pf; b_commit pf; c_commit pf] in
  bg <- cg_challenge2 X ch;;
  let: (beta, gamma, ch) := bg in
  let ch := cg_feed X T ch (z_commit pf) in
  al <- cg_challenge1 X ch;;
  let: (alpha, ch) := al in
  let ch := cg_feed X T (cg_feed X T (cg_feed X T ch (t_lo_commit pf)) (t_mid_commit pf))
              (t_hi_commit pf) in
  ev <- cg_challenge1 X ch;;
  let: (ec, ch) := ev in
  p1 <- kzg_commit_para S (bar_a pf);;
  p2 <- kzg_commit_para S (bar_b pf);;
  p3 <- kzg_commit_para S (bar_c pf);;
  p4 <- kzg_commit_para S (bar_s_sigma_1 pf);;
  p5 <- kzg_commit_para S (bar_s_sigma_2 pf);;
  p6 <- kzg_commit_para S (bar_z_w pf);;
  let ch := foldl (cg_feed X T) ch [:: p1; p2; p3; p4; p5; p6] in
  vv <- cg_challenge1 X ch;;
  let: (v, ch) := vv in
  let ch := cg_feed X T (cg_feed X T ch (w_ev_x_commit pf)) (w_ev_wx_commit pf) in
  uu <- cg_challenge1 X ch;;
  let: (u, ch) := uu in
  Ret (alpha, beta, gamma, ec, v, u).

(* verifier.rs:160-185: commitments to (q_m, q_l, q_r, q_o, q_c, s1, s2, s3) *)
Definition get_circuit_commitment cc (S : srs E) : outcome (seq (G1 E)) :=
  let g := cc_gate cc in let k := cc_copy cc in
  omapM (kzg_commit S)
    [:: q_mx g; q_lx g; q_rx g; q_ox g; q_cx g; s_sigma_1 k; s_sigma_2 k; s_sigma_3 k].

(* verifier.rs:55-61 *)
Definition ver_r0 (pf : proof E) (alpha beta gamma l_1_e p_i_e : F) : F :=
  p_i_e - l_1_e * alpha * alpha -
  alpha * (bar_a pf + bar_s_sigma_1 pf * beta + gamma) *
  (bar_b pf + bar_s_sigma_2 pf * beta + gamma) * (bar_c pf + gamma) * bar_z_w pf.

(* verifier.rs:66-102 *)
Definition ver_d cc (cs : seq (G1 E)) (pf : proof E) (alpha beta gamma ec u z_h_e l_1_e : F)
  : G1 E :=
  let k := cc_copy cc in
  let q_m_c := nth 0 cs 0 in let q_l_c := nth 0 cs 1 in let q_r_c := nth 0 cs 2 in
  let q_o_c := nth 0 cs 3 in let q_c_c := nth 0 cs 4 in let s_sigma_3_c := nth 0 cs 7 in
  let d_line1 :=
    com_add (com_add (com_add (com_add (com_mul q_m_c (bar_a pf * bar_b pf))
      (com_mul q_l_c (bar_a pf))) (com_mul q_r_c (bar_b pf))) (com_mul q_o_c (bar_c pf))) q_c_c in
  let d_line2 := com_mul (z_commit pf)
    ((bar_a pf + beta * ec + gamma) * (bar_b pf + beta * cc_k1 k * ec + gamma) *
     (bar_c pf + beta * cc_k2 k * ec + gamma) * alpha + l_1_e * alpha * alpha + u) in
  let d_line3 := com_mul s_sigma_3_c
    ((bar_a pf + beta * bar_s_sigma_1 pf + gamma) *
     (bar_b pf + beta * bar_s_sigma_2 pf + gamma) * alpha * beta * bar_z_w pf) in
  let d_line4 := com_mul
    (com_add (com_add (t_lo_commit pf) (com_mul (t_mid_commit pf) (ec ^+ (pf_degree pf + 1))))
      (com_mul (t_hi_commit pf) (ec ^+ (pf_degree pf * 2 + 2)))) z_h_e in
  com_sub (com_sub (com_add d_line1 d_line2) d_line3) d_line4.

(* verifier.rs:107-112 *)
Definition ver_f (cs : seq (G1 E)) (pf : proof E) (d : G1 E) (v : F) : G1 E :=
  let s_sigma_1_c := nth 0 cs 5 in let s_sigma_2_c := nth 0 cs 6 in
  com_add (com_add (com_add (com_add (com_add d (com_mul (a_commit pf) v))
    (com_mul (b_commit pf) (v * v))) (com_mul (c_commit pf) (v * v * v)))
    (com_mul s_sigma_1_c (v * v * v * v))) (com_mul s_sigma_2_c (v * v * v * v * v)).

(* verifier.rs:116-122 *)
Definition ver_e (pf : proof E) (r_0 v u : F) : F :=
  - r_0 + v * bar_a pf + v * v * bar_b pf + v * v * v * bar_c pf +
  v * v * v * v * bar_s_sigma_1 pf + v * v * v * v * v * bar_s_sigma_2 pf + u * bar_z_w pf.

(* verifier.rs:19-157 *)
Definition verify (T : bytes -> bytes) cc (S : srs E) (pf : proof E) : outcome unit :=
  cs <- get_circuit_commitment cc S;;
  chs <- verify_challenges T S pf;;
  let: (alpha, beta, gamma, ec, v, u) := chs in
  if u != pf_u pf then Err "Verify: Challenge verification failed."
  else
    dom <- unwrap (domain_new P (cc_size cc));;
    let w := dom_element dom 1 in
    let z_h_e := ec ^+ dom_size dom - 1 in
    l_1_e <- fdiv z_h_e ((cc_size cc)%:R * (ec - 1));;
    let p_i_e := peval (pi_x (cc_gate cc)) ec in
    let r_0 := ver_r0 pf alpha beta gamma l_1_e p_i_e in
    let d := ver_d cc cs pf alpha beta gamma ec u z_h_e l_1_e in
    let f := ver_f cs pf d v in
    e <- kzg_commit_para S (ver_e pf r_0 v u);;
    let left := com_add (w_ev_x_commit pf) (com_mul (w_ev_wx_commit pf) u) in
    let right := com_sub (com_add (com_add (com_mul (w_ev_x_commit pf) ec)
                   (com_mul (w_ev_wx_commit pf) (u * ec * w))) f) e in
    if @pairing F E left (srs_g2s S) != @pairing F E right (srs_g2 S)
    then Err "Verify: Pairing failed, rejected"
    else Ret tt.

End Prover.
