(* Model of the string front ends of the plonk crate:
   /repo/plonk/src/parser.rs and
   /repo/plonk/src/common_preprocessed_input/{cpi_parser,cpi_circuit}.rs.
   Definitions only.  Strings are ASCII: non-ASCII input is not modelled. *)
From Coq Require Import String Ascii NArith ZArith.
Set Warnings "-notation-overridden,-ambiguous-paths".
From mathcomp Require Import all_ssreflect all_algebra.
From Verif Require Import Base ArkPoly ArkDomain ArkPolyFft KzgModel PlonkModel.

Set Implicit Arguments.
Unset Strict Implicit.
Unset Printing Implicit Defensive.

Import GRing.Theory.
Local Open Scope ring_scope.

(* ------------------------------------------------------------------ *)
(* String functions of the Rust standard library, for ASCII strings. *)

(* `char::is_numeric` *)
Definition is_digit (c : ascii) : bool := (48 <=? N_of_ascii c)%num && (N_of_ascii c <=? 57)%num.
Definition is_upper (c : ascii) : bool := (65 <=? N_of_ascii c)%num && (N_of_ascii c <=? 90)%num.
(* `str::to_lowercase` *)
Definition lower_char (c : ascii) : ascii :=
  if is_upper c then ascii_of_N (N_of_ascii c + 32) else c.
Definition to_lowercase (s : bytes) : bytes := map lower_char s.

(* `char::is_whitespace`, `str::trim` *)
Definition is_space (c : ascii) : bool :=
  (N_of_ascii c =? 32)%num || ((9 <=? N_of_ascii c)%num && (N_of_ascii c <=? 13)%num).
Fixpoint trim_start (s : bytes) : bytes :=
  if s is c :: s' then if is_space c then trim_start s' else s else [::].
Definition str_trim (s : bytes) : bytes := rev (trim_start (rev (trim_start s))).

(* `str::split(c)` *)
Fixpoint split_on (c : ascii) (s : bytes) : seq bytes :=
  if s is d :: s' then
    if d == c then [::] :: split_on c s'
    else if split_on c s' is p :: ps then (d :: p) :: ps else [:: [:: d]]
  else [:: [::]].

(* `str::parse::<i32>()`: optional sign, at least one digit, within range *)
Definition digit_val (c : ascii) : N := (N_of_ascii c - 48)%num.
Definition digits_val (s : bytes) : N := foldl (fun a c => (10 * a + digit_val c)%num) 0%num s.
Definition parse_digits (s : bytes) : option N :=
  if (s != [::]) && all is_digit s then Some (digits_val s) else None.
Definition parse_i32 (s : bytes) : option Z :=
  let unsigned (neg : bool) (t : bytes) :=
    if parse_digits t is Some n then
      let z := if neg then Z.opp (Z.of_N n) else Z.of_N n in
      if Z.leb (Z.opp (Z.of_N 2147483648%num)) z && Z.leb z (Z.of_N 2147483647%num) then Some z else None
    else None in
  match s with
  | c :: t => if c == "-"%char then unsigned true t
              else if c == "+"%char then unsigned false t
              else unsigned false s
  | [::] => None
  end.

(* `i32::to_string` *)
Fixpoint dec_fuel (fuel : nat) (n : N) : bytes :=
  let d := ascii_of_N (48 + N.modulo n 10) in
  if fuel is f.+1 then
    if (n <? 10)%num then [:: d] else rcons (dec_fuel f (N.div n 10)) d
  else [:: d].
Definition dec_N (n : N) : bytes := dec_fuel (N.size_nat n) n.
Definition i32_to_string (z : Z) : bytes :=
  match z with
  | Zneg p => "-"%char :: dec_N (Npos p)
  | _ => dec_N (Z.to_N z)
  end.

(* ------------------------------------------------------------------ *)
(* parser.rs:373-415 parse_string (and cpi_parser.rs:378-420 normalize, the
   same text) *)
Record norm_state := NormState {
  ns_result : bytes; ns_last : ascii; ns_buffer : bytes; ns_flag : bool }.

(* `for _ in 0..number_buffer.parse::<i32>().unwrap() - 1 { push('*'); push(last) }`;
   an empty range when the bound is negative *)
Definition push_power (result : bytes) (last : ascii) (buffer : bytes) : outcome bytes :=
  k <- unwrap (parse_i32 buffer);;
  Ret (result ++ flatten (nseq (Z.to_nat (Z.pred k)) [:: "*"%char; last])).

(* one iteration of the loop, parser.rs:379-406 *)
Definition norm_step (st : norm_state) (c : ascii) : outcome norm_state :=
  let: NormState result last buffer flag := st in
  if c == " "%char then Ret st
  else if c == "^"%char then Ret (NormState result last buffer true)
  else if ~~ is_digit c then
    '(result, flag) <-
      (if flag then
         if buffer != [::] then r <- push_power result last buffer;; Ret (r, false)
         else Panic
       else Ret (result, flag));;
    Ret (NormState (rcons result c) c [::] flag)
  else
    let buffer := rcons buffer c in
    if ~~ flag then Ret (NormState (rcons result c) c buffer flag)
    else Ret (NormState result last buffer flag).

Definition parse_string (s : bytes) : outcome bytes :=
  st <- ofold norm_step (NormState [::] " "%char [::] false) (to_lowercase s);;
  if ns_flag st && (ns_buffer st != [::])
  then push_power (ns_result st) (ns_last st) (ns_buffer st)
  else Ret (ns_result st).

(* ------------------------------------------------------------------ *)
(* Gate lists under construction.  V is the type of a wire's value: the field
   for parser.rs, unit for cpi_parser.rs (whose wires carry only a string). *)
Section GateList.
Variable V : eqType.

(* parser.rs:46-59, cpi_parser.rs:47-57: value_string, value_fr *)
Definition pwire : Type := (bytes * V)%type.

(* parser.rs:19-38, cpi_parser.rs:23-45 *)
Record pgate := PGate {
  pg_left : pwire; pg_right : pwire; pg_bottom : pwire; pg_type : gate_type }.

(* derived PartialEq *)
Definition type_eqb (s t : gate_type) : bool :=
  match s, t with
  | Addition, Addition | Multiplication, Multiplication | Constant, Constant => true
  | _, _ => false
  end.
Definition pgate_eqb (g h : pgate) : bool :=
  [&& pg_left g == pg_left h, pg_right g == pg_right h, pg_bottom g == pg_bottom h
    & type_eqb (pg_type g) (pg_type h)].

(* HashMap<String, Vec<(usize, usize)>> as an association list (never iterated
   in an order-sensitive way) *)
Definition pos_map : Type := seq (bytes * seq (nat * nat)).
Fixpoint pm_get (m : pos_map) (k : bytes) : option (seq (nat * nat)) :=
  if m is (k', v) :: m' then if k' == k then Some v else pm_get m' k else None.
Fixpoint pm_set (m : pos_map) (k : bytes) (v : seq (nat * nat)) : pos_map :=
  if m is (k', v') :: m' then if k' == k then (k', v) :: m' else (k', v') :: pm_set m' k v
  else [:: (k, v)].

(* parser.rs:350-365, cpi_parser.rs:355-370 *)
Definition push_position (wire_number gate_number : nat) (m : pos_map) (value : bytes) : pos_map :=
  if pm_get m value is Some v then pm_set m value (rcons v (wire_number, gate_number))
  else pm_set m value [:: (wire_number, gate_number)].

(* the three RefCells of prepare_gen_circuit / prepare_generation *)
Record pstate := PState { ps_list : seq pgate; ps_set : seq pgate; ps_pos : pos_map }.
Definition pstate0 : pstate := PState [::] [::] [::].

(* the common tail of the three gate-producing functions: skip a gate already
   in the set, else append it and record its three positions.
   parser.rs:139-165, 263-276, 292-305; cpi_parser.rs:171-199, 295-307, 327-339 *)
Definition emit (st : pstate) (g : pgate) : pstate :=
  let gate_number := size (ps_list st) in
  if has (fun h => pgate_eqb h g) (ps_set st) then st
  else
    let m0 := push_position 0 gate_number (ps_pos st) (pg_left g).1 in
    let m1 := push_position 1 gate_number m0 (pg_right g).1 in
    let m2 := push_position 2 gate_number m1 (pg_bottom g).1 in
    PState (rcons (ps_list st) g) (rcons (ps_set st) g) m2.

(* `vec.reverse(); vec.rotate_right(1)`; rotate_right(1) panics on an empty
   vector, which never occurs in a position map (modelled by identity).
   parser.rs:202-209, cpi_parser.rs:231-238 *)
Definition turn (v : seq (nat * nat)) : seq (nat * nat) := rotr 1 (rev v).
Definition turn_map (m : pos_map) : pos_map := [seq (kv.1, turn kv.2) | kv <- m].

(* `position_map.get_mut(key).unwrap().pop().unwrap()` *)
Definition pm_pop (m : pos_map) (k : bytes) : outcome ((nat * nat) * pos_map) :=
  v <- unwrap (pm_get m k);;
  if v is x :: v' then Ret (last x v', pm_set m k (belast x v')) else Panic.

End GateList.

(* ------------------------------------------------------------------ *)
(* parser.rs *)
Section Parser.
Variable F : fieldType.
Local Notation wire := (pwire F).
Local Notation gate := (pgate F).
Local Notation state := (pstate F).

(* `Fr::from(i32)` *)
Definition fr_i32 (z : Z) : F :=
  match z with
  | Z0 => 0
  | Zpos p => (Pos.to_nat p)%:R
  | Zneg p => - (Pos.to_nat p)%:R
  end.

(* parser.rs:280-306; the returned wire is not used by the caller *)
Definition generate_constant_gate (st : state) (value : wire) : state :=
  let right : wire := ([:: "0"%char], 0) in
  let result : wire := (value.1 ++ str "+" ++ str "0", value.2 + 0) in
  emit st (PGate value right result Constant).

(* parser.rs:249-277 *)
Definition generate_additional_gate (st : state) (left right : wire) : wire * state :=
  let result : wire := (left.1 ++ str "+" ++ right.1, left.2 + right.2) in
  (result, emit st (PGate left right result Addition)).

(* the closure of parser.rs:135-166 *)
Definition generate_multiplication_gate (st : state) (left right : wire) : wire * state :=
  let result : wire := (left.1 ++ str "*" ++ right.1, left.2 * right.2) in
  (result, emit st (PGate left right result Multiplication)).

(* parser.rs:309-347; W is the witnesses HashMap.  `&value[..1]` panics on the
   empty string *)
Definition get_witness_value (W : bytes -> option F) (st : state) (value0 : bytes)
  : outcome (F * state) :=
  if value0 is c :: rest then
    let is_negative := c == "-"%char in
    let value := if is_negative then rest else value0 in
    '(result, st) <-
      (match W value with
       | Some v => Ret (v, st)
       | None =>
           constant <- unwrap (parse_i32 value);;
           let w : wire :=
             if is_negative then ("-"%char :: i32_to_string constant, - fr_i32 constant)
             else (i32_to_string constant, fr_i32 constant) in
           Ret (fr_i32 constant, generate_constant_gate st w)
       end);;
    Ret (if is_negative then - result else result, st)
  else Panic.

(* parser.rs:116-129: the wires of one term, left to right *)
Definition term_wires (W : bytes -> option F) (st : state) (term : bytes)
  : outcome (seq wire * state) :=
  ofold (fun acc s0 =>
    let s := str_trim s0 in
    '(v, st) <- get_witness_value W acc.2 s;;
    Ret (rcons acc.1 (s, v), st)) ([::], st) (split_on "*"%char term).

(* parser.rs:130-168: `reduce(..).unwrap()` *)
Definition term_gates (st : state) (ws : seq wire) : outcome (wire * state) :=
  if ws is w :: ws' then
    Ret (foldl (fun acc right => generate_multiplication_gate acc.2 acc.1 right) (w, st) ws')
  else Panic.

Definition term_wire (W : bytes -> option F) (st : state) (term : bytes) : outcome (wire * state) :=
  '(ws, st) <- term_wires W st term;;
  term_gates st ws.

(* parser.rs:170-181: reduce over the (lazily produced) terms *)
Definition sum_gates (W : bytes -> option F) (st : state) (terms : seq bytes)
  : outcome (option wire * state) :=
  if terms is t :: ts then
    '(w, st) <- term_wire W st t;;
    '(w, st) <- ofold (fun acc t =>
        '(cur, st) <- term_wire W acc.2 t;;
        Ret (generate_additional_gate st acc.1 cur)) (w, st) ts;;
    Ret (Some w, st)
  else Ret (None, st).

(* parser.rs:40-43 *)
Definition change_result (g : gate) (v : F) : gate :=
  PGate (pg_left g) (pg_right g) ((pg_bottom g).1, v) (pg_type g).

(* parser.rs:183-187: `gate_list.last_mut().unwrap().change_result(0)` *)
Definition change_last (gs : seq gate) : outcome (seq gate) :=
  if gs is g :: gs' then Ret (rcons (belast g gs') (change_result (last g gs') 0)) else Panic.

(* parser.rs:93-190 *)
Definition prepare_gen_circuit (W : bytes -> option F) (s : bytes) : outcome (seq gate * pos_map) :=
  match split_on "="%char s with
  | [:: lhs; rhs] =>
      let terms := rcons (split_on "+"%char lhs) ("-"%char :: rhs) in
      '(_, st) <- sum_gates W (pstate0 F) terms;;
      gs <- change_last (ps_list st);;
      Ret (gs, ps_pos st)
  | _ => Panic
  end.

(* parser.rs:211-242 *)
Definition gen_gate (acc : circuit F * pos_map) (g : gate) : outcome (circuit F * pos_map) :=
  '(l, m) <- pm_pop acc.2 (pg_left g).1;;
  let left := (l.1, l.2, (pg_left g).2) in
  '(r, m) <- pm_pop m (pg_right g).1;;
  let right := (r.1, r.2, (pg_right g).2) in
  '(b, m) <- pm_pop m (pg_bottom g).1;;
  let bottom := (b.1, b.2, (pg_bottom g).2) in
  Ret (match pg_type g with
       | Addition => add_addition_gate acc.1 left right bottom 0
       | Multiplication => add_multiplication_gate acc.1 left right bottom 0
       | Constant => add_constant_gate acc.1 left right bottom 0
       end, m).

(* parser.rs:197-246 *)
Definition gen_circuit (gs : seq gate) (m : pos_map) : outcome (circuit F) :=
  '(c, _) <- ofold gen_gate (circuit_default F, turn_map m) gs;;
  Ret c.

(* parser.rs:86-90 *)
Definition parse (W : bytes -> option F) (input : bytes) : outcome (circuit F) :=
  s <- parse_string input;;
  '(gs, m) <- prepare_gen_circuit W s;;
  gen_circuit gs m.

(* parser.rs:81-83 add_witness on the witnesses map *)
Definition add_witness (W : bytes -> option F) (k : bytes) (v : F) : bytes -> option F :=
  fun k' => if k' == k then Some v else W k'.
Definition no_witness : bytes -> option F := fun _ => None.

End Parser.

(* ------------------------------------------------------------------ *)
(* cpi_parser.rs and cpi_circuit.rs *)
Section Cpi.
Variable F : fieldType.
Local Notation wire := (pwire [eqType of unit]).
Local Notation gate := (pgate [eqType of unit]).
Local Notation state := (pstate [eqType of unit]).

(* cpi_parser.rs:311-339 *)
Definition cpi_constant_gate (st : state) (value : wire) : state :=
  let right : wire := (str "0", tt) in
  let result : wire := (value.1 ++ str "+" ++ str "0", tt) in
  emit st (PGate value right result Constant).

(* cpi_parser.rs:280-308 *)
Definition cpi_additional_gate (st : state) (left right : wire) : wire * state :=
  let result : wire := (left.1 ++ str "+" ++ right.1, tt) in
  (result, emit st (PGate left right result Addition)).

(* the closure of cpi_parser.rs:170-200 *)
Definition cpi_multiplication_gate (st : state) (left right : wire) : wire * state :=
  let result : wire := (left.1 ++ str "*" ++ right.1, tt) in
  (result, emit st (PGate left right result Multiplication)).

(* cpi_parser.rs:342-352 *)
Definition check_constant (st : state) (value : bytes) : state :=
  if parse_i32 value is Some _ then cpi_constant_gate st (value, tt) else st.

(* cpi_parser.rs:149-162 *)
Definition cpi_term_wires (st : state) (term : bytes) : seq wire * state :=
  foldl (fun acc s0 =>
    let s := str_trim s0 in
    (rcons acc.1 (s, tt), check_constant acc.2 s)) ([::], st) (split_on "*"%char term).

(* cpi_parser.rs:163-203 *)
Definition cpi_term_wire (st : state) (term : bytes) : outcome (wire * state) :=
  let: (ws, st) := cpi_term_wires st term in
  if ws is w :: ws' then
    Ret (foldl (fun acc right => cpi_multiplication_gate acc.2 acc.1 right) (w, st) ws')
  else Panic.

(* cpi_parser.rs:204-216 *)
Definition cpi_sum_gates (st : state) (terms : seq bytes) : outcome (option wire * state) :=
  if terms is t :: ts then
    '(w, st) <- cpi_term_wire st t;;
    '(w, st) <- ofold (fun acc t =>
        '(cur, st) <- cpi_term_wire acc.2 t;;
        Ret (cpi_additional_gate st acc.1 cur)) (w, st) ts;;
    Ret (Some w, st)
  else Ret (None, st).

(* cpi_parser.rs:127-223 *)
Definition prepare_generation (s : bytes) : outcome (seq gate * pos_map) :=
  match split_on "="%char s with
  | [:: lhs; rhs] =>
      let terms := rcons (split_on "+"%char lhs) ("-"%char :: rhs) in
      '(_, st) <- cpi_sum_gates (pstate0 [eqType of unit]) terms;;
      Ret (ps_list st, ps_pos st)
  | _ => Panic
  end.

(* cpi_circuit.rs:12-15: a CPICircuit is its list of gates; the constructors of
   cpi_circuit.rs:32-83 push one gate each.  cpi_parser.rs:240-276 *)
Definition cpi_gen_gate (acc : seq (PlonkModel.gate F) * pos_map) (g : gate)
  : outcome (seq (PlonkModel.gate F) * pos_map) :=
  '(l, m) <- pm_pop acc.2 (pg_left g).1;;
  '(r, m) <- pm_pop m (pg_right g).1;;
  '(b, m) <- pm_pop m (pg_bottom g).1;;
  let pl := Pos l.1 l.2 in let pr := Pos r.1 r.2 in let pb := Pos b.1 b.2 in
  match pg_type g with
  | Addition => Ret (rcons acc.1 (new_add_gate pl pr pb 0), m)
  | Multiplication => Ret (rcons acc.1 (new_mul_gate pl pr pb 0), m)
  | Constant =>
      v <- unwrap (parse_i32 (pg_left g).1);;
      Ret (rcons acc.1 (new_constant_gate pl pr pb (fr_i32 F v) 0), m)
  end.

(* cpi_parser.rs:226-278 *)
Definition cpi_gen_circuit (gs : seq gate) (m : pos_map) : outcome (seq (PlonkModel.gate F)) :=
  '(c, _) <- ofold cpi_gen_gate ([::], turn_map m) gs;;
  Ret c.

Variable P : fft_field F.

(* cpi_circuit.rs:172-181; `len - 1` underflows for len = 0 *)
Definition cpi_pad (gs : seq (PlonkModel.gate F)) : outcome (seq (PlonkModel.gate F)) :=
  let len := size gs in
  if len is len'.+1 then
    l <- ilog2 len';;
    let new_len := (2 ^ (l + 1))%N in
    Ret (gs ++ nseq (new_len - len) (new_dummy_gate F))
  else Panic.

(* cpi_circuit.rs:145-161: any column from 2 on is coset 2; `todo!()` for Dummy *)
Definition cpi_map_element (roots coset1 coset2 : seq F) (p : position) : outcome F :=
  match p with
  | Pos 0 i => index_at roots i
  | Pos 1 i => index_at coset1 i
  | Pos _ i => index_at coset2 i
  | Dummy => Panic
  end.

(* cpi_circuit.rs:137-166 *)
Definition cpi_sigma_rows (roots coset1 coset2 : seq F) (gs : seq (PlonkModel.gate F))
  : outcome (seq (F * F * F)) :=
  omapM (fun ig : nat * PlonkModel.gate F =>
    let: (i, g) := ig in
    if is_dummy_gate g then
      Ret (nth 0 roots i, nth 0 coset1 i, nth 0 coset2 i)
    else
      a <- cpi_map_element roots coset1 coset2 (a_pos g);;
      b <- cpi_map_element roots coset1 coset2 (b_pos g);;
      c <- cpi_map_element roots coset1 coset2 (c_pos g);;
      Ret (a, b, c)) (zip (iota 0 (size gs)) gs).

(* cpi_circuit.rs:114-124 (find_cosets, as in circuit.rs) and 127-170 *)
Definition cpi_cal_permutation (gs : seq (PlonkModel.gate F)) : outcome (copy_constraints F) :=
  dom <- unwrap (domain_new P (size gs));;
  let roots := dom_elements dom in
  cs <- find_cosets roots;;
  let: (coset1, coset2, k1, k2) := cs in
  rows <- cpi_sigma_rows roots coset1 coset2 gs;;
  Ret (CopyConstraints
    (interpolate dom [seq r.1.1 | r <- rows])
    (interpolate dom [seq r.1.2 | r <- rows])
    (interpolate dom [seq r.2 | r <- rows]) k1 k2).

(* cpi_circuit.rs:90-111, 184-212; never an `Err` *)
Definition cpi_compile (gs0 : seq (PlonkModel.gate F))
  : outcome (gate_constraints F * copy_constraints F * nat) :=
  gs <- cpi_pad gs0;;
  let circuit_size := size gs in
  dom <- unwrap (domain_new P circuit_size);;
  let rows := [seq g <- gs | ~~ is_dummy_gate g] in
  let interp (f : PlonkModel.gate F -> F) := interpolate dom [seq f g | g <- rows] in
  let gc := {| f_ax := [::]; f_bx := [::]; f_cx := [::];
    q_lx := interp (@q_l F); q_rx := interp (@q_r F); q_ox := interp (@q_o F);
    q_mx := interp (@q_m F); q_cx := interp (@q_c F); pi_x := interp (@g_pi F) |} in
  cc <- cpi_cal_permutation gs;;
  Ret (gc, cc, circuit_size).

(* cpi_parser.rs:60-73 *)
Record cpi (E : pairing_group F) := CPI {
  cpi_n : nat; cpi_k1 : F; cpi_k2 : F;
  com_q_lx : G1 E; com_q_rx : G1 E; com_q_mx : G1 E; com_q_ox : G1 E; com_q_cx : G1 E;
  com_s_sigma_1 : G1 E; com_s_sigma_2 : G1 E; com_s_sigma_3 : G1 E;
  cpi_pi_x : seq F }.

(* cpi_parser.rs:76-106 *)
Definition cpi_new (E : pairing_group F) (S : srs E)
  (c : gate_constraints F * copy_constraints F * nat) : outcome (cpi E) :=
  let: (g, k, n) := c in
  qm <- kzg_commit S (q_mx g);;
  ql <- kzg_commit S (q_lx g);;
  qr <- kzg_commit S (q_rx g);;
  qo <- kzg_commit S (q_ox g);;
  qc <- kzg_commit S (q_cx g);;
  s1 <- kzg_commit S (s_sigma_1 k);;
  s2 <- kzg_commit S (s_sigma_2 k);;
  s3 <- kzg_commit S (s_sigma_3 k);;
  Ret {| cpi_n := n; cpi_k1 := cc_k1 k; cpi_k2 := cc_k2 k;
         com_q_lx := ql; com_q_rx := qr; com_q_mx := qm; com_q_ox := qo; com_q_cx := qc;
         com_s_sigma_1 := s1; com_s_sigma_2 := s2; com_s_sigma_3 := s3; cpi_pi_x := pi_x g |}.

(* cpi_parser.rs:115-124 *)
Definition compute_cpi (E : pairing_group F) (S : srs E) (input : bytes) : outcome (cpi E) :=
  s <- parse_string input;;
  '(gs, m) <- prepare_generation s;;
  gates <- cpi_gen_circuit gs m;;
  c <- cpi_compile gates;;
  cpi_new S c.

End Cpi.
