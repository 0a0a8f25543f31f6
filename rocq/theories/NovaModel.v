(* Model of the nova crate: /repo/nova/src/{utils,r1cs/mod,nifs/*,transcript,
   circuit,ivc/*}.rs and the driver loop of /repo/nova/examples/examples.rs.
   Definitions only. *)
From Coq Require Import String Ascii NArith.
Set Warnings "-notation-overridden,-ambiguous-paths".
From mathcomp Require Import all_ssreflect all_algebra.
From Verif Require Import Base ArkPoly KzgModel.

Set Implicit Arguments.
Unset Strict Implicit.
Unset Printing Implicit Defensive.

Import GRing.Theory.
Local Open Scope ring_scope.

(* ------------------------------------------------------------------ *)
(* utils.rs *)
Section Utils.
Variable F : fieldType.
Implicit Types (a b z : seq F) (m : seq (seq F)).

(* utils.rs:14-22; row i accumulates over `z.iter().take(matrix[i].len())` *)
Definition matrix_vector_product m z : seq F :=
  [seq foldl (fun acc (p : F * F) => acc + p.1 * p.2) 0 (zip row z) | row <- m].

(* the loops `for i in 0..a.len() { r[i] = op(a[i], b[i]) }` *)
Definition index_loop (op : F -> F -> F) a b : outcome (seq F) :=
  omapM (fun i => x <- index_at a i;; y <- index_at b i;; Ret (op x y)) (iota 0 (size a)).

(* utils.rs:35-41 *)
Definition hadamard_product a b : outcome (seq F) := index_loop *%R a b.

(* utils.rs:54-60 *)
Definition vector_elem_product a (u : F) : seq F := [seq x * u | x <- a].

(* utils.rs:73-80 *)
Definition vec_sub a b : outcome (seq F) :=
  _ <- oassert (size a == size b);; index_loop (fun x y => x - y) a b.

(* utils.rs:93-100 *)
Definition vec_add a b : outcome (seq F) :=
  _ <- oassert (size a == size b);; index_loop +%R a b.

(* utils.rs:113-124 *)
Definition vec_equal a b : bool :=
  if size a != size b then false
  else all (fun i => nth 0 a i == nth 0 b i) (iota 0 (size a)).

(* utils.rs:136-145 *)
Definition to_f_matrix (m : seq (seq nat)) : seq (seq F) :=
  [seq [seq x%:R | x <- row] | row <- m].

(* utils.rs:157-163 *)
Definition to_f_vec (z : seq nat) : seq F := [seq x%:R | x <- z].

End Utils.

(* ------------------------------------------------------------------ *)
(* External functions used by the crate. *)
Record nova_env (F B : fieldType) (E : pairing_group F) := NovaEnv {
  (* the digest T (hash of a whole byte string; successive updates concatenate) *)
  digest : bytes -> bytes;
  (* serialize_uncompressed of a G1 point, a scalar, a base field element *)
  ser_g1 : G1 E -> bytes;
  ser_fr : F -> bytes;
  ser_fq : B -> bytes;
  (* BaseField::from_le_bytes_mod_order *)
  fq_of_bytes : bytes -> B;
  (* ScalarField::from_le_bytes_mod_order(&h.into_bigint().to_bytes_le()) *)
  fr_of_fq : B -> F;
  (* the k-th Fr::rand from StdRng::seed_from_u64(seed) *)
  rand_fr : N -> nat -> F;
}.

(* r1cs/mod.rs:11-17 *)
Record r1cs (F : Type) := R1cs {
  matrix_a : seq (seq F);
  matrix_b : seq (seq F);
  matrix_c : seq (seq F);
  num_io : nat;
  num_vars : nat;
}.

(* r1cs/mod.rs:22-27 *)
Record finstance (F : fieldType) (E : pairing_group F) := FInstance {
  fi_com_e : G1 E;
  fi_u : F;
  fi_com_w : G1 E;
  fi_x : seq F;
}.

(* r1cs/mod.rs:32-37 *)
Record fwitness (F : Type) := FWitness { fw_e : seq F; fw_w : seq F }.

(* nifs/mod.rs:20-25 *)
Record nifs_proof (F : fieldType) (E : pairing_group F) := NifsProof {
  np_r : F;
  np_opening_point : F;
  np_opening_e : kzg_opening E;
  np_opening_w : kzg_opening E;
}.

(* transcript.rs:17-24 *)
Record ntranscript := NTranscript { nt_data : option bytes; nt_generated : bool }.

(* transcript.rs:16: derived Default *)
Definition nt_default : ntranscript := NTranscript None false.

Section Nova.
Variables (F B : fieldType) (E : pairing_group F) (X : nova_env B E).
Local Notation finst := (finstance E).
Local Notation fwit := (fwitness F).
Implicit Types (S : srs E) (R : r1cs F) (t : ntranscript).

(* ---- r1cs/mod.rs ---- *)
(* r1cs/mod.rs:40-47 *)
Definition fw_new (w : seq F) (len : nat) : fwit := FWitness (nseq len 0) w.

(* r1cs/mod.rs:50-55 *)
Definition fw_trivial (len : nat) : fwit := FWitness (nseq len 0) (nseq len 0).

(* r1cs/mod.rs:58-70 *)
Definition fw_commit (fw : fwit) S (x : seq F) : outcome finst :=
  ce <- kzg_commit_vector S (fw_e fw);;
  cw <- kzg_commit_vector S (fw_w fw);;
  Ret (FInstance ce 1 cw x).

(* r1cs/mod.rs:75-84 *)
Definition create_trivial_pair (x_len w_len : nat) S : outcome (fwit * finst) :=
  let tw := fw_trivial w_len in
  ti <- fw_commit tw S (nseq x_len 0);;
  Ret (tw, ti).

(* r1cs/mod.rs:89-127.  The second commitment is only computed when the first
   comparison succeeds (`&&`). *)
Definition is_r1cs_satisfied R (fi : finst) (fw : fwit) S : outcome unit :=
  if num_vars R != size (fw_w fw) then Err "Witness does not match with matrices"%string
  else if num_io R != size (fi_x fi) then Err "Instance does not match with matrices"%string
  else
    let z := fw_w fw ++ fi_x fi ++ [:: fi_u fi] in
    let az := matrix_vector_product (matrix_a R) z in
    let bz := matrix_vector_product (matrix_b R) z in
    let cz := matrix_vector_product (matrix_c R) z in
    left_side <- hadamard_product az bz;;
    let ucz := vector_elem_product cz (fi_u fi) in
    right_side <- vec_add ucz (fw_e fw);;
    let res_eq := vec_equal left_side right_side in
    cw <- kzg_commit_vector S (fw_w fw);;
    res_com <- (if fi_com_w fi == cw then
                  ce <- kzg_commit_vector S (fw_e fw);; Ret (fi_com_e fi == ce)
                else Ret false);;
    if res_com && res_eq then Ret tt
    else Err "Instance does not satisfy the Witness."%string.

(* ---- nifs/mod.rs ---- *)
(* nifs/mod.rs:34-58 *)
Definition compute_t R (u1 u2 : F) (z1 z2 : seq F) : outcome (seq F) :=
  let az1 := matrix_vector_product (matrix_a R) z1 in
  let bz1 := matrix_vector_product (matrix_b R) z1 in
  let cz1 := matrix_vector_product (matrix_c R) z1 in
  let az2 := matrix_vector_product (matrix_a R) z2 in
  let bz2 := matrix_vector_product (matrix_b R) z2 in
  let cz2 := matrix_vector_product (matrix_c R) z2 in
  az1_bz2 <- hadamard_product az1 bz2;;
  az2_bz1 <- hadamard_product az2 bz1;;
  let u1cz2 := vector_elem_product cz2 u1 in
  let u2cz1 := vector_elem_product cz1 u2 in
  t0 <- vec_add az1_bz2 az2_bz1;;
  t1 <- vec_sub t0 u1cz2;;
  vec_sub t1 u2cz1.

(* nifs/mod.rs:63-81 *)
Definition fold_witness (r : F) (fw1 fw2 : fwit) (t : seq F) : fwit :=
  FWitness
    [seq p.1.1 + r * p.1.2 + r * r * p.2 | p <- zip (zip (fw_e fw1) t) (fw_e fw2)]
    [seq p.1 + p.2 * r | p <- zip (fw_w fw1) (fw_w fw2)].

(* nifs/mod.rs:88-107 *)
Definition fold_instance (r : F) (fi1 fi2 : finst) (com_t : G1 E) : finst :=
  FInstance
    (fi_com_e fi1 + r *: com_t + (r * r) *: fi_com_e fi2)
    (fi_u fi1 + fi_u fi2 * r)
    (fi_com_w fi1 + r *: fi_com_w fi2)
    [seq p.1 + p.2 * r | p <- zip (fi_x fi1) (fi_x fi2)].

(* ---- transcript.rs ---- *)
(* the common body of feed and feed_scalar_num: hash the previous data
   followed by the serialized message *)
Definition nt_absorb t (m : bytes) : ntranscript :=
  NTranscript (Some (digest X (odflt [::] (nt_data t) ++ m))) false.

(* transcript.rs:69-78 *)
Definition nt_feed t (c : G1 E) : ntranscript := nt_absorb t (ser_g1 X c).

(* transcript.rs:81-88 *)
Definition nt_feed_scalar t (x : F) : ntranscript := nt_absorb t (ser_fr X x).

(* transcript.rs:37-43 *)
Definition nt_from_commitment (cs : seq (G1 E)) : ntranscript := foldl nt_feed nt_default cs.

(* transcript.rs:54-60 *)
Definition nt_from_scalar_number (xs : seq F) : ntranscript :=
  foldl nt_feed_scalar nt_default xs.

(* transcript.rs:90-99: the slice [0..8] panics when the data is shorter *)
Definition nt_seed t : outcome (N * ntranscript) :=
  if nt_generated t then Panic
  else
    let d := odflt [::] (nt_data t) in
    if (size d < 8)%N then Panic
    else Ret (le_decode (take 8 d), NTranscript (nt_data t) true).

(* transcript.rs:110-114 *)
Definition nt_challenges t (n : nat) : outcome (seq F * ntranscript) :=
  '(seed, t') <- nt_seed t;;
  Ret (mkseq (rand_fr X seed) n, t').

(* `let [r] = transcript.generate_challenges()` *)
Definition nt_challenge t : outcome (F * ntranscript) :=
  '(seed, t') <- nt_seed t;;
  Ret (rand_fr X seed 0, t').

(* ---- nifs/nifs_prover.rs ---- *)
(* nifs_prover.rs:11-41; the transcript is threaded *)
Definition nifs_prover R (fw1 fw2 : fwit) (fi1 fi2 : finst) S t
  : outcome (fwit * finst * G1 E * F * ntranscript) :=
  let z1 := fw_w fw1 ++ fi_x fi1 ++ [:: fi_u fi1] in
  let z2 := fw_w fw2 ++ fi_x fi2 ++ [:: fi_u fi2] in
  tt_ <- compute_t R (fi_u fi1) (fi_u fi2) z1 z2;;
  com_t <- kzg_commit_vector S tt_;;
  let t1 := nt_feed_scalar t (fi_u fi1) in
  let t2 := nt_feed_scalar t1 (fi_u fi2) in
  let t3 := nt_feed t2 com_t in
  '(r, t4) <- nt_challenge t3;;
  Ret (fold_witness r fw1 fw2 tt_, fold_instance r fi1 fi2 com_t, com_t, r, t4).

(* nifs_prover.rs:44-65 *)
Definition nifs_prove (r : F) (fw : fwit) (fi : finst) S t
  : outcome (nifs_proof E * ntranscript) :=
  let t1 := nt_feed t (fi_com_e fi) in
  let t2 := nt_feed t1 (fi_com_w fi) in
  '(pt, t3) <- nt_challenge t2;;
  oe <- kzg_open_vector S (fw_e fw) pt;;
  ow <- kzg_open_vector S (fw_w fw) pt;;
  Ret (NifsProof r pt oe ow, t3).

(* ---- nifs/nifs_verifier.rs ---- *)
(* nifs_verifier.rs:12-19 *)
Definition nifs_verifier (r : F) (fi1 fi2 : finst) (com_t : G1 E) : finst :=
  fold_instance r fi1 fi2 com_t.

(* nifs_verifier.rs:44-64 *)
Definition verify_challenge (r u1 u2 : F) (com_t : G1 E) t : outcome ntranscript :=
  let t1 := nt_feed_scalar t u1 in
  let t2 := nt_feed_scalar t1 u2 in
  let t3 := nt_feed t2 com_t in
  '(new_r, t4) <- nt_challenge t3;;
  if new_r != r then Err "Verify: Error in computing random r"%string else Ret t4.

(* nifs_verifier.rs:67-93 *)
Definition verify_opening (pf : nifs_proof E) (fi3 : finst) S t : outcome ntranscript :=
  let t1 := nt_feed t (fi_com_e fi3) in
  let t2 := nt_feed t1 (fi_com_w fi3) in
  '(pt, t3) <- nt_challenge t2;;
  if pt != np_opening_point pf then
    Err "Verify: Error in computing random opening point"%string
  else if ~~ kzg_verify S (fi_com_w fi3) (np_opening_w pf) pt then
    Err "Verify: Folding wrong at W"%string
  else if ~~ kzg_verify S (fi_com_e fi3) (np_opening_e pf) pt then
    Err "Verify: Folding wrong at E"%string
  else Ret t3.

(* nifs_verifier.rs:23-41 (the final transcript is returned as well) *)
Definition nifs_verify (pf : nifs_proof E) (fi1 fi2 fi3 : finst) (com_t : G1 E) S t
  : outcome ntranscript :=
  t1 <- verify_challenge (np_r pf) (fi_u fi1) (fi_u fi2) com_t t;;
  verify_opening pf fi3 S t1.

(* ---- circuit.rs ---- *)
(* circuit.rs:152-169 *)
Definition hash_io (i z_0 z_i : B) (U : finst) : B :=
  fq_of_bytes X (digest X
    (ser_fq X i ++ ser_fq X z_0 ++ ser_fq X z_i ++ ser_g1 X (fi_com_e U) ++
     ser_fr X (fi_u U) ++ ser_g1 X (fi_com_w U) ++ flatten [seq ser_fr X x | x <- fi_x U])).

(* circuit.rs:26-44.  The user circuit is a total function of the state and
   the witness (a panicking user circuit is not modelled). *)
Record acircuit := ACircuit {
  ac_f : B -> fwit -> B;
  ac_i : B;
  ac_trivial : finst;
  ac_z_0 : B;
  ac_z_i : B;
  ac_z_i1 : option B;
  ac_h_i : option B;
  ac_h_i1 : option B;
}.

(* circuit.rs:48-60 *)
Definition ac_new (f : B -> fwit -> B) (trivial : finst) (z_0 : B) : acircuit :=
  ACircuit f 0 trivial z_0 z_0 None None None.

(* `self.h_i1 = Some(..); self.z_i1 = Some(..)` of circuit.rs:119-122, 133-136 *)
Definition ac_store (ac : acircuit) (h z : B) : acircuit :=
  ACircuit (ac_f ac) (ac_i ac) (ac_trivial ac) (ac_z_0 ac) (ac_z_i ac) (Some z) (ac_h_i ac) (Some h).

(* circuit.rs:61-141: the result and the circuit afterwards *)
Definition ac_run (ac : acircuit) (u_i : finst) (big_u_i : option finst) (w_i : fwit)
  (com_t : option (G1 E)) : outcome B * acircuit :=
  if ac_i ac != 0 then
    match big_u_i, com_t with
    | Some U, Some T =>
      match ac_h_i ac with
      | Some hash_x =>
        match index_at (fi_x u_i) 0 with
        | Ret u_dot_x =>
          if u_dot_x != fr_of_fq X hash_x then (Err "Public IO is wrong "%string, ac)
          else if fi_com_e u_i != fi_com_e (ac_trivial ac) then
            (Err "Commitment of E is wrong"%string, ac)
          else if fi_u u_i != 1 then (Err "Scalar u is wrong"%string, ac)
          else
            let t1 := nt_feed_scalar nt_default (fi_u u_i) in
            let t2 := nt_feed_scalar t1 (fi_u U) in
            let t3 := nt_feed t2 T in
            match nt_challenge t3 with
            | Ret (r, _) =>
              let U1 := nifs_verifier r u_i U T in
              let z1 := ac_f ac (ac_z_i ac) w_i in
              let h1 := hash_io (ac_i ac + 1) (ac_z_0 ac) z1 U1 in
              (Ret h1, ac_store ac h1 z1)
            | _ => (Panic, ac)
            end
        | _ => (Panic, ac)
        end
      | None => (Err "The hash public IO must exist"%string, ac)
      end
    | _, _ => (Err "Wrong parameters."%string, ac)
    end
  else
    let z1 := ac_f ac (ac_z_i ac) w_i in
    let h1 := hash_io 1 (ac_z_0 ac) z1 (ac_trivial ac) in
    (Ret h1, ac_store ac h1 z1).

(* circuit.rs:143-149 *)
Definition ac_next_step (ac : acircuit) : outcome acircuit :=
  z <- unwrap (ac_z_i1 ac);;
  Ret (ACircuit (ac_f ac) (ac_i ac + 1) (ac_trivial ac) (ac_z_0 ac) z None (ac_h_i1 ac) None).

(* ---- ivc ---- *)
(* ivc/mod.rs:14-19 *)
Record zk_ivc_proof := ZkIvcProof {
  zk_u_i : finst;
  zk_big_u_i : finst;
  zk_com_t : option (G1 E);
  zk_folded_u_proof : option (nifs_proof E);
}.

(* ivc/mod.rs:22-27, 31-38 *)
Record ivc_proof := IvcProof {
  ip_u_i : finst;
  ip_w_i : fwit;
  ip_big_u_i : finst;
  ip_big_w_i : fwit;
}.

(* ivc/mod.rs:41-48 *)
Definition trivial_ivc_proof (ti : finst) (tw : fwit) : ivc_proof := IvcProof ti tw ti tw.

(* ivc/mod.rs:53-60 *)
Definition trivial_zk_ivc_proof (ti : finst) : zk_ivc_proof := ZkIvcProof ti ti None None.

(* ivc/ivc_prover.rs:14-59; IVC (ivc/mod.rs:64-67) is the pair of S and ac *)
Definition ivc_prove S (ac : acircuit) R (ip : ivc_proof) t
  : outcome (fwit * finst * zk_ivc_proof * ntranscript) :=
  if ac_i ac != 0 then
    '(W, U, com_t, r, t1) <- nifs_prover R (ip_w_i ip) (ip_big_w_i ip) (ip_u_i ip)
                               (ip_big_u_i ip) S t;;
    '(pf, t2) <- nifs_prove r W U S t1;;
    Ret (W, U, ZkIvcProof (ip_u_i ip) (ip_big_u_i ip) (Some com_t) (Some pf), t2)
  else
    Ret (ip_big_w_i ip, ip_big_u_i ip,
         ZkIvcProof (ip_u_i ip) (ip_big_u_i ip) None None, t).

(* ivc/ivc_verifier.rs:13-76 *)
Definition ivc_verify S (ac : acircuit) (pf : zk_ivc_proof) t : outcome ntranscript :=
  if ac_i ac == 0 then
    if ac_z_0 ac == ac_z_i ac then Ret t
    else Err "Verify failed: wrong state"%string
  else
    match zk_com_t pf with
    | None => Err "Verify failed: commitment of cross term T must exist"%string
    | Some com_t =>
      match zk_folded_u_proof pf with
      | None => Err "Verify failed: folding proof must exist"%string
      | Some np =>
        let h := hash_io (ac_i ac) (ac_z_0 ac) (ac_z_i ac) (zk_big_u_i pf) in
        x0 <- index_at (fi_x (zk_u_i pf)) 0;;
        if x0 != fr_of_fq X h then Err "Verify failed: Public IO is wrong"%string
        else if fi_com_e (zk_u_i pf) != fi_com_e (ac_trivial ac) then
          Err "Verify failed: Commitment of E is wrong"%string
        else if fi_u (zk_u_i pf) != 1 then Err "Verify failed: Scalar u is wrong"%string
        else
          let big_u_out := nifs_verifier (np_r np) (zk_u_i pf) (zk_big_u_i pf) com_t in
          nifs_verify np (zk_u_i pf) (zk_big_u_i pf) big_u_out com_t S t
      end
    end.

(* ---- examples/examples.rs ---- *)
(* the loop variables of examples.rs:81-97 *)
Record driver_state := DriverState {
  ds_ac : acircuit;
  ds_ip : ivc_proof;
  ds_zk : zk_ivc_proof;
  ds_W : fwit;
  ds_U : finst;
  ds_vt : ntranscript;
}.

(* examples.rs:81-96 *)
Definition driver_init (f : B -> fwit -> B) (tw : fwit) (ti : finst) (z_0 : B) : driver_state :=
  DriverState (ac_new f ti z_0) (trivial_ivc_proof ti tw) (trivial_zk_ivc_proof ti) tw ti nt_default.

(* examples.rs:99-122: run F' and verify, both asserted to be Ok *)
Definition driver_check S (u0 : finst) (w0 : fwit) (step : nat) (ds : driver_state)
  : outcome driver_state :=
  '(res, ac) <- (if step == 0%N then Ret (ac_run (ds_ac ds) u0 None w0 None)
                 else
                   com_t <- unwrap (zk_com_t (ds_zk ds));;
                   Ret (ac_run (ds_ac ds) (ip_u_i (ds_ip ds)) (Some (ip_big_u_i (ds_ip ds)))
                          (ip_w_i (ds_ip ds)) (Some com_t)));;
  _ <- oassert (is_ret res);;
  let v := ivc_verify S ac (ds_zk ds) (ds_vt ds) in
  _ <- oassert (is_ret v);;
  let vt := if v is Ret t then t else ds_vt ds in
  Ret (DriverState ac (ds_ip ds) (ds_zk ds) (ds_W ds) (ds_U ds) vt).

(* examples.rs:126-145: advance to the next step and set up the fresh instance.
   `zs` are the states precomputed at lines 67-76, `u` the next committed
   instance, whose public input is overwritten.  The counter `i` of the example
   (lines 58, 129) is the counter of the circuit. *)
Definition driver_advance (z0 znext : B) (u : finst) (w : fwit) (ds : driver_state)
  : outcome driver_state :=
  ac <- ac_next_step (ds_ac ds);;
  _ <- oassert (ac_z_i ac == znext);;
  let h := hash_io (ac_i ac) z0 znext (ds_U ds) in
  let u' := FInstance (fi_com_e u) (fi_u u) (fi_com_w u) [:: fr_of_fq X h] in
  Ret (DriverState ac (IvcProof u' w (ds_U ds) (ds_W ds)) (ds_zk ds) (ds_W ds) (ds_U ds) nt_default).

(* examples.rs:146-147 *)
Definition driver_prove S R (ds : driver_state) : outcome driver_state :=
  '(W, U, zk, _) <- ivc_prove S (ds_ac ds) R (ds_ip ds) nt_default;;
  Ret (DriverState (ds_ac ds) (ds_ip ds) zk W U (ds_vt ds)).

(* examples.rs:67-76: z[j+1] = F(z[j], w[j]) *)
Fixpoint driver_states (f : B -> fwit -> B) (z : B) (ws : seq fwit) : seq B :=
  if ws is w :: ws' then z :: driver_states f (f z w) ws' else [:: z].

(* examples.rs:99-149 from iteration `step` with `todo` later iterations left;
   `uws` are the instance-witness pairs, `zs` the precomputed states *)
Fixpoint driver_loop S R (uws : seq (finst * fwit)) (zs : seq B) (step todo : nat)
  (ds : driver_state) : outcome driver_state :=
  '(u0, w0) <- index_at uws step;;
  ds1 <- driver_check S u0 w0 step ds;;
  if todo is k.+1 then
    z0 <- index_at zs 0;;
    znext <- index_at zs step.+1;;
    '(u, w) <- index_at uws step.+1;;
    ds2 <- driver_advance z0 znext u w ds1;;
    ds3 <- driver_prove S R ds2;;
    driver_loop S R uws zs step.+1 k ds3
  else Ret ds1.

(* examples.rs:37-150, for any list of witness vectors and public inputs;
   `rows` is matrix_a.len() *)
Definition driver_main S R (f : B -> fwit -> B) (z_0 : B) (wits xs : seq (seq F))
  : outcome driver_state :=
  let ws := [seq fw_new w (size (matrix_a R)) | w <- wits] in
  us <- omapM (fun p => fw_commit p.1 S p.2) (zip ws xs);;
  x0 <- index_at xs 0;;
  w0 <- index_at wits 0;;
  '(tw, ti) <- create_trivial_pair (size x0) (size w0) S;;
  let zs := driver_states f z_0 ws in
  driver_loop S R (zip us ws) zs 0 (size wits).-1 (driver_init f tw ti z_0).

End Nova.

(* nifs_verifier.rs:98-147 = examples.rs:153-199 *)
Section TestValues.
Variable F : fieldType.
Definition test_r1cs : r1cs F :=
  R1cs
    (to_f_matrix F [:: [:: 1; 0; 0; 0; 0; 0]; [:: 0; 1; 0; 0; 0; 0];
                       [:: 1; 0; 1; 0; 0; 0]; [:: 0; 0; 0; 1; 0; 5]])%N
    (to_f_matrix F [:: [:: 1; 0; 0; 0; 0; 0]; [:: 1; 0; 0; 0; 0; 0];
                       [:: 0; 0; 0; 0; 0; 1]; [:: 0; 0; 0; 0; 0; 1]])%N
    (to_f_matrix F [:: [:: 0; 1; 0; 0; 0; 0]; [:: 0; 0; 1; 0; 0; 0];
                       [:: 0; 0; 0; 1; 0; 0]; [:: 0; 0; 0; 0; 1; 0]])%N
    1 4.
Definition test_witness (x : nat) : seq F :=
  to_f_vec F [:: x; x * x; x * x * x; x * x * x + x]%N.
Definition test_io (x : nat) : seq F := to_f_vec F [:: x * x * x + x + 5]%N.
End TestValues.
