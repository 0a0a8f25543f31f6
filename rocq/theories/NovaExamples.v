(* Concrete cases meeting the hypotheses of the Nova theorems: scalars in the
   field with 17 elements, the groups of KzgExamples, base field of 257 elements,
   a toy 8-byte digest, the relation and witnesses of the repository's tests. *)
From Coq Require Import String Ascii NArith.
Set Warnings "-notation-overridden,-ambiguous-paths".
From mathcomp Require Import all_ssreflect all_algebra.
From mathcomp Require Import zify ring.
From Verif Require Import Base BaseLemmas ArkPoly ArkPolyLemmas KzgModel KzgSpec KzgLemmas KzgProps
  KzgExamples NovaModel NovaSpec NovaLemmas NovaTranscript NovaProps NovaIvcProps NovaDriverProps.

Set Implicit Arguments.
Unset Strict Implicit.
Unset Printing Implicit Defensive.

Import GRing.Theory.
Local Open Scope ring_scope.

Definition B257 := [fieldType of 'F_257].

Definition mix (b : bytes) : nat :=
  foldl (fun acc c => (acc * 31 + nat_of_ascii c + 7) %% 251)%N 1%N b.

Definition X17 : nova_env B257 E17 :=
  @NovaEnv K17 B257 E17
    (fun b => le_bytes 8 (mix b))
    (fun x : 'F_17 => [:: ascii_of_nat (x : nat); ascii_of_nat 1])
    (fun x : 'F_17 => [:: ascii_of_nat (x : nat)])
    (fun x : 'F_257 => le_bytes 2 (x : nat))
    (fun b => (mix b)%:R)
    (fun x : 'F_257 => (x : nat)%:R)
    (fun seed k => (N.to_nat seed + 3 * k + 1)%:R).

Lemma X17_digest b : (8 <= size (digest X17 b))%N.
Proof. by rewrite [size _](size_le_bytes 8). Qed.

Definition is_panic (A : Type) (o : outcome A) : bool := if o is Panic then true else false.
Definition N17 := srs_new_from_secret E17 5%:R 6.
Definition R17r := test_r1cs K17.

Definition wit17 (x : nat) : fwitness K17 := fw_new (test_witness K17 x) 4.
Definition pair17 (x : nat) : fwitness K17 * finstance E17 :=
  if fw_commit (wit17 x) N17 (test_io K17 x) is Ret u then (wit17 x, u)
  else (wit17 x, FInstance (0 : G1 E17) 0 0 [::]).

(* C29, C30, C33: two satisfying pairs, their fold satisfies the relation and
   its proof verifies; changing a witness entry breaks satisfaction; C35: an
   unsatisfied pair is folded and accepted all the same. *)
Definition nifs17 (p1 p2 : fwitness K17 * finstance E17) (sat : bool) : bool :=
  let: (w1, u1) := p1 in let: (w2, u2) := p2 in
  if nifs_prover X17 R17r w1 w2 u1 u2 N17 nt_default is Ret (w, u, T, r, t1) then
    if nifs_prove X17 r w u N17 t1 is Ret (pf, t2) then
      (is_ret (is_r1cs_satisfied R17r u w N17) == sat) &&
      is_ret (nifs_verify X17 pf u1 u2 (nifs_verifier r u1 u2 T) T N17 nt_default)
    else false
  else false.

Definition bad17 : fwitness K17 * finstance E17 :=
  let w := FWitness (nseq 4 0) [:: 2%:R; 1; 1; 1 : K17] in
  if fw_commit w N17 (test_io K17 3) is Ret u then (w, u) else (w, FInstance (0 : G1 E17) 0 0 [::]).

Example satisfied17 :
  is_ret (is_r1cs_satisfied R17r (pair17 3).2 (pair17 3).1 N17) &&
  is_ret (is_r1cs_satisfied R17r (pair17 4).2 (pair17 4).1 N17) &&
  ~~ is_ret (is_r1cs_satisfied R17r bad17.2 bad17.1 N17).
Proof. by vm_compute. Qed.

Example fold17 : nifs17 (pair17 3) (pair17 4) true && nifs17 bad17 (pair17 4) false.
Proof. by vm_compute. Qed.

(* C34: folding a satisfied pair with itself cannot be proved *)
Example self_fold17 :
  is_panic (if nifs_prover X17 R17r (pair17 3).1 (pair17 3).1 (pair17 3).2 (pair17 3).2 N17 nt_default
      is Ret (w, u, T, r, t1)
   then nifs_prove X17 r w u N17 t1 else Ret (NifsProof 0 0 (0 : G1 E17, 0) (0 : G1 E17, 0), nt_default)).
Proof. by vm_compute. Qed.

Definition wits17 := [seq test_witness K17 x | x <- [:: 3; 4; 5; 6]%N].
Definition xs17 := [seq test_io K17 x | x <- [:: 3; 4; 5; 6]%N].
Definition f257 (z : B257) (w : fwitness K17) : B257 := z * z * z + z + 5%:R.

(* C39: four steps of the repository's example return, in the state reached by
   iterating the user function; with a relation of zero rows every fold has a
   zero error vector and the second step panics. *)
Example driver17 :
  (if driver_main X17 N17 R17r f257 0 wits17 xs17 is Ret ds then
     (ac_z_i (ds_ac ds) == foldl f257 0 [seq fw_new w 4 | w <- take 3 wits17])
   else false) && all (fun w => size w == 4)%N wits17.
Proof. by vm_compute. Qed.

Definition zero_r1cs : r1cs K17 := R1cs (nseq 4 (nseq 6 0)) (nseq 4 (nseq 6 0)) (nseq 4 (nseq 6 0)) 1 4.
Example driver17_zero :
  is_panic (driver_main X17 N17 zero_r1cs f257 0 wits17 xs17) &&
  is_ret (driver_main X17 N17 zero_r1cs f257 0 (take 1 wits17) (take 1 xs17)).
Proof. by vm_compute. Qed.

Example counters257 k : (0 < k < 4)%N -> k%:R <> 0 :> B257.
Proof.
have H : all (fun k => k%:R != 0 :> B257) [:: 1; 2; 3]%N by vm_compute.
move=> lt; apply/eqP; apply: (allP H).
by move: lt; case: k => [|[|[|[|k]]]].
Qed.

(* C37, C62: the histories used by the verifier do not panic; the serializers
   and the digest have separated lengths and are injective *)
Example history17 :
  is_ret (nt_run X17 nt_default [:: NFeedScalar 1; NFeed (2%:R : G1 E17); NChallenges 2;
                                    NFeedScalar 4%:R; NChallenges 1]) &&
  is_panic (nt_run X17 nt_default [:: NFeed (2%:R : G1 E17); NChallenges 2; NChallenges 1]).
Proof. by vm_compute. Qed.

Example lengths17 :
  [/\ forall b, size (digest X17 b) = 8%N, forall c, size (ser_g1 X17 c) = 2%N
    & forall x, size (ser_fr X17 x) = 1%N].
Proof. by split=> // b; exact: (size_le_bytes 8). Qed.

Lemma ord_ascii_inj (p q : nat) : (p < 256)%N -> (q < 256)%N -> ascii_of_nat p = ascii_of_nat q -> p = q.
Proof. exact: ascii_of_nat_inj. Qed.

Lemma ser_fr17_inj : injective (ser_fr X17).
Proof.
move=> x y [] /ord_ascii_inj e; apply/val_inj/e.
- exact: leq_trans (ltn_ord x) _.
- exact: leq_trans (ltn_ord y) _.
Qed.

Lemma ser_g117_inj : injective (ser_g1 X17).
Proof.
move=> x y [] /ord_ascii_inj e; apply/val_inj/e.
- exact: leq_trans (ltn_ord (x : 'F_17)) _.
- exact: leq_trans (ltn_ord (y : 'F_17)) _.
Qed.

Lemma ser_fq257_inj : injective (ser_fq X17).
Proof.
move=> x y /le_bytes_inj e; apply/val_inj/e.
- exact: leq_trans (ltn_ord x) _.
- exact: leq_trans (ltn_ord y) _.
Qed.

(* C43: with one-byte digests read into the 257-element field *)
Definition X43 : nova_env B257 E17 :=
  @NovaEnv K17 B257 E17 (fun b => le_bytes 1 (mix b)) (ser_g1 X17) (ser_fr X17) (ser_fq X17)
    (fun b => (head 0%N [seq nat_of_ascii c | c <- b])%:R) (fr_of_fq X17) (rand_fr X17).

Example X43_ok b b' : size b = 1%N -> size b' = 1%N ->
  fq_of_bytes X43 b = fq_of_bytes X43 b' -> b = b'.
Proof.
case: b => [|c [|]] //; case: b' => [|c' [|]] //= _ _ /(congr1 (@nat_of_ord _)).
have lt a : (nat_of_ascii a < 257)%N.
  by apply/ltP; apply: (PeanoNat.Nat.lt_trans _ 256); [exact: nat_ascii_bounded | apply/ltP].
rewrite !val_Fp_nat // !modn_small //= => e.
by rewrite -[c]ascii_nat_embedding e ascii_nat_embedding.
Qed.

(* C38: a history with a failing run, a successful one, a step, then a rejected
   run; next_step without a pending run panics *)
Definition tr17 := FInstance (0 : G1 E17) 1 0 [:: 0].
Definition a17 : run_args E17 := RunArgs (pair17 3).2 None (wit17 3) None.
Example circuit17 :
  let ac := ac_new f257 tr17 0 in
  is_ret (ac_exec X17 ac [:: OpRun a17; OpRun a17; OpNext; OpRun a17]) &&
  is_panic (ac_exec X17 ac [:: OpRun a17; OpNext; OpRun a17; OpNext]).
Proof. by vm_compute. Qed.

(* C42, C41: a later step that does succeed *)
Definition h17 : B257 := hash_io X17 1 0 5%:R tr17.
Example later17 :
  let ac := ACircuit f257 (1 : B257) tr17 0 5%:R None (Some h17) None in
  is_ret (ac_run X17 ac (FInstance (0 : G1 E17) 1 (3%:R : K17^o) [:: fr_of_fq X17 h17]) (Some tr17)
            (wit17 3) (Some (2%:R : G1 E17))).1 &&
  ((1 : B257) != 0).
Proof. by vm_compute. Qed.

(* C61 *)
Example five17 : 5%:R != 0 :> K17. Proof. by vm_compute. Qed.
Example trivial17 : is_ret (create_trivial_pair 1 4 N17). Proof. by vm_compute. Qed.
Example trivial_ok17 :
  (if create_trivial_pair 1 4 N17 is Ret (w, u) then
     is_ret (is_r1cs_satisfied zero_r1cs u w N17) && ~~ is_ret (is_r1cs_satisfied R17r u w N17)
   else false).
Proof. by vm_compute. Qed.
