(* Concrete cases meeting the hypotheses of the FRI theorems: the field with 17
   elements (two-adicity 4, root 3, generator 3), a toy digest, and real runs
   of the modelled prover and verifier, evaluated by the kernel. *)
From Coq Require Import String Ascii NArith.
Set Warnings "-notation-overridden,-ambiguous-paths".
From mathcomp Require Import all_ssreflect all_algebra.
From mathcomp Require Import zify ring.
From Verif Require Import Base BaseLemmas ArkPoly ArkDomain ArkDomainLemmas FriModel FriSpec FriProps
  FriAuthSpec FriAuthProps.

Set Implicit Arguments.
Unset Strict Implicit.
Unset Printing Implicit Defensive.

Import GRing.Theory.
Local Open Scope ring_scope.

Definition F17 := [fieldType of 'F_17].

Definition toy_sum (b : bytes) : F17 :=
  foldr (fun c acc => (nat_of_ascii c)%:R + acc * 5%:R) 1 b.
Definition toy_digest (b : bytes) : bytes := le_bytes 8 (toy_sum b).

Definition X17 : fri_env F17 :=
  FriEnv toy_digest (fun x : F17 => decimal x) toy_sum (fun x : F17 => (7 * x)%N)
    (fun seed k => (N.to_nat (seed mod 17)%num)%:R * 3%:R + (k * k + 1)%:R)
    (3%:R) (FftField 4 (3%:R : F17)).

Example X17_consts : fft_consts_ok X17.
Proof.
by split=> //; apply: (@prim_root_pow2 _ _ 3); apply/eqP; vm_compute.
Qed.

Example X17_digest : digest_8_bytes toy_digest.
Proof. by move=> b; rewrite size_le_bytes. Qed.

Example X17_generator : generator X17 != 0.
Proof. by vm_compute. Qed.

Definition p17 : seq F17 := [:: 1%:R; 2%:R; 3%:R; 4%:R; 6%:R].

(* a proof is generated for five coefficients, blow-up 2, three queries *)
Example generate17 : is_ret (fri_generate_proof X17 toy_digest p17 2 3).
Proof. by vm_compute. Qed.

Example verify17 :
  (pf <- fri_generate_proof X17 toy_digest p17 2 3;; fri_verify X17 toy_digest pf) = Ret tt.
Proof. by vm_compute. Qed.

(* C02: a three-leaf tree: leaf 0 opens, the last leaf does not *)
Example open3 :
  is_ret (mt_generate_proof (mt_new X17 [:: 1; 2%:R; 3%:R]) 0) /\
  mt_generate_proof (mt_new X17 [:: 1; 2%:R; 3%:R]) 2 = Panic.
Proof. by vm_compute. Qed.

(* C04: a field larger than 123 *)
Example C04_hyps : prime 127 /\ (123 < 127)%N.
Proof. by []. Qed.

(* C08: the three panic causes, and a success *)
Example panic_small : fri_generate_proof X17 toy_digest [:: 5%:R] 1 1 = Panic.
Proof. by vm_compute. Qed.
Example panic_large : fri_generate_proof X17 toy_digest p17 4 1 = Panic.
Proof. by vm_compute. Qed.
Example panic_zero : fri_generate_proof X17 toy_digest [::] 8 1 = Panic.
Proof. by vm_compute. Qed.

(* C13: hypotheses met by a full-degree polynomial on a domain of size 4 *)
Example no_degree_bound17 :
  let p : seq F17 := [:: 1; 2%:R; 3%:R; 4%:R] in
  [/\ (0 < 2 <= two_adicity (fft X17))%N, (2 ^ 2.-1 < size p <= 2 ^ 2)%N
    & forall roots, honest_root_list X17 toy_digest (Poly p) (generator X17) 2 roots ->
        folded X17 toy_digest (Poly p) roots 2 != 0].
Proof.
move=> p; split=> // roots Hr; apply/negP => /eqP E0.
have [/= Hiff _] := C08_generate_panics_iff p 1 1 X17_consts X17_digest.
have : fri_generate_proof X17 toy_digest p 1 1 = Panic.
  by apply/Hiff; constructor 3; exists roots.
by vm_compute.
Qed.

(* C15: a starved history and a good one *)
Example starved17 : starved [:: OpDigest (1 : F17); OpChallenge; OpChallenges 2].
Proof. by exists [:: OpDigest (1 : F17)], OpChallenge, [::], (OpChallenges 2), [::]. Qed.
Example good17 :
  is_ret (tr_run X17 toy_digest (tr_new X17 toy_digest 0)
    [:: OpDigest (1 : F17); OpChallenge; OpDigest 2%:R; OpChallenges 2]).
Proof. by vm_compute. Qed.

(* C16: the toy digest has fixed length and the printing is decimal *)
Example C16_hyps : (forall b, size (toy_digest b) = 8%N) /\
  (forall x : 'F_17, to_string X17 x = decimal x).
Proof. by split=> // b; rewrite size_le_bytes. Qed.

(* C70: layers 1,2,3,4 / 5,6 with constant 7 belong to no polynomial *)
Definition bad_layer17 (j : nat) : seq F17 :=
  if j is 0%N then [:: 1; 2%:R; 3%:R; 4%:R] else [:: 5%:R; 6%:R].
Definition bad_proof17 : fri_proof F17 :=
  FriProof 4 (3%:R) 2 [:: merkle_root X17 2 (bad_layer17 0); merkle_root X17 1 (bad_layer17 1)] 7%:R [::].
Example rejection17 :
  [/\ (0 < 2 <= two_adicity (fft X17))%N, fp_coset bad_proof17 != 0,
      layers_of X17 2 (fp_layers_root bad_proof17) bad_layer17
    & ~ (exists f : {poly F17},
      [/\ (size f <= 2 ^ 2)%N,
          forall j, (j < 2)%N -> bad_layer17 j =
            coset_values X17 (folded X17 toy_digest f (fp_layers_root bad_proof17) j)
              (fp_coset bad_proof17 ^+ (2 ^ j)) (2 - j)
        & folded X17 toy_digest f (fp_layers_root bad_proof17) 2 = (fp_const_val bad_proof17)%:P])].
Proof.
have c0 : fp_coset bad_proof17 != 0 by vm_compute.
have Ss j : (j < 2)%N -> size (bad_layer17 j) = (2 ^ (2 - j))%N by case: j => [|[|]].
split=> //; first by split=> // -[|[|]].
have n2 : (0 < 2 <= two_adicity (fft X17))%N by [].
move/(C70_consistent_everywhere toy_digest X17_consts (fp_layers_root bad_proof17)
        (fp_const_val bad_proof17) n2 c0 Ss)/(_ 0%N 0%N isT isT)/eqP.
by vm_compute.
Qed.
