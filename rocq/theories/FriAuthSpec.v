(* Specification vocabulary for FRI openings that do end in the published
   roots (the check the verifier omits, see C11). *)
From Coq Require Import String Ascii NArith.
Set Warnings "-notation-overridden,-ambiguous-paths".
From mathcomp Require Import all_ssreflect all_algebra.
From Verif Require Import Base ArkDomain FriModel FriSpec.

Set Implicit Arguments.
Unset Strict Implicit.
Unset Printing Implicit Defensive.

Import GRing.Theory.
Local Open Scope ring_scope.

Section FriAuth.
Variables (F : fieldType) (X : fri_env F) (H : bytes -> bytes).

(* layers: for each of the n roots, the vector of 2^(n-j) values it is the
   Merkle root of *)
Definition layers_of (n : nat) (roots : seq F) (layer : nat -> seq F) : Prop :=
  size roots = n /\
  forall j, (j < n)%N ->
    size (layer j) = (2 ^ (n - j))%N /\ nth 0 roots j = merkle_root X (n - j) (layer j).

(* a complete decommitment all of whose paths end in the published roots *)
Definition authenticated (n : nat) (roots : seq F) (d : decommitment F) : Prop :=
  [/\ size (dc_evaluations d) = n, size (dc_sym_evaluations d) = n,
      size (dc_auth_paths d) = n, size (dc_sym_auth_paths d) = n
    & forall j, (j < n)%N ->
      let p := nth (path0 F) (dc_auth_paths d) j in
      let q := nth (path0 F) (dc_sym_auth_paths d) j in
      [/\ mp_root p = nth 0 roots j, mp_root q = nth 0 roots j,
          size (mp_hash_proof p) = (n - j)%N & size (mp_hash_proof q) = (n - j)%N]].

(* value at x^2 of the fold by r of a function with values v at x, sv at -x *)
Definition fold_value (r x v sv : F) : F := (v + sv) / 2%:R + r * ((v - sv) / (2%:R * x)).

(* layer j+1 (or the constant, after the last layer) is the fold of layer j at
   query position q; c is the coset shift *)
Definition fold_consistent (n : nat) (roots : seq F) (layer : nat -> seq F) (c v : F)
    (q j : nat) : Prop :=
  let i := (q %% 2 ^ (n - j))%N in
  let si := ((i + 2 ^ (n - j.+1)) %% 2 ^ (n - j))%N in
  fold_value (fri_challenge X H roots j) (omega X (n - j) ^+ i * c ^+ (2 ^ j))
    (nth 0 (layer j) i) (nth 0 (layer j) si) =
  if j.+1 == n then v else nth 0 (layer j.+1) (q %% 2 ^ (n - j.+1)).

(* two Merkle proofs from which a hash collision can be read off: the leaves,
   or the two children hashed at the same level *)
Definition collision_between (p q : merkle_proof F) : Prop :=
  (mp_leaf_val p <> mp_leaf_val q /\ hash X (mp_leaf_val p) = hash X (mp_leaf_val q)) \/
  exists2 l, (l < size (mp_hash_proof p))%N &
    let a := nth (0, 0) (node_inputs X (mp_index p) (hash X (mp_leaf_val p)) (mp_hash_proof p)) l in
    let b := nth (0, 0) (node_inputs X (mp_index q) (hash X (mp_leaf_val q)) (mp_hash_proof q)) l in
    a <> b /\ hash_slice X [:: a.1; a.2] = hash_slice X [:: b.1; b.2].

(* one of the paths of d collides with the proof generated from the layer it
   opens *)
Definition collides_with_layers (n : nat) (layer : nat -> seq F) (d : decommitment F) : Prop :=
  exists j p p',
    [/\ (j < n)%N,
        p = nth (path0 F) (dc_auth_paths d) j \/ p = nth (path0 F) (dc_sym_auth_paths d) j,
        mt_generate_proof (mt_new X (layer j)) (mp_index p) = Ret p'
      & collision_between p p'].

End FriAuth.
