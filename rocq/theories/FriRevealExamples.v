(* A concrete case for C96 over F_17: five coefficients, a domain of 16, three
   queries at three different positions, and one query, which is not enough. *)
From Coq Require Import String Ascii NArith.
Set Warnings "-notation-overridden,-ambiguous-paths".
From mathcomp Require Import all_ssreflect all_algebra.
From mathcomp Require Import zify.
From Verif Require Import Base BaseLemmas ArkPoly ArkDomain FriModel FriSpec MerkleSpec FriExamples FriRevealProps.

Set Implicit Arguments.
Unset Strict Implicit.
Unset Printing Implicit Defensive.

Import GRing.Theory.
Local Open Scope ring_scope.

Definition made (nq : nat) : fri_proof F17 :=
  if fri_generate_proof X17 toy_digest p17 2 nq is Ret pf then pf else FriProof 0 0 0 [::] 0 [::].
Example made3 : fri_generate_proof X17 toy_digest p17 2 3 = Ret (made 3).
Proof. by rewrite /made; case: fri_generate_proof generate17. Qed.
Example enough3 : (size p17 <= 2 * size (positions (made 3)))%N.
Proof. by vm_compute. Qed.
Example shown3 : size (shown X17 (made 3)) = 6%N.
Proof. by vm_compute. Qed.

(* nothing but the polynomial of the prover fits the proof *)
Example only_p17 (f : {poly F17}) : (size f <= 5)%N ->
  (forall x v, (x, v) \in shown X17 (made 3) -> f.[x] = v) -> f = Poly p17.
Proof.
move=> sf; apply: (@C96_enough_positions_determine F17 X17 toy_digest X17_consts X17_digest p17 2 3 (made 3) 5) => //.
Qed.

(* with one query another polynomial of the same size fits too *)
Lemma another (F : fieldType) (f : {poly F}) (a : F) n : (size f <= n)%N -> (3 <= n)%N ->
  let g := f + ('X - a%:P) * ('X + a%:P) in
  [/\ (size g <= n)%N, g != f & forall x, x \in [:: a; - a] -> g.[x] = f.[x]].
Proof.
move=> sf n3 g; have Ea : 'X + a%:P = 'X - (- a)%:P by rewrite polyCN opprK.
split.
- apply: leq_trans (size_add _ _) _; rewrite geq_max sf; apply: leq_trans (size_mul_leq _ _) _.
  by rewrite Ea !size_XsubC.
- rewrite -subr_eq0 /g addrC addKr; apply: mulf_neq0; first by rewrite polyXsubC_eq0.
  by rewrite Ea polyXsubC_eq0.
by move=> x; rewrite !inE => /orP[] /eqP ->; rewrite /g !hornerE ?subrr ?addNr ?mul0r ?mulr0 addr0.
Qed.

Example generate1 : is_ret (fri_generate_proof X17 toy_digest p17 2 1).
Proof. by vm_compute. Qed.
Example made1 : fri_generate_proof X17 toy_digest p17 2 1 = Ret (made 1).
Proof. by rewrite /made; case: fri_generate_proof generate1. Qed.
Definition point1 : F17 := point X17 (made 1) (nth (deco0 F17) (fp_decommitment_list (made 1)) 0).
Example points1 : all (fun y => y \in [:: point1; - point1]) (unzip1 (shown X17 (made 1))).
Proof. by vm_compute. Qed.
Example one_query : exists f : {poly F17}, [/\ (size f <= 5)%N, f != Poly p17
  & forall x v, (x, v) \in shown X17 (made 1) -> f.[x] = v].
Proof.
have [|//|sg ne A] := @another F17 (Poly p17) point1 5; first exact: size_Poly.
eexists; split; [exact: sg|exact: ne|] => x v hx; rewrite A; last first.
  by apply: (allP points1); apply/mapP; exists (x, v).
exact: (C96_openings_are_values X17_consts X17_digest made1 hx).
Qed.

(* a guess is checked against the first root: the prover's own polynomial passes,
   another one does not *)
Definition root_of (q : seq F17) : option F17 :=
  if layer_from_poly X17 q (fp_coset (made 3)) (fp_domain_size (made 3)) is Ret l then
    if mt_root (fl_merkle_tree l) is Ret r then Some r else None
  else None.
Example guesses : root_of p17 = ohead (fp_layers_root (made 3)) /\
  root_of [:: 1%:R; 2%:R; 3%:R; 4%:R; 5%:R] <> ohead (fp_layers_root (made 3)).
Proof. by split; vm_compute. Qed.
