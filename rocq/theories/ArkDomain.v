(* Model of ark-poly's radix-2 `GeneralEvaluationDomain` as used by the repo. *)
Set Warnings "-notation-overridden,-ambiguous-paths".
From mathcomp Require Import all_ssreflect all_algebra.
From Verif Require Import Base.

Set Implicit Arguments.
Unset Strict Implicit.
Unset Printing Implicit Defensive.

Import GRing.Theory.
Local Open Scope ring_scope.

(* FftField constants: TWO_ADICITY and TWO_ADIC_ROOT_OF_UNITY. *)
Record fft_field (F : fieldType) := FftField {
  two_adicity : nat;
  two_adic_root : F;
}.

Record domain (F : fieldType) := Domain {
  dom_size : nat;
  dom_gen : F;
}.

Section ArkDomain.
Variables (F : fieldType) (P : fft_field F).

(* `F::get_root_of_unity(2^k)`: square the 2-adic root S-k times. *)
Definition root_of_unity (k : nat) : F :=
  iter (two_adicity P - k) (fun w => w * w) (two_adic_root P).

(* `GeneralEvaluationDomain::new(n)`: size rounded up to a power of two, None
   when its log exceeds the two-adicity (fields with no small subgroup). *)
Definition domain_new (n : nat) : option (domain F) :=
  let k := up_log 2 n in
  if (k <= two_adicity P)%N then Some (Domain (2 ^ k) (root_of_unity k))
  else None.

(* `domain.element(i)` = g^i *)
Definition dom_element (d : domain F) (i : nat) : F := dom_gen d ^+ i.

(* `domain.elements()` *)
Definition dom_elements (d : domain F) : seq F :=
  [seq dom_element d i | i <- iota 0 (dom_size d)].

End ArkDomain.
