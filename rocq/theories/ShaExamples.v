(* SHA-256 on the test vectors of the standard, and a field environment meeting
   the hypotheses of C75. *)
From Coq Require Import String Ascii NArith.
Set Warnings "-notation-overridden,-ambiguous-paths".
From mathcomp Require Import all_ssreflect all_algebra.
From Verif Require Import Base ArkDomain Concrete FriModel ConcreteProps Sha256 ShaProps.

Set Implicit Arguments.
Unset Strict Implicit.
Unset Printing Implicit Defensive.

Import GRing.Theory.
Local Open Scope ring_scope.

Fixpoint be_value (b : bytes) (acc : N) : N :=
  if b is c :: b' then be_value b' (acc * 256 + N_of_ascii c)%num else acc.

Example sha256_empty : be_value (sha256_standard [::]) 0%num =
  0xe3b0c44298fc1c149afbf4c8996fb92427ae41e4649b934ca495991b7852b855%num.
Proof. vm_compute; reflexivity. Qed.
Example sha256_abc : be_value (sha256_standard (str "abc")) 0%num =
  0xba7816bf8f01cfea414140de5dae2223b00361a396177a9cb410ff61f20015ad%num.
Proof. vm_compute; reflexivity. Qed.
Example sha256_two_blocks :
  be_value (sha256_standard (str "abcdbcdecdefdefgefghfghighijhijkijkljklmklmnlmnomnopnopq")) 0%num =
  0x248d6a61d20638b8e5c026930c3e6039a33ce45964ff2167f6ecedd419db06c1%num.
Proof. vm_compute; reflexivity. Qed.

Example fri_goldilocks_env : exists (F : fieldType) (X : fri_env F),
  [/\ N.to_nat goldilocks_p \in [char F], fft X = goldilocks_fft F, generator X = 7%:R &
      sha256 X = sha256_standard].
Proof.
have [F char] := C63_goldilocks_field_exists; exists F.
exists (FriEnv sha256_standard (fun _ => [::]) (fun _ => 0) (fun _ => 0%N) (fun _ _ => 0) 7%:R
          (goldilocks_fft F)).
by split; [exact: char|reflexivity|reflexivity|reflexivity].
Qed.
