(* Specification vocabulary for the soundness of Nova folding: the extractor
   that recovers two witnesses from three answers to distinct challenges. *)
From Coq Require Import String Ascii NArith.
Set Warnings "-notation-overridden,-ambiguous-paths".
From mathcomp Require Import all_ssreflect all_algebra.
From Verif Require Import Base KzgModel NovaModel NovaSpec.

Set Implicit Arguments.
Unset Strict Implicit.
Unset Printing Implicit Defensive.

Import GRing.Theory.
Local Open Scope ring_scope.

Section Extract.
Variable F : fieldType.

(* the line through (r0, a0) and (r1, a1): slope and value at 0 *)
Definition line_slope (r0 r1 a0 a1 : F) : F := (a1 - a0) / (r1 - r0).
Definition line_const (r0 r1 a0 a1 : F) : F := a0 - r0 * line_slope r0 r1 a0 a1.

(* the parabola through (r0, a0), (r1, a1), (r2, a2): leading, middle and
   constant coefficient, by divided differences *)
Definition para2 (r0 r1 r2 a0 a1 a2 : F) : F :=
  (line_slope r0 r2 a0 a2 - line_slope r0 r1 a0 a1) / (r2 - r1).
Definition para1 (r0 r1 r2 a0 a1 a2 : F) : F :=
  line_slope r0 r1 a0 a1 - (r0 + r1) * para2 r0 r1 r2 a0 a1 a2.
Definition para0 (r0 r1 r2 a0 a1 a2 : F) : F :=
  a0 - r0 * para1 r0 r1 r2 a0 a1 a2 - r0 * r0 * para2 r0 r1 r2 a0 a1 a2.

(* entrywise application, on vectors of the length of the first one *)
Definition entrywise2 (f : F -> F -> F) (a b : seq F) : seq F :=
  mkseq (fun i => f a`_i b`_i) (size a).
Definition entrywise3 (f : F -> F -> F -> F) (a b c : seq F) : seq F :=
  mkseq (fun i => f a`_i b`_i c`_i) (size a).

(* the two witnesses and the cross term read off three folded witnesses *)
Definition extract_left (r0 r1 r2 : F) (v0 v1 v2 : fwitness F) : fwitness F :=
  FWitness (entrywise3 (para0 r0 r1 r2) (fw_e v0) (fw_e v1) (fw_e v2))
           (entrywise2 (line_const r0 r1) (fw_w v0) (fw_w v1)).
Definition extract_right (r0 r1 r2 : F) (v0 v1 v2 : fwitness F) : fwitness F :=
  FWitness (entrywise3 (para2 r0 r1 r2) (fw_e v0) (fw_e v1) (fw_e v2))
           (entrywise2 (line_slope r0 r1) (fw_w v0) (fw_w v1)).
Definition extract_cross (r0 r1 r2 : F) (v0 v1 v2 : fwitness F) : seq F :=
  entrywise3 (para1 r0 r1 r2) (fw_e v0) (fw_e v1) (fw_e v2).

End Extract.
