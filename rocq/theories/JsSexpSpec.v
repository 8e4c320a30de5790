(** Specification for C97: the characters that Rust and JavaScript write in the same way. *)
From Verif Require Import Base TokModel.

Definition written_alike_js (unprintable : char -> bool) (c : char) : Prop :=
  In c [cTAB; cCR; cLF; cDQ; cBSL] \/ (32 <= c)%N /\ unprintable c = false.
