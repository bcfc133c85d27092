(* The error that minimum_distortion with p < q is to minimise (C38): over the frames, the
   p-th power of the q-norm over the frequencies. *)
From mathcomp Require Import all_ssreflect all_algebra.
Set Implicit Arguments. Unset Strict Implicit. Unset Printing Implicit Defensive.
Import GRing.Theory Num.Theory.
Local Open Scope ring_scope.

Definition mixed_error (C : numClosedFieldType) nF nN (pw : C -> C -> C) (p q : C) (ref y : 'I_nF -> 'rV[C]_nN) : C :=
  \sum_n pw (\sum_f pw `|ref f 0 n - y f 0 n| q) (p / q).
