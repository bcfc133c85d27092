(* Specification side of C43. *)
From mathcomp Require Import all_ssreflect all_algebra.
Set Implicit Arguments. Unset Strict Implicit. Unset Printing Implicit Defensive.
Import GRing.Theory Num.Theory.
Local Open Scope ring_scope.

Section FftSpec.
Variable C : numClosedFieldType.
(* exp(-2 pi i / n) is a primitive n-th root of unity; nothing else about it is used *)
Definition unit_roots (root : nat -> C) : Prop := forall n, (0 < n)%N -> n.-primitive_root (root n).
Definition real_signal (x : seq C) : Prop := forall t, x`_t \is Num.real.
(* sample t of the linear convolution *)
Definition conv (x y : seq C) (t : nat) : C :=
  \sum_(i < size x) \sum_(j < size y | (i + j)%N == t) x`_i * y`_j.
End FftSpec.
