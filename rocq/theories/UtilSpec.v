(* Specification side of C44 and C47. *)
From mathcomp Require Import all_ssreflect all_fingroup all_algebra.
From Verif Require Import UtilModel.
Set Implicit Arguments. Unset Strict Implicit. Unset Printing Implicit Defensive.
Import GRing.Theory Num.Theory.
Local Open Scope ring_scope.

(* s lists the indices of real values p in non-increasing order *)
Definition sorts_descending (C : numClosedFieldType) n (argsort : ('I_n -> C) -> {perm 'I_n}) : Prop :=
  forall p, (forall i, p i \is Num.real) -> forall i j : 'I_n, (i <= j)%N -> p (argsort p j) <= p (argsort p i).
(* energy of one channel *)
Definition energy (C : numClosedFieldType) nN (x : 'rV[C]_nN) : C := \sum_n x 0 n * (x 0 n)^*.
(* bits of a number, or of the real part of a complex number *)
Definition bits (d : dtype) : nat :=
  match d with
  | float16 | bfloat16 | complex32 | int16 => 16 | float32 | complex64 | int32 | qint32 => 32
  | float64 | complex128 | int64 => 64 | uint8 | int8 | bool_ | quint8 | qint8 => 8 | quint4x2 => 4
  end.
