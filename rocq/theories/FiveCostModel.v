(* Model of five.py:220 with the Laplace model (classic.py:33-43), which has no state. *)
From mathcomp Require Import all_ssreflect all_algebra.
From Verif Require Import CAlg Py LinalgModel TissModel SrcModel FiveModel.
Set Implicit Arguments. Unset Strict Implicit. Unset Printing Implicit Defensive.
Import GRing.Theory Num.Theory Order.TTheory.
Local Open Scope ring_scope.

(* five.py:220  weights = model(Y) *)
Definition lap (C : numClosedFieldType) nF nN (em : C) (m : unit) (Y : 'M[C]_(nF, nN)) : 'M[C]_(nF, nN) * unit :=
  (laplace em Y, m).
