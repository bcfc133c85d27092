(* Vocabulary of C67: connecting the microphones in another order. *)
From mathcomp Require Import all_ssreflect all_algebra all_fingroup.
From Verif Require Import CAlg TissModel.
Set Implicit Arguments. Unset Strict Implicit. Unset Printing Implicit Defensive.
Local Open Scope ring_scope.

Section Perm.
Variable C : numClosedFieldType.
Variables (nF nN : nat).
(* microphone i of the new array is microphone p i of the old one *)
Definition reorder c (p : 'S_c) (X : sig C nF nN c) : sig C nF nN c := [ffun f => \matrix_(i, n) X f (p i) n].
(* a model that does not depend on the order *)
Definition symmetric_model (St Out : Type) c (model : St -> sig C nF nN c -> Out) : Prop :=
  forall m p Y, model m (reorder p Y) = model m Y.
End Perm.
