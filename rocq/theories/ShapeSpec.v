(* Vocabulary of the shape contracts.  Shapes in statements are in Python order; the
   model keeps the last dimension first, hence the rev in the theorems. *)
From Coq Require Import List ZArith.
From Verif Require Import Py TorchShape.
Import ListNotations.
Set Implicit Arguments.

(* k calls of a source model in a row on inputs of shape s return tensors of shape s *)
Fixpoint keeps_shape (St : Type) (model : St -> shape -> result (shape * St)) (s : shape) (k : nat) (m : St) : Prop :=
  match k with
  | O => True
  | S k' => exists m', model m s = Ok (s, m') /\ keeps_shape model s k' m'
  end.
(* i is a Python index of a dimension of size n *)
Definition index_of (n : nat) (i : Z) : Prop := (- Z.of_nat n <= i < Z.of_nat n)%Z.
