(* Specification side of C54. *)
From Coq Require Import List ZArith QArith Qround Permutation.
From Verif Require Import Py ClipModel.
Import ListNotations.
Set Implicit Arguments.

(* order of the numbers which are not NaN *)
Definition num_le (x y : num) : Prop :=
  match x, y with
  | Fin a, Fin b => (a <= b)%Q
  | Fin _, Inf => True
  | Inf, Inf => True
  | _, _ => False
  end.
Definition increasing (l : list num) : Prop :=
  forall i j x y, (i < j)%nat -> nth_error l i = Some x -> nth_error l j = Some y -> num_le x y.
(* rounding to floats, as far as needed: monotone, and exact on the integers (below 2^53) *)
Definition rounding (fl : Q -> Q) : Prop :=
  (forall a b, (a <= b)%Q -> (fl a <= fl b)%Q) /\ forall z, (fl (inject_Z z) == inject_Z z)%Q.
(* at least k elements of l have the property P *)
Definition at_least (k : nat) (P : num -> Prop) (l : list num) : Prop :=
  exists l1 l2, Permutation l (l1 ++ l2) /\ length l1 = k /\ forall x, In x l1 -> P x.
