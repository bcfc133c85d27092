(* Specification side of C58 and C64. *)
From Coq Require Import Reals.
From Verif Require Import MaskModel.
Local Open Scope R_scope.

(* product with a complex number *)
Definition cmul (c z : R * R) : R * R := (fst c * fst z - snd c * snd z, fst c * snd z + snd c * fst z).
(* every batch element multiplied by its own factor *)
Definition rescaled (c : nat -> R * R) (X : cbatch) : cbatch := fun b f n => cmul (c b) (X b f n).
(* a network sees nothing but the values of its input *)
Definition network (layers : rbatch -> rbatch) : Prop :=
  forall x y, (forall b f n, x b f n = y b f n) -> forall b f n, layers x b f n = layers y b f n.
(* total energy of batch element b *)
Definition loud (nF nN : nat) (X : cbatch) (b : nat) : Prop :=
  INR nF * INR nN / 10 ^ 5 <= sum nF (fun f => sum nN (fun n => fst (X b f n) ^ 2 + snd (X b f n) ^ 2)).
