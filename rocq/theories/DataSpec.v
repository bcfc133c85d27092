(* Specification side of C53, C55 and C56. *)
From Coq Require Import List ZArith.
From Verif Require Import Py DataModel.
Import ListNotations.
Set Implicit Arguments.

(* a for loop over the loaders: the batches delivered until StopIteration *)
Inductive epoch B (contents : nat -> list (list B)) : inter B -> list B -> inter B -> Prop :=
  | stop s s' : next contents s = (None, s') -> epoch contents s [] s'
  | more s b s1 bs s' : next contents s = (Some b, s1) -> epoch contents s1 bs s' -> epoch contents s (b :: bs) s'.
(* round robin: the r-th batches of the loaders that have one, for r = 0, 1, ..., n - 1 *)
Definition round B (ls : list (list B)) (r : nat) : list B :=
  flat_map (fun l => match nth_error l r with Some b => [b] | None => [] end) ls.
Definition round_robin B (n : nat) (ls : list (list B)) : list B := flat_map (round ls) (seq 0 n).

(* largest and smallest element *)
Definition is_max (l : list Z) (m : Z) : Prop := In m l /\ forall x, In x l -> (x <= m)%Z.
Definition is_min (l : list Z) (m : Z) : Prop := In m l /\ forall x, In x l -> (m <= x)%Z.

(* a row holding the signal d unmodified from sample o on, and zero elsewhere *)
Definition embeds S (zero : S) (row : nat -> nat -> S) (d : sig S) (o n : nat) : Prop :=
  (o + len d <= n)%nat /\
  forall c t, (c < chans d)%nat -> (t < n)%nat ->
    row c t = if Nat.leb o t then if Nat.ltb t (o + len d) then at_ d c (t - o) else zero else zero.
