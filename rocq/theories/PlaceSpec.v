(* Specification for the files, the lengths and the repeated entries of C78. *)
From Coq Require Import List ZArith String.
From Verif Require Import DataModel ItemModel.

(* the last three parts of a path: folder of the room, folder of the kind of signal, file *)
Definition last_three (p : path) : path := rev (firstn 3 (rev p)).
(* num/den is -1 *)
Definition minus_one (m : Z * positive) : Prop := (fst m + Zpos (snd m) = 0)%Z.
