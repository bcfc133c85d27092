(* Specification vocabulary for the evaluation script (C68). *)
From Coq Require Import String List ZArith QArith.
Import ListNotations.
Local Open Scope Q_scope.
Set Implicit Arguments.

Definition sum (l : list Q) : Q := fold_right Qplus 0 l.
(* m is the mean of the non-empty list l *)
Definition is_mean (m : Q) (l : list Q) : Prop := l <> [] /\ m * inject_Z (Z.of_nat (length l)) == sum l.
(* m is the mean over the elements of l of the means of the lists f x *)
Definition mean_of_means (A : Type) (f : A -> list Q) (l : list A) (m : Q) : Prop :=
  exists ms, Forall2 (fun x y => is_mean y (f x)) l ms /\ is_mean m ms.
(* pat occurs in s *)
Definition occurs (pat s : string) : Prop := exists a b, s = (a ++ pat ++ b)%string.
(* how the checkpoint of an epoch is called: epoch=<epoch>-<rest> in the directory dir *)
Definition ckpt_path (dir : string) (er : string * string) : string := (dir ++ "epoch=" ++ fst er ++ "-" ++ snd er)%string.
