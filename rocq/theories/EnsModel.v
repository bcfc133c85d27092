(* Model of examples/test.py, load_ensemble_model (140-162). *)
From mathcomp Require Import all_ssreflect all_algebra.
From Verif Require Import Py.
Set Implicit Arguments.
Unset Strict Implicit.
Unset Printing Implicit Defensive.
Import GRing.Theory Num.Theory.
Local Open Scope ring_scope.
Local Open Scope py_scope.

Section Ens.
Variables (F : numFieldType) (K : eqType).
(* tensors of a state dictionary, flattened: floating point (exact) or integer *)
Inductive tensor := FT of seq F | IT of seq int.
Definition zipw (T U V : Type) (f : T -> U -> V) (x : seq T) (y : seq U) : result (seq V) :=
  if size x == size y then Ok [seq f p.1 p.2 | p <- zip x y] else raise RuntimeError.
(* a += b in place: the type of a is kept, adding floats to integers fails *)
Definition iadd (a b : tensor) : result tensor :=
  match a, b with
  | FT x, FT y => rmap FT (zipw +%R x y)
  | FT x, IT y => rmap FT (zipw (fun u v => u + v%:~R) x y)
  | IT x, IT y => rmap IT (zipw +%R x y)
  | IT _, FT _ => raise RuntimeError
  end.
(* (a / n).to(dtype): conversion to an integer type truncates towards zero *)
Definition mean (n : nat) (a : tensor) : tensor :=
  match a with
  | FT x => FT [seq u / n%:R | u <- x]
  | IT x => IT [seq sgz u * (absz u %/ n)%N%:Z | u <- x]
  end.
Definition state := seq (K * tensor).
(* d[k] += v *)
Fixpoint add_at (d : state) (k : K) (v : tensor) : result state :=
  match d with
  | [::] => raise KeyError
  | (k', u) :: d' => if k' == k then let* w := iadd u v in Ok ((k', w) :: d')
                     else let* r := add_at d' k v in Ok ((k', u) :: r)
  end.
(* 148-149 *)
Fixpoint add_all (d s : state) : result state :=
  match s with
  | [::] => Ok d
  | (k, v) :: s' => let* d' := add_at d k v in add_all d' s'
  end.
(* 142-149, after the first epoch *)
Fixpoint accumulate (d : state) (ss : seq state) : result state :=
  match ss with
  | [::] => Ok d
  | s :: ss' => let* d' := add_all d s in accumulate d' ss'
  end.
(* 140-157  the dictionary loaded into the source model of the last epoch, given the
   dictionaries found for the epochs; without epochs the name is unbound *)
Definition ensemble (ss : seq state) : result state :=
  match ss with
  | [::] => raise UnboundLocalError
  | s :: ss' => let* d := accumulate s ss' in Ok [seq (p.1, mean (size ss) p.2) | p <- d]
  end.
End Ens.
