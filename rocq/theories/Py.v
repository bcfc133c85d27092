(* Python exceptions as values. *)
Set Implicit Arguments.

(* the exception classes raised by the modelled code (torch.linalg.LinAlgError,
   IndexError of torch reductions over empty dimensions, ...) *)
Inductive exn : Set :=
  | LinAlgError | ValueError | TypeError | AttributeError | NameError
  | IndexError | AssertionError | RuntimeError | UnboundLocalError | KeyError
  | StopIteration | NotImplementedError | FileError
  | NotANumber (* not an exception: the returned tensor consists of NaN *).

Inductive result (A : Type) : Type :=
  | Ok (a : A)
  | Err (e : exn).
Arguments Ok {A}. Arguments Err {A}.

Definition bind {A B} (r : result A) (f : A -> result B) : result B :=
  match r with Ok a => f a | Err e => Err e end.
Definition rmap {A B} (f : A -> B) (r : result A) : result B :=
  match r with Ok a => Ok (f a) | Err e => Err e end.
Definition is_ok {A} (r : result A) : bool := match r with Ok _ => true | Err _ => false end.

Declare Scope py_scope.
Delimit Scope py_scope with py.
Notation "'let*' x ':=' r 'in' k" := (bind r (fun x => k))
  (at level 200, x pattern, r at level 100, k at level 200) : py_scope.
Notation "'raise' e" := (Err e) (at level 10) : py_scope.
