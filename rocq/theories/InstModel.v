(* Model of torchiva/utils.py:67-105: import_name and instantiate, which build the source model named in a
   configuration (nn.py:67-68, examples/separation_model.py:83). *)
From Coq Require Import String Ascii List Bool.
Import ListNotations.
Local Open Scope string_scope.
Local Open Scope list_scope.
Set Implicit Arguments.

(* utils.py:69  name.split(".") *)
Definition dot : ascii := "."%char.
Fixpoint split_dot (s : string) : list string :=
  match s with
  | EmptyString => [""]
  | String c s' =>
      if Ascii.eqb c dot then "" :: split_dot s'
      else match split_dot s' with [] => [String c ""] | h :: t => String c h :: t end
  end.
(* utils.py:74  ".".join(parts) *)
Definition join_dot (l : list string) : string := String.concat "." l.

(* exceptions: those of the import system and of the calls, and Raised n for whatever the code of an imported
   module or of the called object raises *)
Inductive err := ModuleNotFoundError | ImportError | ValueErr | TypeErr | AttributeErr | Raised (n : nat).
Inductive res (A : Type) := Done (a : A) | Fail (e : err).
Arguments Done {A}. Arguments Fail {A}.
(* Python objects found by name: modules, callables (classes, functions) and others *)
Inductive pobj := OMod (name : string) | OCall (id : nat) | OOther (id : nat).
(* a module: its attributes, and whether it is a package (has submodules) *)
Record modul := mkmod { m_attr : string -> option pobj; m_pkg : bool }.

Section Instantiate.
Variables (A V : Type).                                       (* argument values; results of calls *)
Variable char_val : ascii -> A.                               (* a string of one character *)
Variable env : string -> res modul.                           (* importing a module by its full name *)
Variable call : nat -> list A -> list (string * A) -> res V.  (* calling an object *)
(* what happens, in order: modules asked from the import system, and calls *)
Inductive event := Import (name : string) | Call (id : nat) (args : list A) (kwargs : list (string * A)).
Definition run (T : Type) := (list event * res T)%type.
Definition ret (T : Type) (r : res T) : run T := ([], r).
Definition andthen (T U : Type) (x : run T) (f : T -> run U) : run U :=
  match x with
  | (l, Done a) => let '(l', r) := f a in (l ++ l', r)
  | (l, Fail e) => (l, Fail e)
  end.
(* __import__ of an absolute name *)
Definition import_module (name : string) : run modul :=
  if String.eqb name "" then ret (Fail ValueErr) else ([Import name], env name).
(* __import__(name, fromlist=(t,)): for a package without attribute t the submodule is imported, its absence
   being ignored; then hasattr/getattr.  utils.py:77-79 *)
Definition from_list (name t : string) (m : modul) : run (option pobj) :=
  match m_attr m t with
  | Some o => ret (Done (Some o))
  | None =>
      if m_pkg m then
        let sub := (name ++ "." ++ t)%string in
        match env sub with
        | Done _ => ([Import sub], Done (Some (OMod sub)))
        | Fail ModuleNotFoundError => ([Import sub], Done None)
        | Fail e => ([Import sub], Fail e)
        end
      else ret (Done None)
  end.
(* utils.py:67-81 *)
Definition import_name (name : string) : run pobj :=
  let parts := split_dot name in                                                             (* 69 *)
  match parts with
  | [p] => andthen (import_module p) (fun _ => ret (Done (OMod p)))                          (* 71-72 *)
  | _ =>
      let module_name := join_dot (removelast parts) in                                      (* 74 *)
      let target_name := last parts "" in                                                    (* 75 *)
      andthen (import_module module_name) (fun m =>                                          (* 77 *)
        andthen (from_list module_name target_name m) (fun o =>
          match o with
          | Some o => ret (Done o)                                                           (* 78-79 *)
          | None => ret (Fail ImportError)                                                   (* 81 *)
          end))
  end.

(* values of a mapping read from a configuration file; FVal: numbers and the like, not iterable *)
Inductive field := FNone | FStr (s : string) | FList (l : list A) | FDict (d : list (string * A)) | FVal (a : A).
Definition mapping := list (string * field).
Fixpoint fget (d : mapping) (k : string) : option field :=
  match d with [] => None | (k', v) :: d' => if String.eqb k k' then Some v else fget d' k end.
Variable key_val : string -> A.                               (* a key as a value *)
(* utils.py:97-101 and the unpacking of line 105: *args of a string gives its characters, of a mapping its keys *)
Definition args_of (f : option field) : res (list A) :=
  match f with
  | None | Some FNone => Done []
  | Some (FList l) => Done l
  | Some (FStr s) => Done (map char_val (list_ascii_of_string s))
  | Some (FDict d) => Done (map (fun p => key_val (fst p)) d)
  | Some (FVal _) => Fail TypeErr
  end.
Definition kwargs_of (f : option field) : res (list (string * A)) :=
  match f with
  | None | Some FNone => Done []
  | Some (FDict d) => Done d
  | Some _ => Fail TypeErr
  end.
(* instantiate( **d), utils.py:84-105: unknown keywords and a missing name are TypeErrors *)
Definition instantiate (d : mapping) : run V :=
  if negb (forallb (fun p => existsb (String.eqb (fst p)) ["name"; "args"; "kwargs"]) d) then ret (Fail TypeErr)
  else match fget d "name" with
  | None => ret (Fail TypeErr)
  | Some (FStr name) =>
      andthen (import_name name) (fun o =>                                                   (* 103 *)
        match args_of (fget d "args"), kwargs_of (fget d "kwargs") with                      (* 105 *)
        | Done a, Done k => match o with OCall c => ([Call c a k], call c a k) | _ => ret (Fail TypeErr) end
        | _, _ => ret (Fail TypeErr)
        end)
  | Some _ => ret (Fail AttributeErr)                                                        (* 69 *)
  end.
End Instantiate.
