(* Python values, keyword dictionaries and the attribute protocol of torch.nn.Module
   (torch/nn/modules/module.py, __setattr__/__getattr__), as far as the constructors
   and _set_params of torchiva use them. *)
From Coq Require Import String List ZArith Bool.
From Verif Require Import Py.
Import ListNotations.
Local Open Scope string_scope.
Local Open Scope py_scope.
Set Implicit Arguments.

(* VFloat m e is the decimal literal m * 10^e; VMod/VFun are identified by a number
   (object identity); VArray stands for a numpy array, VMember c n for a member of an
   enum.Enum class *)
Inductive val : Set :=
  | VNone | VInt (z : Z) | VFloat (m e : Z) | VBool (b : bool) | VStr (s : string)
  | VMod (id : nat) | VFun (id : nat) | VTensor (id : nat) | VArray (id : nat)
  | VMember (cls name : string).

(* Python dictionaries with string keys keep insertion order; assigning to an existing
   key keeps its position *)
Definition dict := list (string * val).
Fixpoint dget (d : dict) (k : string) : option val :=
  match d with
  | [] => None
  | (k', v) :: d' => if String.eqb k k' then Some v else dget d' k
  end.
Fixpoint dset (d : dict) (k : string) (v : val) : dict :=
  match d with
  | [] => [(k, v)]
  | (k', v') :: d' => if String.eqb k k' then (k', v) :: d' else (k', v') :: dset d' k v
  end.
Fixpoint dupdate (d kw : dict) : dict :=
  match kw with [] => d | (k, v) :: kw' => dupdate (dset d k v) kw' end.
Definition ddel (d : dict) (k : string) : dict := filter (fun p => negb (String.eqb k (fst p))) d.

(* an nn.Module instance: __dict__ and _modules; the class contributes its properties
   (name, attribute they return), all without setter *)
Record obj := mkobj { attrs : dict; mods : dict }.
Definition empty_obj := mkobj [] [].
Definition klass := list (string * string).
Fixpoint prop (c : klass) (k : string) : option string :=
  match c with
  | [] => None
  | (k', a) :: c' => if String.eqb k k' then Some a else prop c' k
  end.

Definition raw_get (o : obj) (k : string) : result val :=
  match dget (attrs o) k with
  | Some v => Ok v
  | None => match dget (mods o) k with Some v => Ok v | None => raise AttributeError end
  end.
Definition getattr (c : klass) (o : obj) (k : string) : result val :=
  match prop c k with Some a => raw_get o a | None => raw_get o k end.
(* modules are registered; a registered name only accepts modules and None; a property
   without setter is read-only *)
Definition setattr (c : klass) (o : obj) (k : string) (v : val) : result obj :=
  match v with
  | VMod _ => Ok (mkobj (ddel (attrs o) k) (dset (mods o) k v))
  | _ => match dget (mods o) k with
         | Some _ => match v with
                     | VNone => Ok (mkobj (attrs o) (dset (mods o) k v))
                     | _ => raise TypeError
                     end
         | None => match prop c k with
                   | Some _ => raise AttributeError
                   | None => Ok (mkobj (dset (attrs o) k v) (mods o))
                   end
         end
  end.

Definition is_none (v : val) : bool := match v with VNone => true | _ => false end.
Definition callable (v : val) : bool := match v with VMod _ | VFun _ => true | _ => false end.
Fixpoint setattrs (c : klass) (o : obj) (l : dict) : result obj :=
  match l with [] => Ok o | (k, v) :: l' => let* o' := setattr c o k v in setattrs c o' l' end.
