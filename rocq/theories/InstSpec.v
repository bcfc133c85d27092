(* Specification for C84, independent of how names are taken apart. *)
From Coq Require Import String Ascii List.
From Verif Require Import InstModel.
Import ListNotations.
Local Open Scope string_scope.

Definition no_dot (s : string) : Prop := ~ In "."%char (list_ascii_of_string s).
(* the object that the Python statement `from m import t` binds *)
Definition names (env : string -> res modul) (m t : string) (o : pobj) : Prop :=
  m <> "" /\ exists M, env m = Done M /\
    (m_attr M t = Some o \/
     m_attr M t = None /\ m_pkg M = true /\ o = OMod (m ++ "." ++ t) /\ exists M', env (m ++ "." ++ t) = Done M').
(* nothing of that name *)
Definition absent (env : string -> res modul) (m t : string) : Prop :=
  m <> "" /\ exists M, env m = Done M /\ m_attr M t = None /\
    (m_pkg M = false \/ env (m ++ "." ++ t) = Fail ModuleNotFoundError).
Definition imports_only {A} (l : list (event A)) : Prop := forall e, In e l -> exists m, e = Import A m.
(* the keys that the mapping may have *)
Definition keys_ok {A} (d : mapping A) : Prop := forall p, In p d -> In (fst p) ["name"; "args"; "kwargs"].
(* the arguments that the entries args and kwargs stand for: nothing when absent or null *)
Inductive gives_args {A} (cv : ascii -> A) (kv : string -> A) : option (field A) -> list A -> Prop :=
  | ga_none : gives_args cv kv None []
  | ga_null : gives_args cv kv (Some (FNone A)) []
  | ga_list l : gives_args cv kv (Some (FList l)) l
  | ga_str s : gives_args cv kv (Some (FStr A s)) (map cv (list_ascii_of_string s))
  | ga_dict d : gives_args cv kv (Some (FDict d)) (map (fun p => kv (fst p)) d).
Inductive gives_kwargs {A} : option (field A) -> list (string * A) -> Prop :=
  | gk_none : gives_kwargs None []
  | gk_null : gives_kwargs (Some (FNone A)) []
  | gk_dict d : gives_kwargs (Some (FDict d)) d.
