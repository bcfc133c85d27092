(* Specification for the addresses of C49: where the files of a model are fetched from and kept. *)
From Coq Require Import String Ascii List.
Import ListNotations.
Local Open Scope string_scope.

Definition only_slashes (s : string) : Prop := forall c, In c (list_ascii_of_string s) -> c = "/"%char.
Definition no_slash (s : string) : Prop := ~ In "/"%char (list_ascii_of_string s).
(* base is url without the slashes around it *)
Definition trimmed (url base : string) : Prop :=
  exists l r, url = (l ++ base ++ r)%string /\ only_slashes l /\ only_slashes r /\
    (exists c b, base = String c b /\ c <> "/"%char) /\ (exists b c, base = (b ++ String c "")%string /\ c <> "/"%char).
(* name is the last component of url, slashes at the end not counting *)
Definition last_component (url name : string) : Prop :=
  exists pre r, url = (pre ++ "/" ++ name ++ r)%string /\ no_slash name /\ name <> "" /\ name <> "." /\ only_slashes r.
