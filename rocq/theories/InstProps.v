(* C84: the source model named in a configuration (instantiate, import_name). *)
From Coq Require Import String Ascii List Bool.
From Verif Require Import InstModel InstSpec InstProofs.
Import ListNotations.
Local Open Scope string_scope.
Local Open Scope list_scope.

(* a name module.Class with arguments calls the class once with exactly these arguments and gives its result *)
Theorem c84_class A V cv env (call : nat -> list A -> list (string * A) -> res V) kv m t c a k :
  no_dot t -> names env m t (OCall c) ->
  instantiate cv env call kv [("name", FStr A (m ++ "." ++ t)); ("args", FList a); ("kwargs", FDict k)] =
    ([Import A m; Call c a k], call c a k).
Proof. exact (class_lemma A V cv env call kv m t c a k). Qed.
Print Assumptions c84_class.

(* absent or null entries stand for no arguments *)
Theorem c84_defaults A V cv env (call : nat -> list A -> list (string * A) -> res V) kv m t c d :
  no_dot t -> names env m t (OCall c) ->
  In d [[("name", FStr A (m ++ "." ++ t))]; [("name", FStr A (m ++ "." ++ t)); ("args", FNone A); ("kwargs", FNone A)]] ->
  instantiate cv env call kv d = ([Import A m; Call c [] []], call c [] []).
Proof. exact (default_lemma A V cv env call kv m t c d). Qed.
Print Assumptions c84_defaults.

(* for every mapping: modules are imported and nothing is called nor returned, or afterwards one object is called
   once: the one that `from m import t` binds, for the name m.t, with the arguments of the mapping *)
Theorem c84_one_call A V cv env (call : nat -> list A -> list (string * A) -> res V) kv d :
  let '(l, r) := instantiate cv env call kv d in
  (imports_only l /\ forall v, r <> Done v) \/
  exists i m t c a k, l = i ++ [Call c a k] /\ imports_only i /\ r = call c a k /\
    fget d "name" = Some (FStr A (m ++ "." ++ t)) /\ no_dot t /\ names env m t (OCall c) /\
    gives_args cv kv (fget d "args") a /\ gives_kwargs (fget d "kwargs") k.
Proof. exact (run_lemma A V cv env call kv d). Qed.
Print Assumptions c84_one_call.

(* a module without that name: ImportError, nothing called *)
Theorem c84_missing A V cv env (call : nat -> list A -> list (string * A) -> res V) kv d m t :
  keys_ok d -> fget d "name" = Some (FStr A (m ++ "." ++ t)) -> no_dot t -> absent env m t ->
  snd (instantiate cv env call kv d) = Fail ImportError /\ imports_only (fst (instantiate cv env call kv d)).
Proof. exact (missing_lemma A V cv env call kv d m t). Qed.
Print Assumptions c84_missing.

(* another key, or no name: TypeError before anything is imported *)
Theorem c84_keys A V cv env (call : nat -> list A -> list (string * A) -> res V) kv d :
  ~ keys_ok d \/ fget d "name" = None -> instantiate cv env call kv d = ([], Fail TypeErr).
Proof. exact (key_lemma A V cv env call kv d). Qed.
Print Assumptions c84_keys.

(* a user expects "name: Class" without a module to be usable, import_name having a case for it: it never gives
   anything, whatever can be imported *)
Theorem c84_bare_refuted A V cv env (call : nat -> list A -> list (string * A) -> res V) kv d t :
  fget d "name" = Some (FStr A t) -> no_dot t ->
  imports_only (fst (instantiate cv env call kv d)) /\ forall v, snd (instantiate cv env call kv d) <> Done v.
Proof. exact (bare_lemma A V cv env call kv d t). Qed.
Print Assumptions c84_bare_refuted.

(* a user expects a class defined inside a class to be found by its qualified name: the outer class is asked from
   the import system as if it were a module *)
Theorem c84_nested_refuted A V cv env (call : nat -> list A -> list (string * A) -> res V) kv d m outer inner :
  keys_ok d -> fget d "name" = Some (FStr A (m ++ "." ++ outer ++ "." ++ inner)) -> no_dot inner ->
  env (m ++ "." ++ outer)%string = Fail ModuleNotFoundError ->
  instantiate cv env call kv d = ([Import A (m ++ "." ++ outer)], Fail ModuleNotFoundError).
Proof. exact (nested_lemma A V cv env call kv d m outer inner). Qed.
Print Assumptions c84_nested_refuted.

(* a user expects the configuration of a model, read with yaml.safe_load, to build networks only: every callable of
   every module is called, with any arguments, by some mapping *)
Theorem c84_networks_only_refuted A V cv env (call : nat -> list A -> list (string * A) -> res V) kv (network : nat -> Prop) m t c :
  no_dot t -> names env m t (OCall c) -> ~ network c ->
  forall a k, ~ (forall d c' a' k', In (Call c' a' k') (fst (instantiate cv env call kv d)) -> network c') /\
    exists d, In (Call c a k) (fst (instantiate cv env call kv d)).
Proof. exact (networks_lemma A V cv env call kv network m t c). Qed.
Print Assumptions c84_networks_only_refuted.

(* a package with a module of networks, and the module os *)
Definition e_env (s : string) : res modul :=
  if String.eqb s "torchiva.models" then
    Done (mkmod (fun t => if String.eqb t "GLUMask" then Some (OCall 1) else if String.eqb t "eps" then Some (OOther 7) else None) false)
  else if String.eqb s "torchiva" then Done (mkmod (fun _ => None) true)
  else if String.eqb s "os" then Done (mkmod (fun t => if String.eqb t "system" then Some (OCall 2) else None) false)
  else Fail ModuleNotFoundError.
Definition e_call (c : nat) (a : list string) (_ : list (string * string)) : res (nat * list string) := Done (c, a).
Definition e_inst := instantiate (fun c => String c "") e_env e_call (fun s => s).
Example c84_class_ex :
  no_dot "GLUMask" /\ names e_env "torchiva.models" "GLUMask" (OCall 1) /\
  e_inst [("name", FStr _ "torchiva.models.GLUMask"); ("kwargs", FDict [("n_input", "513")])] =
    ([Import _ "torchiva.models"; Call 1 [] [("n_input", "513")]], Done (1, [])).
Proof.
  split; [unfold no_dot; simpl; intuition discriminate|]. split; [|reflexivity].
  split; [discriminate|]. eexists. split; [reflexivity|]. left. reflexivity.
Qed.
Example c84_defaults_ex : e_inst [("name", FStr _ "torchiva.models.GLUMask")] = ([Import _ "torchiva.models"; Call 1 [] []], Done (1, [])).
Proof. reflexivity. Qed.
(* the arguments of a string are its characters *)
Example c84_one_call_ex : e_inst [("name", FStr _ "torchiva.models.GLUMask"); ("args", FStr _ "ab")] =
  ([Import _ "torchiva.models"; Call 1 ["a"; "b"] []], Done (1, ["a"; "b"])).
Proof. reflexivity. Qed.
(* a submodule of a package is found, but cannot be called *)
Example c84_submodule_ex : names e_env "torchiva" "models" (OMod "torchiva.models") /\
  e_inst [("name", FStr _ "torchiva.models")] = ([Import _ "torchiva"; Import _ "torchiva.models"], Fail TypeErr).
Proof.
  split; [|reflexivity]. split; [discriminate|]. eexists. split; [reflexivity|]. right.
  split; [reflexivity|]. split; [reflexivity|]. split; [reflexivity|]. eexists. reflexivity.
Qed.
Example c84_missing_ex : absent e_env "torchiva.models" "GLUMsk" /\
  e_inst [("name", FStr _ "torchiva.models.GLUMsk")] = ([Import _ "torchiva.models"], Fail ImportError) /\
  absent e_env "torchiva" "nets" /\
  e_inst [("name", FStr _ "torchiva.nets")] = ([Import _ "torchiva"; Import _ "torchiva.nets"], Fail ImportError).
Proof.
  split; [|split; [reflexivity|split; [|reflexivity]]]; (split; [discriminate|]); eexists; (split; [reflexivity|]);
    (split; [reflexivity|]); [left|right]; reflexivity.
Qed.
Example c84_keys_ex : e_inst [("name", FStr _ "torchiva.models.GLUMask"); ("kwarg", FDict [("n_input", "513")])] = ([], Fail TypeErr) /\
  e_inst [("args", FList ["1"])] = ([], Fail TypeErr).
Proof. split; reflexivity. Qed.
Example c84_bare_ex : no_dot "torchiva" /\ e_inst [("name", FStr _ "torchiva")] = ([Import _ "torchiva"], Fail TypeErr) /\
  e_inst [("name", FStr _ "GLUMask")] = ([Import _ "GLUMask"], Fail ModuleNotFoundError).
Proof. split; [unfold no_dot; simpl; intuition discriminate|split; reflexivity]. Qed.
Example c84_nested_ex : e_env "torchiva.models.GLUMask" = Fail ModuleNotFoundError /\
  e_inst [("name", FStr _ "torchiva.models.GLUMask.Block")] = ([Import _ "torchiva.models.GLUMask"], Fail ModuleNotFoundError).
Proof. split; reflexivity. Qed.
Example c84_networks_only_ex : e_inst [("name", FStr _ "os.system"); ("args", FList ["reboot"])] =
  ([Import _ "os"; Call 2 ["reboot"] []], Done (2, ["reboot"])).
Proof. reflexivity. Qed.
