(* Specification side of C49 and C50. *)
From Coq Require Import String Ascii List ZArith.
From Verif Require Import Py PyObj ParamModel SepModel LoadModel.
Import ListNotations.
Local Open Scope string_scope.
Set Implicit Arguments.

(* documented defaults of BSSSeparator *)
Inductive default : string -> val -> Prop :=
  | d_iter : default "n_iter" (VInt 20) | d_hop : default "hop_length" VNone | d_win : default "window" VNone
  | d_taps : default "n_taps" (VInt 0) | d_delay : default "n_delay" (VInt 0) | d_src : default "n_src" VNone
  | d_algo : default "algo" (VMember "SepAlgo" "T_ISS") | d_model : default "source_model" VNone
  | d_pb : default "proj_back_mic" (VInt 0) | d_dmc : default "use_dmc" (VBool false)
  | d_np : default "n_power_iter" VNone | d_eps : default "eps" (VFloat 1 (-5)).
(* p spells q, upper or lower case; q is in lower case *)
Fixpoint spells (p q : string) : Prop :=
  match p, q with
  | EmptyString, EmptyString => True
  | String c p', String d q' => (c = d \/ nat_of_ascii c + 32 = nat_of_ascii d) /\ spells p' q'
  | _, _ => False
  end.
(* "http:..." or "https:..." *)
Definition web_address (path : string) : Prop :=
  exists p rest, path = (p ++ ":" ++ rest)%string /\ (spells p "http" \/ spells p "https").
(* where the value of parameter k comes from: keyword argument, configuration file, default *)
Definition entry (d : config) (k : string) (v : yval) : Prop := In (k, v) d.
Definition absent (d : config) (k : string) : Prop := forall v, ~ In (k, v) d.
Definition supplied (cfg kw : config) (k : string) (v : yval) : Prop :=
  entry kw k v \/
  (absent kw k /\ entry cfg k v) \/
  (absent kw k /\ absent cfg k /\ exists d, v = Y d /\ default k d).
Definition params : list string :=
  ["n_fft"; "n_iter"; "hop_length"; "window"; "n_taps"; "n_delay"; "n_src"; "algo"; "source_model"; "proj_back_mic";
   "use_dmc"; "n_power_iter"; "eps"].
(* the arguments of the constructor as a list *)
Definition listed (a : separgs) : config :=
  [("n_fft", Y (VInt (a_n_fft a))); ("n_iter", Y (a_n_iter a)); ("hop_length", Y (a_hop a)); ("window", Y (a_window a));
   ("n_taps", Y (a_n_taps a)); ("n_delay", Y (a_n_delay a)); ("n_src", Y (a_n_src a)); ("algo", Y (a_algo a));
   ("source_model", match a_source a with SVal v => Y v | SDict d => YDict d end); ("proj_back_mic", Y (a_pb a));
   ("use_dmc", Y (a_use_dmc a)); ("n_power_iter", Y (a_n_power_iter a)); ("eps", Y (a_eps a))].
(* the files of a model in the cache *)
Definition cache_weights (home name : string) := home ++ "/.torchiva_models/" ++ name ++ "/model_weights.ckpt".
Definition cache_config (home name : string) := home ++ "/.torchiva_models/" ++ name ++ "/model_config.yaml".
