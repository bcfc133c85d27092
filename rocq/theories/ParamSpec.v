(* Specification vocabulary for C01, C61: which parameters each class has and where
   their values come from. *)
From Coq Require Import String List ZArith.
From Verif Require Import PyObj ParamModel.
Import ListNotations.
Local Open Scope string_scope.
Set Implicit Arguments.

(* documented parameters *)
Definition is_param (c : cls) (p : string) : Prop :=
  match c with
  | TISS => In p ["n_iter"; "n_taps"; "n_delay"; "n_src"; "model"; "proj_back_mic"; "use_dmc"; "eps"]
  | IP => In p ["n_iter"; "n_src"; "model"; "proj_back_mic"; "eps"]
  | IP2 => In p ["n_iter"; "model"; "proj_back_mic"; "eps"]
  | Five => In p ["n_iter"; "model"; "proj_back_mic"; "eps"; "n_power_iter"]
  | Wpe => In p ["n_iter"; "n_delay"; "n_taps"; "model"; "eps"]
  | MVDR => In p ["mask_model"; "ref_mic"; "eps"; "mvdr_type"; "n_power_iter"]
  | MWF => In p ["mask_model"; "ref_mic"; "eps"; "time_invariant"]
  | GEV => In p ["mask_model"; "ref_mic"; "eps"]
  end.
Definition is_beamformer (c : cls) : Prop := match c with MVDR | MWF | GEV => True | _ => False end.

(* a dictionary of arguments binds p to v; an argument not given is None *)
Definition given (a : dict) (p : string) (v : val) : Prop :=
  dget a p = Some v \/ (dget a p = None /\ v = VNone).
(* v is the value the object holds for p after construction with arguments a *)
Definition configured (c : cls) (fresh : nat) (a : dict) (p : string) (v : val) : Prop :=
  exists u, given a p u /\
  ((u <> VNone /\ v = u) \/
   (u = VNone /\
    v = (if String.eqb p "eps" then match c with MVDR | MWF | GEV => VNone | _ => VFloat 1 (-5) end
         else if String.eqb p "model" then match c with Wpe => VNone | _ => VMod fresh end
         else VNone))).
(* v is the value a call with arguments b uses when the object holds conf *)
Definition effective (b : dict) (p : string) (conf v : val) : Prop :=
  exists u, given b p u /\ ((u <> VNone /\ v = u) \/ (u = VNone /\ v = conf)).
(* the constructor arguments are acceptable *)
Definition model_ok (c : cls) (a : dict) : Prop :=
  match c with
  | TISS | IP | IP2 | Five => given a "model" VNone \/ exists i, given a "model" (VMod i) \/ given a "model" (VFun i)
  | Wpe => given a "model" VNone \/ exists i, given a "model" (VMod i)
  | _ => True
  end.
(* the last call that returned *)
Fixpoint last_ok (h : list call) : option call :=
  match h with
  | [] => None
  | k :: h' => match last_ok h' with Some k' => Some k' | None => if c_raises k then None else Some k end
  end.
Definition jval (k : call) := match c_J k with Some j => VTensor j | None => VNone end.

(* the default values the docstrings give (t_iss.py:312-337, auxiva_ip.py:133-147, auxiva_ip2.py:100-110,
   five.py:90-102, wpe.py:92-103, beamformer.py:170-189, 316-327, 430-436), as used by a call: no
   model means the Laplace model created by the constructor (for WPE: no model), eps None means 1e-5 *)
Definition documented (c : cls) (fresh : nat) : dict :=
  match c with
  | TISS => [("n_iter", VInt 10); ("n_taps", VInt 0); ("n_delay", VInt 0); ("n_src", VNone); ("model", VMod fresh);
             ("proj_back_mic", VInt 0); ("use_dmc", VBool false); ("eps", VFloat 1 (-5))]
  | IP => [("n_iter", VInt 10); ("n_src", VNone); ("model", VMod fresh); ("proj_back_mic", VInt 0); ("eps", VFloat 1 (-5))]
  | IP2 => [("n_iter", VInt 10); ("model", VMod fresh); ("proj_back_mic", VInt 0); ("eps", VFloat 1 (-5))]
  | Five => [("n_iter", VInt 10); ("model", VMod fresh); ("proj_back_mic", VInt 0); ("eps", VFloat 1 (-5)); ("n_power_iter", VNone)]
  | Wpe => [("n_iter", VInt 3); ("n_taps", VInt 5); ("n_delay", VInt 3); ("model", VNone); ("eps", VFloat 1 (-5))]
  | MVDR => [("ref_mic", VInt 0); ("eps", VFloat 1 (-5)); ("mvdr_type", VStr "rtf"); ("n_power_iter", VNone)]
  | MWF => [("ref_mic", VInt 0); ("eps", VFloat 1 (-5)); ("time_invariant", VBool true)]
  | GEV => [("ref_mic", VInt 0); ("eps", VFloat 1 (-5))]
  end.
