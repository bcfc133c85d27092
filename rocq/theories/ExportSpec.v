(* Specification side of C57. *)
From Coq Require Import String List ZArith.
From Verif Require Import Py PyObj ParamModel SepModel LoadModel.
Import ListNotations.
Local Open Scope string_scope.

(* the entries of the model section that training understands (examples/configs/*.json) *)
Definition trained_keys : list string :=
  ["n_fft"; "n_iter"; "hop_length"; "n_taps"; "n_delay"; "n_power_iter"; "use_dmc"; "ref_mic"; "source_model"].
Definition training_section (model : config) : Prop :=
  NoDup (map fst model) /\ forall k v, In (k, v) model -> In k trained_keys.
(* the same separator with default number of sources and default algorithm *)
Definition with_defaults (a : separgs) : separgs :=
  mkargs (a_n_fft a) (a_n_iter a) (a_hop a) (a_window a) (a_n_taps a) (a_n_delay a) VNone (VMember "SepAlgo" "T_ISS")
    (a_source a) (a_pb a) (a_use_dmc a) (a_n_power_iter a) (a_eps a).
(* names of the algorithms by kind *)
Definition iva_name (v : val) : Prop :=
  In v [VStr "tiss"; VStr "ip2"; VStr "five"; VMember "SepAlgo" "T_ISS"; VMember "SepAlgo" "AUXIVA_IP2"; VMember "SepAlgo" "FIVE"].
Definition beamformer_name (v : val) : Prop :=
  In v [VStr "mvdr"; VStr "mwf"; VStr "gev"; VMember "SepAlgo" "MVDR"; VMember "SepAlgo" "MWF"; VMember "SepAlgo" "GEV"].
