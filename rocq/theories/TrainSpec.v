(* Specification side of C83. *)
From Coq Require Import String List ZArith.
From Verif Require Import Py PyObj ParamModel SepModel LoadModel.
Import ListNotations.
Local Open Scope string_scope.

(* entries of the model section without which no separator can be built *)
Definition required : list string := ["n_fft"; "n_iter"; "hop_length"; "n_taps"; "n_delay"; "ref_mic"; "use_dmc"].
(* entries read at all *)
Definition read_keys : list string := "n_power_iter" :: "source_model" :: required.
(* the section gives the parameters of a (all but source model, algorithm and number of sources) *)
Definition section_says (model : config) (a : separgs) : Prop :=
  yget model "n_fft" = Some (Y (VInt (a_n_fft a))) /\ yget model "n_iter" = Some (Y (a_n_iter a)) /\
  yget model "hop_length" = Some (Y (a_hop a)) /\ yget model "n_taps" = Some (Y (a_n_taps a)) /\
  yget model "n_delay" = Some (Y (a_n_delay a)) /\ yget model "ref_mic" = Some (Y (a_pb a)) /\
  yget model "use_dmc" = Some (Y (a_use_dmc a)) /\
  (yget model "n_power_iter" = Some (Y (a_n_power_iter a)) \/ yget model "n_power_iter" = None /\ a_n_power_iter a = VNone) /\
  a_window a = VNone /\ a_eps a = VFloat 1 (-5).
