(* Model of examples/separation_model.py:71-99: the separator built for training, with the try statements.
   algorithm and n_src are config["algorithm"] and config["training"]["n_src"], model is config["model"];
   the entries of config["training"] read before (51-73) are not modelled. *)
From Coq Require Import String List ZArith Bool.
From Verif Require Import Py PyObj ParamModel SepModel LoadModel ExportModel.
Import ListNotations.
Local Open Scope string_scope.
Local Open Scope py_scope.
Set Implicit Arguments.

Section Train.
Variable get_window : string -> Z -> result nat.
Variable from_numpy : nat -> nat.
Variable to_dtype : nat -> val -> result nat.
Variable vec_len : nat -> option Z.
Variable default_dtype : val.
Variable instantiate : dict -> result nat.
Variables (idm ids idt : nat).
(* separation_model.py:82-85  try: instantiate(...) except KeyError: None.  The try statement covers the lookup
   and everything instantiate does (utils.py:84-105) *)
Definition train_source (model : config) : result val :=
  match yget model "source_model" with
  | None => Ok VNone
  | Some (Y _) => raise TypeError
  | Some (YDict d) =>
      match instantiate d with
      | Ok i => Ok (VMod i)
      | Err KeyError => Ok VNone
      | Err e => Err e
      end
  end.
(* separation_model.py:71-99 *)
Definition train_separator (algorithm n_src : val) (model : config) : result sep :=
  let* n_iter := item_plain model "n_iter" in                                                (* 71 *)
  let* n_fft := match yget model "n_fft" with                                                (* 74 *)
                | Some (Y (VInt z)) => Ok z | Some _ => raise TypeError | None => raise KeyError end in
  let* hop := item_plain model "hop_length" in                                               (* 75 *)
  let* np := match yget model "n_power_iter" with Some v => plain v | None => Ok VNone end in   (* 77-80 *)
  let* src := train_source model in                                                          (* 82-85 *)
  let* n_taps := item_plain model "n_taps" in                                                (* 87-99 *)
  let* n_delay := item_plain model "n_delay" in
  let* pb := item_plain model "ref_mic" in
  let* dmc := item_plain model "use_dmc" in
  sep_init get_window from_numpy to_dtype vec_len default_dtype instantiate idm ids idt
    (mkargs n_fft n_iter hop VNone n_taps n_delay n_src algorithm (SVal src) pb dmc np (VFloat 1 (-5))).
End Train.
