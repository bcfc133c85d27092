(* Model of the export of a trained model: examples/separation_model.py (WSJModel.__init__),
   examples/export_model.py, and of the check made by load_state_dict on reloading. *)
From Coq Require Import String List ZArith Bool.
From Verif Require Import Py PyObj ParamModel SepModel LoadModel.
Import ListNotations.
Local Open Scope string_scope.
Local Open Scope py_scope.
Set Implicit Arguments.

(* d[k] *)
Definition item (d : config) (k : string) : result yval :=
  match yget d k with Some v => Ok v | None => raise KeyError end.
Definition item_plain (d : config) (k : string) : result val := let* v := item d k in plain v.
(* separation_model.py:47-99  the separator built for training, from config["algorithm"],
   config["training"]["n_src"] and config["model"]; window and eps keep their defaults.  The
   source model is instantiated from the same mapping (82-85) that is later exported. *)
Definition train_args (algorithm n_src : val) (model : config) : result separgs :=
  let* n_iter := item_plain model "n_iter" in                                                (* 71 *)
  let* n_fft := match yget model "n_fft" with                                                (* 74 *)
                | Some (Y (VInt z)) => Ok z | Some _ => raise TypeError | None => raise KeyError end in
  let* hop := item_plain model "hop_length" in                                               (* 75 *)
  let* np := match yget model "n_power_iter" with Some v => plain v | None => Ok VNone end in   (* 77-80 *)
  let* src := match yget model "source_model" with                                           (* 82-85 *)
              | Some (YDict d) => Ok (SDict d) | Some (Y _) => raise TypeError | None => Ok (SVal VNone) end in
  let* n_taps := item_plain model "n_taps" in                                                (* 87-99 *)
  let* n_delay := item_plain model "n_delay" in
  let* pb := item_plain model "ref_mic" in
  let* dmc := item_plain model "use_dmc" in
  Ok (mkargs n_fft n_iter hop VNone n_taps n_delay n_src algorithm src pb dmc np (VFloat 1 (-5))).

Fixpoint ydel (d : config) (k : string) : config :=
  match d with [] => [] | (k', v) :: d' => if String.eqb k k' then d' else (k', v) :: ydel d' k end.
(* export_model.py:23-26  the configuration written *)
Definition export_config (model : config) : config :=
  match yget model "ref_mic" with
  | Some v => yset (ydel model "ref_mic") "proj_back_mic" v
  | None => model
  end.

(* keys of separator.state_dict() (export_model.py:27) for a source model with state keys ks:
   the source model is registered in BSSSeparator (nn.py:65-70) and in the algorithm, as
   "model" (base.py:98-100) or "mask_model" (base.py:155) together with "fake" (base.py:161);
   the window is a buffer (stft.py:63) *)
Definition is_bf (m : string) : bool := String.eqb m "MVDR" || String.eqb m "MWF" || String.eqb m "GEV".
Definition state_keys (member : string) (ks : list string) : list string :=
  map (fun k => "source_model." ++ k) ks ++ ["stft._window"] ++
  (if is_bf member then "separator.fake" :: map (fun k => "separator.mask_model." ++ k) ks
   else map (fun k => "separator.model." ++ k) ks).
Definition subset (a b : list string) : bool := forallb (fun k => existsb (String.eqb k) b) a.
(* loader.py:48-85 on exported files: the arguments of the separator, whose state must
   have the exported keys (load_state_dict is strict); source_keys: the state keys of the source
   model, determined by its mapping *)
Section Reload.
Variable source_keys : srcarg -> list string.
Definition keys_of (a : separgs) : result (list string) :=
  let* m := sepalgo_member (a_algo a) in Ok (state_keys m (source_keys (a_source a))).
Definition reload (model : config) (exported : list string) (kw : config) : result separgs :=
  let* a := call_sep (yupdate (export_config model) kw) in
  let* ks := keys_of a in
  if subset ks exported && subset exported ks then Ok a else raise RuntimeError.
(* training, export and reload *)
Definition round_trip (algorithm n_src : val) (model kw : config) : result (separgs * result separgs) :=
  let* a := train_args algorithm n_src model in
  let* ks := keys_of a in
  Ok (a, reload model ks kw).
End Reload.
