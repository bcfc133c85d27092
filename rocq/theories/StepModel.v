(* Model of the signals of a training or validation step, examples/separation_model.py:123-151: which channels of
   an item enter the separator, and which of them it projects back to (config["model"]["ref_mic"], passed on as
   proj_back_mic at 95; t_iss.py:531-533 and the other separators take the channel of their input with that index). *)
From Coq Require Import List ZArith.
From Verif Require Import Py DataModel ItemModel.
Local Open Scope py_scope.

(* separation_model.py:126, 147  x[..., : self.n_chan, :] *)
Definition net_input (n_chan : Z) (x : sig Z) : sig Z := mksig (bound (chans x) n_chan) (len x) (at_ x).
(* the channel of the input that the separated signals are projected back to *)
Definition projected (n_chan ref_mic : Z) (x : sig Z) : result (nat -> Z) :=
  let inp := net_input n_chan x in
  let* c := pyget (seq 0 (chans inp)) ref_mic in
  Ok (at_ inp c).
