(* Vocabulary of C81: the defaults documented by the options of example.py. *)
From Coq Require Import ZArith List.
From Verif Require Import TorchShape ScriptModel.
(* the hop is the one given, or a quarter of the FFT size *)
Definition hop_is (a : args) (h : nat) : Prop := hop a = Some h \/ hop a = None /\ h = (n_fft a / 4)%nat.
(* the number of channels is the one given, or the number of sources *)
Definition channels_are (a : args) (c : Z) : Prop := n_chan a = Some c \/ n_chan a = None /\ n_src a = c.
(* settings and signals for which the transform exists: even size, hop between 1 and the size, and a
   signal longer than half a frame and than a hop *)
Definition transformable (a : args) (h n : nat) : Prop :=
  hop_is a h /\ (0 < h <= n_fft a)%nat /\ Nat.even (n_fft a) = true /\ (n_fft a / 2 < n)%nat /\ (h <= n)%nat.
