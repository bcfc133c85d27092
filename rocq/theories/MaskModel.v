(* Model of the neural source models, torchiva/models/glu.py (GLUMask), blstm.py (BLSTMMask,
   MaskMVDRSupport) and simple.py (SimpleModel): everything but the layers, which are arbitrary
   functions.  Over the real numbers of the standard library. *)
From Coq Require Import Reals.
Set Implicit Arguments.
Local Open Scope R_scope.

(* batches of real and of complex matrices (batch, freq, frame); all leading dimensions are
   flattened into one (glu.py:145, blstm.py:55, 130, simple.py:28) *)
Definition rbatch := nat -> nat -> nat -> R.
Definition cbatch := nat -> nat -> nat -> R * R.
Fixpoint sum (n : nat) (f : nat -> R) : R := match n with O => 0 | S m => sum m f + f m end.
Definition sigmoid (x : R) : R := / (1 + exp (- x)).
Definition mag_sq (z : R * R) : R := fst z * fst z + snd z * snd z.               (* linalg.py:54-58 *)
Definition clamp (m x : R) : R := Rmax m x.
Definition divide (a b : R) : R := a / clamp (/ 10 ^ 7) b.                        (* linalg.py:31-32 *)
Definition log10 (x : R) : R := ln x / ln 10.

Section Glu.
Variables (nF nN : nat) (mag_spec log_spec : bool).
(* glu.py:146-149  mean power of each batch element *)
Definition power (X : cbatch) (b : nat) : R :=
  sum nF (fun f => sum nN (fun n => mag_sq (X b f n))) / (INR nF * INR nN).
Definition scale (X : cbatch) (b : nat) : R := clamp (/ 10 ^ 5) (power X b).
(* glu.py:151-158; without mag_spec the real parts of all frequencies, then the imaginary parts *)
Definition spec (X : cbatch) : rbatch := fun b f n =>
  if mag_spec then divide (mag_sq (X b f n)) (scale X b)
  else if Nat.ltb f nF then divide (fst (X b f n)) (sqrt (scale X b))
  else divide (snd (X b (f - nF)%nat n)) (sqrt (scale X b)).
(* glu.py:160-165 *)
Definition features (X : cbatch) : rbatch := fun b f n =>
  if log_spec then log10 (Rabs (spec X b f n) + / 10 ^ 7) else spec X b f n.
Variable layers : rbatch -> rbatch.
(* glu.py:167-177 *)
Definition glu_mask (X : cbatch) : rbatch := fun b f n =>
  sigmoid (layers (features X) b f n) * (1 - / 10 ^ 5) + / 10 ^ 5.
End Glu.

Section Blstm.
Variables (n_mels : nat) (mag_spec log_spec : bool).
Variable mel : rbatch -> rbatch.
Variable layers : rbatch -> rbatch.
(* blstm.py:57-72 *)
Definition mel_features (X : cbatch) : rbatch :=
  if mag_spec then
    let Y := mel (fun b f n => mag_sq (X b f n)) in
    if log_spec then fun b f n => ln (Y b f n + / 10 ^ 7) else Y
  else fun b f n => if Nat.ltb f n_mels then mel (fun b f n => fst (X b f n)) b f n
                    else mel (fun b f n => snd (X b f n)) b (f - n_mels)%nat n.
(* blstm.py:75-87 *)
Definition blstm_mask (X : cbatch) : rbatch := fun b f n =>
  sigmoid (layers (mel_features X) b f n) * (1 - / 10 ^ 5) + / 10 ^ 5.
End Blstm.

Section Mvdr.
Variables (n_src n_masks n_input : nat) (eps : R).
Variable layers : rbatch -> rbatch.
(* blstm.py:125-153; the channels of ff2 are read as (source, mask, frequency) *)
Definition mvdr_masks (X : cbatch) (b s m f n : nat) : R :=
  let Y := layers (fun b f n => ln (1 + sqrt (mag_sq (X b f n)))) in
  (1 - eps) * sigmoid (Y b ((s * n_masks + m) * n_input + f)%nat n) + eps.
End Mvdr.

Section Simple.
Variables (eps : R) (mel layers : rbatch -> rbatch).
(* simple.py:25-51 *)
Definition simple_mask (X : cbatch) : rbatch :=
  let Y := mel (fun b f n => mag_sq (X b f n)) in
  let Z := layers (fun b f n => 10 * log10 (eps + Y b f n)) in
  fun b f n => sigmoid (eps + (1 - eps) * Z b f n).
End Simple.
