(* Property C06: the Hankel view and the delay line built from it. *)
From mathcomp Require Import all_ssreflect all_algebra.
From Verif Require Import CAlg Py DelayModel DelayProofs TissModel TissSpec TissProofs.
Set Implicit Arguments. Unset Strict Implicit. Unset Printing Implicit Defensive.

(* the view exists, has shape (..., n_rows, len + 1 - n_rows), shares the storage,
   shows x[i + j] at (i, j), and only reads cells of x *)
Theorem c06_hankel_view (V : Type) (zero : V) (x : tensor V) len s tl n_rows :
  dims x = (len, s) :: tl -> n_rows <= len + 1 ->
  fits (size (data x)) (off x) (dims x) ->
  exists h, [/\ hankel_view x n_rows = Ok h,
    dims h = (len + 1 - n_rows, s) :: (n_rows, s) :: tl /\ data h = data x,
    (forall i j idx, addr h (j :: i :: idx) = addr x (i + j :: idx)),
    (forall i j idx, get zero h (j :: i :: idx) = get zero x (i + j :: idx)) &
    (forall i j idx, inside (dims h) [:: j, i & idx] -> inside (dims x) (i + j :: idx))].
Proof. exact: hankel_ok. Qed.
Print Assumptions c06_hankel_view.
(* more rows than len + 1: an exception, never a stray read *)
Theorem c06_hankel_too_many_rows (V : Type) (x : tensor V) len s tl n_rows :
  dims x = (len, s) :: tl -> len + 1 < n_rows -> hankel_view x n_rows = Err RuntimeError.
Proof. by rewrite /hankel_view => -> ->. Qed.
Print Assumptions c06_hankel_too_many_rows.
(* a non-contiguous 2 x 3 view (strides 10 and 2, offset 5) of a storage of 20 cells *)
Example c06_hankel_example :
  let x := Tensor (iota 100 20) 5 [:: (3, 2); (2, 10)] in
  fits (size (data x)) (off x) (dims x) /\
  exists h, hankel_view x 2 = Ok h /\
    [seq get 0 h [:: j; i; 1] | i <- iota 0 2, j <- iota 0 2] = [:: 115; 117; 117; 119].
Proof.
split; first by rewrite /fits /numel /last_addr unlock.
by eexists; split; first by rewrite /hankel_view /= /as_strided /fits /numel /last_addr unlock /=.
Qed.

Theorem c06_delay_line (V : Type) (zero : V) (x : tensor V) n_frames s tl n_taps n_delay :
  dims x = (n_frames, s) :: tl ->
  exists y, [/\ delay_line zero x n_taps n_delay = Ok y,
    unzip1 (dims y) = [:: n_frames, n_taps & unzip1 tl],
    (forall idx, inside (dims y) idx -> addr y idx < size (data y)) &
    forall n t idx, n < n_frames -> t < n_taps -> inside tl idx ->
      get zero y [:: n, t & idx]
      = if t + n < n_taps + n_delay then zero
        else get zero x (t + n - (n_taps + n_delay) :: idx)].
Proof. exact: delay_line_ok. Qed.
Print Assumptions c06_delay_line.
(* two taps, delay one, frames 7 8 9 : frame n sees frames n-3 and n-2 *)
Example c06_delay_example :
  exists y, delay_line 0 (Tensor [:: 7; 8; 9] 0 [:: (3, 1)]) 2 1 = Ok y /\
   [seq get 0 y [:: n; t] | t <- iota 0 2, n <- iota 0 3] = [:: 0; 0; 0; 0; 0; 7].
Proof.
eexists; split; last first.
- by instantiate (1 := Tensor [:: 0; 0; 0; 7; 8; 9] 0 [:: (3, 1); (2, 1)]).
- by rewrite /delay_line /pad_left /contig unlock /= /hankel_view /= /as_strided /fits /numel /last_addr unlock.
Qed.
(* the delay line used by the numeric T-ISS and WPE models has this content *)
Theorem c06_numeric_delay_line (C : numClosedFieldType) nF nT dl nN nC (X : sig C nF nN nC) f t c n :
  delayed nT dl X f t c n = ago (X f) c n (nT + dl - t).
Proof. exact: delayedE. Qed.
Print Assumptions c06_numeric_delay_line.
