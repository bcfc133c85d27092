(* torchiva/stft.py and BSSSeparator.forward of torchiva/nn.py on whole tensors (any batch
   dimensions), statement by statement; torch.stft and torch.istft on each row as in StftModel.v.
   Not modelled: dtypes; resetting the source model (nn.py:155-157): the separator is given as a
   function, for the algorithms with the state after a reset. *)
From Coq Require Import ZArith.
From mathcomp Require Import all_ssreflect all_algebra.
From Verif Require TorchShape.
From Verif Require Import CAlg Py FftModel StftModel TensorModel TOpsModel TTissModel TIpModel.
Set Implicit Arguments. Unset Strict Implicit. Unset Printing Implicit Defensive.
Import GRing.Theory Num.Theory.
Local Open Scope ring_scope.
Local Open Scope py_scope.

Section TStft.
Variable C : numClosedFieldType.
Local Notation tensor := (tensor C).
Variable root : nat -> C.
Variables (n_fft : nat) (hop_length : option nat) (window : nat -> C).
Local Notation stft := (stft root n_fft hop_length window).
Local Notation istft := (istft root n_fft hop_length window).
Local Notation half := (half n_fft).

(* row q of a matrix of samples; page q of a batch of spectrograms *)
Definition t_row (n : nat) (x : tensor) (q : nat) : seq C := mkseq (fun t => at_ x [:: t; q]) n.
Definition t_page (n : nat) (X : tensor) (q : nat) : spec C := (n, fun k m => at_ X [:: m; k; q]).
(* torch.stft of a matrix of samples: the number of frames depends on the number of samples only *)
Definition torch_stft (x : tensor) : result tensor :=
  if sh x is [:: n; r] then
    let* s := stft (nseq n 0) in
    Ok (mkT [:: s.1; half.+1; r] (fun i => if i is [:: m; k; q] then (if stft (t_row n x q) is Ok s then s.2 k m else 0) else 0))
  else raise RuntimeError.
(* torch.istft of a batch of spectrograms: length and exceptions depend on the number of frames only *)
Definition torch_istft (X : tensor) : result tensor :=
  if sh X is [:: n; f; r] then
    if f != half.+1 then raise RuntimeError else
    let* y := istft (n, fun _ _ => 0) in
    Ok (mkT [:: size y; r] (fun i => if i is [:: t; q] then (if istft (t_page n X q) is Ok y then y`_t else 0) else 0))
  else raise RuntimeError.
(* stft.py:85-104; reshape((-1, n)) is ambiguous for n = 0 *)
Definition t_stft (x : tensor) : result tensor :=
  if sh x is n_samples :: batch_shape then
    if n_samples == 0%N then raise RuntimeError else
    let* x := reshape [:: n_samples; TorchShape.numel batch_shape] x in
    let* X := torch_stft x in
    reshape (take 2 (sh X) ++ batch_shape) X
  else raise IndexError.
(* stft.py:106-123 *)
Definition t_istft (X : tensor) : result tensor :=
  if sh X is n_frames :: n_freq :: batch_shape then
    if (n_frames * n_freq == 0)%N then raise RuntimeError else
    let* X := reshape [:: n_frames; n_freq; TorchShape.numel batch_shape] X in
    let* x := torch_istft X in
    reshape (take 1 (sh x) ++ batch_shape) x
  else raise ValueError.
(* nn.py:171-176 *)
Definition t_fit (n : nat) (y : tensor) : result tensor :=
  if sh y is k :: batch_shape then
    if (k < n)%N then tcat 0 y (tzeros C ((n - k)%N :: batch_shape))
    else if (n < k)%N then slice_to 0 n y else Ok y
  else raise IndexError.
(* nn.py:153-178 *)
Definition t_bss_forward (separator : tensor -> result tensor) (x : tensor) : result tensor :=
  match sh x with
  | n_samples :: n_chan :: _ =>
      let* X := t_stft x in
      let* Y := separator X in
      let* y := t_istft Y in
      t_fit n_samples y
  | _ => raise ValueError
  end.
End TStft.
