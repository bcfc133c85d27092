(* torchiva/wpe.py on whole tensors (any batch dimensions), statement by statement. *)
From Coq Require Import String ZArith.
From mathcomp Require Import all_ssreflect all_algebra.
From Verif Require TorchShape.
From Verif Require Import CAlg Py LinalgModel TensorModel.
Set Implicit Arguments. Unset Strict Implicit. Unset Printing Implicit Defensive.
Import GRing.Theory Num.Theory.
Local Open Scope ring_scope.
Local Open Scope py_scope.
Local Open Scope string_scope.

Section TWpe.
Variable C : numClosedFieldType.
Local Notation tensor := (tensor C).

(* wpe.py:28-29 *)
Definition t_derev (H X X_bar : tensor) : result tensor :=
  let* r := einsum [:: "fcts"; "cftn"] "sfn" [:: tmap conjC H; X_bar] in tsub X r.
(* wpe.py:32-35 *)
Definition t_default_weights (Y : tensor) (eps : C) : result tensor :=
  let* m := tmean 2 (tmap (@mag_sq C) Y) in
  let w := tmap (fun x => 1 / clamp x eps) m in
  let* s := tsum_keep 0 w in tdiv w s.
(* wpe.py:38-84; Lh = n_taps * n_chan *)
Definition t_wpe_one_iter (model : option (tensor -> result tensor)) (Y X X_bar : tensor) (eps : C) : result tensor :=
  match sh X_bar with
  | n_frames :: n_taps :: n_freq :: n_chan :: batch_shape =>
      let Lh := (n_chan * n_taps)%N in
      let* weights := (if model is Some mo then mo Y else t_default_weights Y eps) in
      let* acm := einsum [:: "fn"; "cftn"; "dfun"] "fctdu" [:: weights; X_bar; tmap conjC X_bar] in
      let* xcv := einsum [:: "fn"; "cftn"; "sfn"] "fcts" [:: weights; X_bar; tmap conjC X] in
      let* acm := reshape [:: Lh, Lh, n_freq & batch_shape] acm in
      let* xcv := reshape [:: n_chan, Lh, n_freq & batch_shape] xcv in
      let* H := solve_loaded acm xcv eps in
      reshape [:: n_chan, n_taps, n_chan, n_freq & batch_shape] H
  | _ => raise ValueError
  end.
Fixpoint t_wpe_loop (n_iter : nat) (model : option (tensor -> result tensor)) (X X_bar Y : tensor) (eps : C) : result tensor :=
  if n_iter is n.+1 then
    let* H := t_wpe_one_iter model Y X X_bar eps in
    let* Y := t_derev H X X_bar in
    t_wpe_loop n model X X_bar Y eps
  else Ok Y.
(* wpe.py:136-168 *)
Definition t_wpe_forward (n_iter n_delay n_taps : nat) (model : option (tensor -> result tensor)) (eps : C) (X : tensor) :
    result tensor :=
  if sh X is n_frames :: n_freq :: n_chan :: _ then
    let* X_pad := pad_left (n_taps + n_delay) X in
    let* X_hankel := hankel_view X_pad (n_taps + n_delay + 1) in
    let* X_bar := slice_last 1 (n_delay + 1) X_hankel in
    t_wpe_loop n_iter model X X_bar X eps
  else raise ValueError.
End TWpe.
