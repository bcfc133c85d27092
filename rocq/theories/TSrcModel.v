(* torchiva/models/classic.py on whole tensors: X has shape (..., n_freq, n_frames). *)
From Coq Require Import String Ascii ZArith.
From mathcomp Require Import all_ssreflect all_algebra.
From Verif Require TorchShape.
From Verif Require Import CAlg Py LinalgModel TensorModel TOpsModel.
Set Implicit Arguments. Unset Strict Implicit. Unset Printing Implicit Defensive.
Import GRing.Theory Num.Theory.
Local Open Scope ring_scope.
Local Open Scope py_scope.

Section TSrc.
Variable C : numClosedFieldType.
Local Notation tensor := (tensor C).
(* classic.py:33-43  LaplaceModel.forward *)
Definition t_laplace (eps : C) (X : tensor) : result tensor :=
  let* s := tsum_keep 1 (tmap (@mag_sq C) X) in
  let denom := tmap (fun x => 2%:R * sqrtC x) s in
  let* r := broadcast_to (sh X) denom in
  Ok (tmap (fun x => 1 / clamp x eps) r).
(* classic.py:54-64  GaussModel.forward; the mean over an empty dimension is NaN in torch, here zero *)
Definition t_gauss (eps : C) (X : tensor) : result tensor :=
  let* s := tsum 1 (tmap (@mag_sq C) X) in
  let denom := tmap (fun x => x / (nth 0%N (sh X) 1)%:R) s in
  let* denom := unsq 1 denom in
  let* r := broadcast_to (sh X) denom in                 (* broadcast_tensors(X, denom) *)
  Ok (tmap (fun x => 1 / clamp x eps) r).
(* a source model without state *)
Definition stateless (f : tensor -> result tensor) (_ : unit) (X : tensor) : result (tensor * unit) :=
  let* w := f X in Ok (w, tt).
(* classic.py:67-155  NMFModel.  The object before the first call: the uniform draws u, v which
   _init_state will take (lines 99-102); afterwards: T, V, iR.  Another number of signals than
   in the first call raises an exception from bmm or from the product, as in torch *)
Inductive nmf_obj := NFresh of tensor & tensor | NStarted of tensor & tensor & tensor.
(* torch.bmm: three dimensions, batches of the same size *)
Definition pt_bmm (A D : tensor) : result tensor :=
  match sh A, sh D with
  | [:: _; _; a], [:: _; _; d] => if a == d then matmul A D else raise RuntimeError
  | _, _ => raise RuntimeError
  end.
(* classic.py:107-110 *)
Definition t_nmf_estimate (eps : C) (T V : tensor) : result tensor :=
  let* VT := transpose 1 0 V in
  let* R := pt_bmm T VT in
  Ok (tmap (fun x => x^-1) (tmap (fun x => clamp x eps) R)).
(* classic.py:133-136 and 142-147: A * sqrt(bmm(P * iR^2, D) / bmm(iR, D)), clamped *)
Definition t_nmf_factor (eps : C) (A P iR D : tensor) : result tensor :=
  let* Q := tmul P (tmap (fun x => x ^+ 2) iR) in
  let* num := pt_bmm Q D in
  let* den := pt_bmm iR D in
  let* q := tzip (fun x y => x / y) num den in
  let* A := tmul A (tmap sqrtC q) in
  Ok (tmap (fun x => clamp x eps) A).
(* classic.py:112-155; reshape((-1, n_freq, n_frames)) is ambiguous without entries *)
Definition t_nmf (eps : C) (o : nmf_obj) (X : tensor) : result (tensor * nmf_obj) :=
  match sh X with
  | n_frames :: n_freq :: batch_shape =>
      if (n_frames * n_freq == 0)%N then raise RuntimeError else
      let* X1 := reshape [:: n_frames; n_freq; TorchShape.numel batch_shape] X in
      let P := tmap (@mag_sq C) X1 in
      let* (TV, iR) := (match o with
        | NStarted T V iR => Ok (T, V, iR)
        | NFresh u v =>
            let T := tmap (fun x => 9%:R / 10%:R * x + 1 / 10%:R) u in
            let V := tmap (fun x => 9%:R / 10%:R * x + 1 / 10%:R) v in
            let* iR := t_nmf_estimate eps T V in Ok (T, V, iR)
        end) in
      let: (T, V) := TV in
      let* T := t_nmf_factor eps T P iR V in
      let* iR := t_nmf_estimate eps T V in
      let* iR_T := transpose 1 0 iR in
      let* P_T := transpose 1 0 P in
      let* V := t_nmf_factor eps V P_T iR_T T in
      let* iR := t_nmf_estimate eps T V in
      let* out := reshape (sh X) iR in
      Ok (out, NStarted T V iR)
  | _ => raise ValueError
  end.
End TSrc.
