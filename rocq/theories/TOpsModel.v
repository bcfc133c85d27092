(* Further torch operations on whole tensors, used by the separation algorithms (see
   TensorModel.v), and the functions of torchiva/linalg.py built on them.  An assignment
   t[...] = v gives the tensor t after it; the code assigns only to tensors made by
   zeros, clone or arithmetic, so that no other tensor changes. *)
From Coq Require Import String Ascii ZArith.
From mathcomp Require Import all_ssreflect all_algebra.
From Verif Require TorchShape.
From Verif Require Import CAlg Py LinalgModel TensorModel.
Set Implicit Arguments. Unset Strict Implicit. Unset Printing Implicit Defensive.
Import GRing.Theory Num.Theory.
Local Open Scope ring_scope.
Local Open Scope py_scope.
Local Open Scope string_scope.

Section Ops.
Variable C : numClosedFieldType.
Local Notation tensor := (tensor C).
Implicit Types (t u v : tensor).

Definition tzeros (s : seq nat) : tensor := mkT s (fun _ => 0).
(* torch.eye(n, m) *)
Definition teye2 (n m : nat) : tensor := mkT [:: m; n] (fun i => if i is [:: x; y] then (x == y)%:R else 0).
(* torch.broadcast_to(t, s) *)
Definition broadcast_to (s : seq nat) t : result tensor :=
  let* s := TorchShape.expand_to (sh t) s in Ok (mkT s (fun i => at_ t (clip (sh t) i))).
(* t[...] = v *)
Definition assign_all t v : result tensor := broadcast_to (sh t) v.
(* t[..., k, (p times :)] = v *)
Definition assign_select (p : nat) (k : Z) t v : result tensor :=
  let* s := TorchShape.select p k (sh t) in
  let* v := broadcast_to s v in
  Ok (mkT (sh t) (fun i => if nth 0%N i p == zidx (nth 0%N (sh t) p) k then at_ v (TorchShape.del p i) else at_ t i)).
(* t[..., :hi, (p times :)] = v *)
Definition assign_to (p hi : nat) t v : result tensor :=
  let* s := TorchShape.slice_to p hi (sh t) in
  let* v := broadcast_to s v in
  Ok (mkT (sh t) (fun i => if (nth 0%N i p < hi)%N then at_ v i else at_ t i)).
(* mean(dim=(-2, -1), keepdim=True); over an empty dimension NaN in torch, here zero *)
Definition tmean2_keep t : result tensor :=
  let* s := tsum_keep 0 t in let* s := tsum_keep 1 s in
  Ok (tmap (fun x => x / (nth 0%N (sh t) 1 * nth 0%N (sh t) 0)%N%:R) s).
(* torch.linalg.norm(t, dim=-(p+1), keepdim=True) *)
Definition tnorm_keep (p : nat) t : result tensor :=
  let* s := tsum_keep p (tmap (fun x => `|x| ^+ 2) t) in Ok (tmap sqrtC s).
(* moveaxis(-(p+1), -(q+1)) *)
Definition moveaxis (p q : nat) t : result tensor :=
  let* s := TorchShape.moveaxis p q (sh t) in
  Ok (mkT s (fun i => at_ t (TorchShape.ins p (nth 0%N i q) (TorchShape.del q i)))).
(* permute([-2, -1, -3]) *)
Definition permute_213 t : result tensor :=
  let* s := TorchShape.permute_213 (sh t) in
  Ok (mkT s (fun i => if i is [:: c; a; b] then at_ t [:: a; b; c] else 0)).
(* t1[..., None, None, ...] * x and the like for Python numbers *)
Definition tscale (x : C) t : tensor := tmap ( *%R x) t.

(* linalg.py:31-32 *)
Definition tdivide num denom (eps : C) : result tensor := tzip (fun x y => divide x y eps) num denom.
(* linalg.py:91-107 *)
Definition solve_loaded_general A b (load eps : C) : result tensor :=
  let* norm := tnorm_keep 0 A in
  let weights := tmap (fun x => 1 / clamp x eps) norm in
  let* n := TorchShape.size 0 (sh A) in
  let load_eye := tscale load (teye C n) in
  let* A2 := tmul A weights in
  let* b := tmul b weights in
  let* A := einsum [:: "km"; "kn"] "mn" [:: tmap conjC A2; A2] in
  let* b := einsum [:: "km"; "kn"] "mn" [:: tmap conjC A2; b] in
  let* A := tadd A load_eye in
  solve A b.
End Ops.
