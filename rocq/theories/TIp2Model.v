(* torchiva/auxiva_ip2.py on whole tensors (any batch dimensions), statement by statement. *)
From Coq Require Import String Ascii ZArith.
From mathcomp Require Import all_ssreflect all_algebra.
From Verif Require TorchShape.
From Verif Require Import CAlg Py LinalgModel TensorModel TOpsModel TTissModel TIpModel TEighModel.
Set Implicit Arguments. Unset Strict Implicit. Unset Printing Implicit Defensive.
Import GRing.Theory Num.Theory.
Local Open Scope ring_scope.
Local Open Scope py_scope.
Local Open Scope string_scope.

Section TIp2.
Variable C : numClosedFieldType.
Local Notation tensor := (tensor C).
(* auxiva_ip2.py:57-63 *)
Definition t_ip2_V (Xo weights : tensor) (k : Z) : result tensor :=
  let* w := select 2 k weights in
  let* Vloc := einsum [:: "fn"; "cfn"; "dfn"] "fcd" [:: w; Xo; tmap conjC Xo] in
  let* n := TorchShape.size 0 (sh Xo) in
  let Vloc := tmap (fun x => x / n%:R) Vloc in
  let* h := hermite Vloc in let* s := tadd Vloc h in
  Ok (tscale (1 / 2%:R) s).
(* auxiva_ip2.py:74-76 and 77-79 *)
Definition t_ip2_scale (eigvec V : tensor) (k : Z) : result tensor :=
  let* v := select 0 k eigvec in
  let* row := unsq 1 v in let* col := unsq 0 v in
  let* Vv := matmul V col in let* s := matmul (tmap conjC row) Vv in
  Ok (tmap (fun x => `|x|) s).
(* auxiva_ip2.py:69-82 *)
Definition t_ip2_eigvec (V0 V1 : tensor) (eps : C) : result tensor :=
  let* (eigval, eigvec) := t_eigh_2x2 V1 (Some V0) eps in
  let* eigvec := flip_last eigvec in
  let* scale_0 := t_ip2_scale eigvec V0 Z0 in
  let* scale_1 := t_ip2_scale eigvec V1 (Zpos xH) in
  let* scale := tcat 0 scale_0 scale_1 in
  let scale := tmap (fun x => clamp (sqrtC (clamp x (10%:R ^- 7))) eps) scale in
  tdiv eigvec scale.
(* auxiva_ip2.py:29-91 *)
Definition t_ip2_update (Xo weights : tensor) (W A : option tensor) (eps : C) : result (tensor * option tensor * option tensor) :=
  let* n_chan := TorchShape.size 2 (sh Xo) in
  if n_chan != 2%N then raise AssertionError
  else
    let* V0 := t_ip2_V Xo weights Z0 in
    let* V1 := t_ip2_V Xo weights (Zpos xH) in
    let* eigvec := t_ip2_eigvec V0 V1 eps in
    let* (W, A) :=
      (match W with
       | None => Ok (None, A)
       | Some _ =>
           let* W := hermite eigvec in
           match A with
           | None => Ok (Some W, None)
           | Some _ => let* A := t_inv_2x2 W (10%:R ^- 6) in Ok (Some W, Some A)
           end
       end) in
    let* h := hermite eigvec in
    let* X := einsum [:: "fcd"; "dfn"] "cfn" [:: h; Xo] in
    Ok (X, W, A).
Section Loop.
Variable St : Type.
Variable model : St -> tensor -> result (tensor * St).
(* auxiva_ip2.py:194-207; divide with its default eps 1e-7 *)
Definition t_ip2_iter (Xo : tensor) (eps : C) (x : tensor * option tensor * option tensor * St) :
    result (tensor * option tensor * option tensor * St) :=
  let: (X, W, A, m) := x in
  let* (weights, m) := model m X in
  let* g := tmean2_keep (tmap (@mag_sq C) X) in
  let g := tmap (fun x => clamp x (10%:R ^- 5)) g in
  let* X := tdivide X (tmap sqrtC g) (10%:R ^- 7) in
  let* weights := tmul weights g in
  let* (XW, A) := t_ip2_update Xo weights W A eps in
  let: (X, W) := XW in
  Ok (X, W, A, m).
(* auxiva_ip2.py:154-213 after the parameters are resolved *)
Definition t_ip2_forward (n_iter : nat) (proj_back_mic : option Z) (eps : C) (m0 : St) (X : tensor) : result tensor :=
  match sh X with
  | n_frames :: n_freq :: n_chan :: batch_shape =>
      if n_chan != 2%N then raise AssertionError
      else
        let* (W, A) :=
          (match proj_back_mic with
           | Some mic =>
               if Z.leb Z0 mic && Z.ltb mic (Z.of_nat n_chan) then
                 let W := tzeros C [:: n_chan, n_chan, n_freq & batch_shape] in
                 let* W := assign_all W (teye C n_chan) in
                 Ok (Some W, Some W)
               else raise AssertionError
           | None => Ok (None, None)
           end) in
        let* (XWA, m) := t_iterate (t_ip2_iter X eps) n_iter (X, W, A, m0) in
        let: (X, W, A) := XWA in
        match proj_back_mic with
        | Some mic =>
            if (0 < n_iter)%N then
              if A is Some A then
                let* a := pick 1 mic A in let* a := moveaxis 0 2 a in tmul a X
              else raise TypeError
            else Ok X
        | None => Ok X
        end
  | _ => raise ValueError
  end.
End Loop.
End TIp2.
