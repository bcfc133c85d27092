(* torchiva/auxiva_ip.py on whole tensors (any batch dimensions), statement by statement.
   Not modelled: verbose printing. *)
From Coq Require Import String Ascii ZArith.
From mathcomp Require Import all_ssreflect all_algebra.
From Verif Require TorchShape.
From Verif Require Import CAlg Py LinalgModel TensorModel TOpsModel TTissModel.
Set Implicit Arguments. Unset Strict Implicit. Unset Printing Implicit Defensive.
Import GRing.Theory Num.Theory.
Local Open Scope ring_scope.
Local Open Scope py_scope.
Local Open Scope string_scope.

Section TIp.
Variable C : numClosedFieldType.
Local Notation tensor := (tensor C).
(* torch.cat((t, u), dim=-(p+1)) *)
Definition tcat (p : nat) (t u : tensor) : result tensor :=
  let* s := TorchShape.cat2 p (sh t) (sh u) in
  let n := nth 0%N (sh t) p in
  Ok (mkT s (fun i => if (nth 0%N i p < n)%N then at_ t i else at_ u (TorchShape.set p (nth 0%N i p - n)%N i))).
(* t[..., lo:hi, (p times :)] *)
Definition slice (p lo hi : nat) (t : tensor) : result tensor :=
  let* s := TorchShape.slice p lo hi (sh t) in
  Ok (mkT s (fun i => at_ t (TorchShape.set p (lo + nth 0%N i p)%N i))).

(* auxiva_ip.py:38-53 *)
Definition t_orthogonal_constraint (W Cx : tensor) (load : C) : result (option tensor) :=
  match sh W with
  | n_chan :: n_src :: _ =>
      if n_src == n_chan then Ok None
      else if (n_chan < n_src)%N then raise ValueError
      else
        let* A := matmul W Cx in
        let* A1 := slice_to 0 n_src A in
        let* A2 := slice_from 0 n_src A in
        let* J_H := solve_loaded_general A1 A2 load load in
        let* J := transpose 1 0 J_H in
        Ok (Some (tmap conjC J))
  | _ => raise ValueError
  end.
(* auxiva_ip.py:74-105; the default loading of solve_loaded_general *)
Definition t_ip_pb (Y W : tensor) (J : option tensor) (ref_mic : Z) : result tensor :=
  match sh Y, sh W with
  | _ :: _ :: n_src :: _, n_chan :: _ :: _ =>
      let* (WW, e1) :=
        (match J with
         | None =>
             let* e1 := pick 0 ref_mic (teye C n_chan) in
             let* e1 := broadcast_to (sh e1 ++ drop 2 (sh W)) e1 in
             Ok (W, e1)
         | Some J =>
             let* W1 := slice_to 1 n_src W in
             let* A := slice_to 0 n_src W1 in
             let* B := slice_from 0 n_src W1 in
             let* e1 := (if Z.ltb ref_mic (Z.of_nat n_src) then pick 0 ref_mic (teye2 C n_src n_src)
                         else let* c := pick 1 (Z.sub ref_mic (Z.of_nat n_src)) J in transpose 1 0 c) in
             let* BC := matmul B J in
             let* WW := tadd A BC in
             let* e1 := broadcast_to (sh e1 ++ drop 2 (sh WW)) e1 in
             Ok (WW, e1)
         end) in
      let* WT := transpose 1 0 WW in
      let* a := solve_loaded_general WT e1 (10%:R ^- 5) (10%:R ^- 5) in
      let* a := transpose 2 1 a in
      tmul Y a
  | _, _ => raise ValueError
  end.
(* auxiva_ip.py:262-293: the body of the loop over the sources *)
Definition t_ip_source (X weights Cx evec : tensor) (eps : C) (n_src : nat) (k : Z) (st : tensor * option tensor) :
    result (tensor * option tensor) :=
  let: (W, _) := st in
  let* J := t_orthogonal_constraint W Cx eps in
  let* wk := pick 2 k weights in
  let* Xw := tmul X wk in
  let* V := einsum [:: "cfn"; "dfn"] "fcd" [:: Xw; tmap conjC X] in
  let* WV := matmul W V in
  let* WV := (match J with
              | None => Ok WV
              | Some J => let* V1 := slice_to 1 n_src V in let* V2 := slice_from 1 n_src V in
                          let* JV := matmul J V1 in let* d := tsub JV V2 in tcat 1 WV d
              end) in
  let* ek := pick 0 k evec in
  let* new_w := solve_loaded_general WV ek eps eps in
  let* new_w := select 0 Z0 (tmap conjC new_w) in
  let* scale := einsum [:: "c"; "d"; "cd"] "" [:: new_w; tmap conjC new_w; V] in
  let scale := tmap (fun x => 'Re x) scale in
  let* sc := unsq 0 scale in
  let* new_w := tdiv new_w (tmap (fun x => sqrtC (clamp x eps)) sc) in
  let* new_w := unsq 1 new_w in
  let* Wa := slice_to 1 (Z.to_nat k) W in
  let* Wb := slice 1 (Z.to_nat k + 1) n_src W in
  let* c := tcat 1 Wa new_w in
  let* W := tcat 1 c Wb in
  Ok (W, J).
Section Loop.
Variable St : Type.
Variable model : St -> tensor -> result (tensor * St).
(* auxiva_ip.py:250-296 *)
Definition t_ip_iter (X Cx evec : tensor) (eps : C) (n_src : nat) (x : tensor * tensor * option tensor * St) :
    result (tensor * tensor * option tensor * St) :=
  let: (Y, W, J, m) := x in
  let* (weights, m) := model m Y in
  let* g := tmean2_keep (tmap (@mag_sq C) Y) in
  let g := tmap (fun x => clamp x eps) g in
  let g_sqrt := tmap sqrtC g in
  let* Y := tdiv Y (tmap (fun x => clamp x eps) g_sqrt) in
  let* gt := transpose 2 1 g_sqrt in
  let* W := tdiv W (tmap (fun x => clamp x eps) gt) in
  let* weights := tmul weights g in
  let* (W, J) := TorchShape.for_range (t_ip_source X weights Cx evec eps n_src) n_src (W, J) in
  let* Y := einsum [:: "fcd"; "dfn"] "cfn" [:: W; X] in
  Ok (Y, W, J, m).
(* auxiva_ip.py:219-306 after the parameters are resolved; n_src = None raises TypeError in
   new_zeros (230) *)
Definition t_ip_forward (n_iter : nat) (n_src : option nat) (proj_back_mic : option Z) (eps : C) (m0 : St) (X : tensor) :
    result tensor :=
  match sh X with
  | n_frames :: n_freq :: n_chan :: batch_shape =>
      if n_src is Some n_src then
        let W := tzeros C [:: n_chan, n_src, n_freq & batch_shape] in
        let* W := assign_all W (teye2 C n_src n_chan) in
        let* Y := slice_to 2 n_src X in
        let* Cx := einsum [:: "cfn"; "dfn"] "fcd" [:: X; tmap conjC X] in
        let Cx := tmap (fun x => x / n_frames%:R) Cx in
        let* J := t_orthogonal_constraint W Cx eps in
        let evec := teye C n_chan in
        let* evec := broadcast_to (sh evec ++ drop 2 (sh W)) evec in
        let* (YWJ, m) := t_iterate (t_ip_iter X Cx evec eps n_src) n_iter (Y, W, J, m0) in
        let: (Y, W, J) := YWJ in
        if proj_back_mic is Some ref_mic then t_ip_pb Y W J ref_mic else Ok Y
      else raise TypeError
  | _ => raise ValueError
  end.
End Loop.
End TIp.
