(* Shapes computed by torchiva/t_iss.py, auxiva_ip.py, auxiva_ip2.py, five.py, wpe.py,
   beamformer.py, linalg.py and models/classic.py, statement by statement.  Names of
   tensors stand for their shapes (TorchShape.v).  Elementwise functions of one tensor
   (conj, clamp, sqrt, abs, mag_sq, reciprocal, type_as, clone, detach, flip, cpu, .real,
   product with a Python number) keep the shape and are left out.  Zt is the tensor Z of the code.  Values, dtypes and
   devices are not modelled; n_iter, n_taps, n_delay are natural numbers. *)
From Coq Require Import String List ZArith Bool Arith.
From Verif Require Import Py TorchShape.
Import ListNotations.
Local Open Scope string_scope.
Local Open Scope list_scope.
Local Open Scope py_scope.
Set Implicit Arguments.

(* ---- linalg.py *)
(* linalg.py:75-79  hermite *)
Definition hermite (A : shape) : result shape := transpose 1 0 A.
(* linalg.py:82-88  solve_loaded *)
Definition solve_loaded (A b : shape) : result shape :=
  let* n := size 0 A in
  let eye := [n; n] in
  let* m := amax_keep 1 A in let* load := amax_keep 0 m in
  let* d := bcast load eye in
  let* Al := bcast A d in
  solve Al b.
(* linalg.py:91-107  solve_loaded_general *)
Definition solve_loaded_general (A b : shape) : result shape :=
  let* weights := reduce_keep 0 A in
  let* n := size 0 A in
  let eye := [n; n] in
  let* A2 := bcast A weights in
  let* b := bcast b weights in
  let* M := einsum ["km"; "kn"] "mn" [A2; A2] in
  let* b := einsum ["km"; "kn"] "mn" [A2; b] in
  let* Ml := bcast M eye in
  solve Ml b.
(* linalg.py:110-116  inv_loaded *)
Definition inv_loaded (A : shape) : result shape :=
  let* n := size 0 A in
  let eye := [n; n] in
  let* m := amax_keep 1 A in let* load := amax_keep 0 m in
  let* d := bcast load eye in
  let* Al := bcast A d in
  inv Al.
(* A[..., i, j] *)
Definition entry (i j : Z) (A : shape) : result shape := let* c := select 0 j A in select 0 i c.
(* linalg.py:119-140  inv_2x2 *)
Definition inv_2x2 (W : shape) : result shape :=
  let* c := size 0 W in let* r := size 1 W in
  if negb (Nat.eqb c r) || negb (Nat.eqb c 2) then raise ValueError else
  let* W11 := entry 0 0 W in let* W21 := entry 1 0 W in
  let* W12 := entry 0 1 W in let* W22 := entry 1 1 W in
  let* p := bcast W11 W22 in let* q := bcast W12 W21 in let* det := bcast p q in
  let* det := bcast det [1] in                                               (* pt.where *)
  let* c1 := stack2 W22 W21 in let* c2 := stack2 W12 W11 in
  let* adj := stack2 c1 c2 in
  let* d := unsq 0 det in let* d := unsq 0 d in
  bcast adj d.
(* linalg.py:152-253  eigh_2x2: eigenvalues, eigenvectors *)
Definition eigh_2x2 (A : shape) (B : option shape) : result (shape * shape) :=
  let* c := size 0 A in let* r := size 1 A in
  if negb (Nat.eqb c 2) || negb (Nat.eqb r c) then raise AssertionError else
  let* A := match B with
            | Some B =>                                                      (* 168-175 *)
                let* c := size 0 B in let* r := size 1 B in
                if negb (Nat.eqb c 2) || negb (Nat.eqb r c) then raise AssertionError else bcast A B
            | None => Ok A
            end in
  let vals := tl A in let vecs := A in                                       (* new_zeros *)
  let* a := entry 0 0 A in                        (* all coefficients have the shape of an entry *)
  let* v0 := select 0 0 vals in let* _ := expand_to a v0 in                   (* 206-207, 232-233 *)
  let* v1 := select 0 1 vals in let* _ := expand_to a v1 in
  let* vals := match B with
               | Some _ => let* d := unsq 0 a in bcast vals d                (* 210 *)
               | None => Ok vals end in
  let* ev1 := select 0 0 vals in let* ev2 := select 0 1 vals in
  let* x := bcast ev1 a in let* y := bcast ev2 a in
  let* e00 := entry 0 0 vecs in let* _ := expand_to x e00 in
  let* e10 := entry 1 0 vecs in let* _ := expand_to x e10 in
  let* e01 := entry 0 1 vecs in let* _ := expand_to y e01 in
  let* e11 := entry 1 1 vecs in let* _ := expand_to y e11 in
  let* norm := reduce_keep 1 vecs in
  let* vecs := bcast vecs norm in
  Ok (vals, vecs).
(* linalg.py:256-312  eigh *)
Definition eigh (A : shape) (B : option shape) : result (shape * shape) :=
  let* c := size 0 A in
  if Nat.eqb c 2 then eigh_2x2 A B else
  match B with
  | Some B =>
      if negb (seqb A B) then raise AssertionError else
      let* (Bval, Bvec) := eigh_torch B in
      let* s := unsq 0 Bval in let* Bh := hermite Bvec in
      let* t := bcast s Bh in let* Bi := matmul Bvec t in
      let* L1 := matmul Bi A in let* Bih := hermite Bi in let* L := matmul L1 Bih in
      let* (vals, vecs) := eigh_torch L in
      let* Bih := hermite Bi in let* vecs := matmul Bih vecs in
      let* norm := reduce_keep 1 vecs in let* vecs := bcast vecs norm in
      Ok (vals, vecs)
  | None => eigh_torch A
  end.
(* linalg.py:315-321  hankel_view; torch.as_strided never looks outside of x because of
   the value of n_cols; a negative size is an error *)
Definition hankel_view (x : shape) (n_rows : nat) : result shape :=
  let* n := size 0 x in
  if Nat.ltb (n + 1) n_rows then raise RuntimeError else Ok (n + 1 - n_rows :: n_rows :: tl x).
(* linalg.py:65-72  bmm *)
Definition bmm (a b : shape) : result shape :=
  let m1 := 2 :: a in let m2 := 2 :: b in                                    (* view_as_real *)
  let* x := select 0 0 m1 in let* y := select 0 0 m2 in let* p := matmul x y in
  let* x := select 0 1 m1 in let* y := select 0 1 m2 in let* q := matmul x y in
  let* re := bcast p q in let* im := bcast p q in
  let* re := unsq 0 re in let* im := unsq 0 im in
  let* out := cat2 0 re im in
  let* n := size 0 out in
  if Nat.eqb n 2 then Ok (tl out) else raise RuntimeError.                   (* view_as_complex *)

(* the unpacking n_chan, n_freq, n_frames = X.shape[-3:] *)
Definition unpack3 (X : shape) : result (nat * nat * nat) :=
  match X with n :: f :: c :: _ => Ok (c, f, n) | _ => raise ValueError end.

Section Source.
(* the source model: state, shape of its input; shape of its output, new state *)
Variable St : Type.
Variable model : St -> shape -> result (shape * St).

(* ---- t_iss.py *)
(* t_iss.py:39-42 *)
Definition demix_derev (X X_bar W H : shape) : result shape :=
  let* reverb := einsum ["cfdt"; "dftn"] "cfn" [H; X_bar] in
  let* sep := einsum ["cfd"; "dfn"] "cfn" [W; X] in
  bcast sep reverb.
(* t_iss.py:45-53 *)
Definition demix_background (X : shape) (J : option shape) : result (option shape) :=
  match J with
  | Some J =>
      let* n_src := size 0 J in
      let* X1 := slice_to 2 n_src X in
      let* a := einsum ["cfd"; "dfn"] "cfn" [J; X1] in
      let* X2 := slice_from 2 n_src X in
      let* Zt := bcast a X2 in Ok (Some Zt)
  | None => Ok None
  end.
(* t_iss.py:56-78 *)
Definition iss1 (src : Z) (X weights : shape) : result shape :=
  let* Xs := select 2 src X in
  let* v_num := einsum ["cfn"; "cfn"; "fn"] "cf" [weights; X; Xs] in
  let* v_denom := einsum ["cfn"; "fn"] "cf" [weights; Xs] in
  let* v := bcast v_num v_denom in
  let* v_s := select 1 src v_denom in
  let* t := select 1 src v in let* _ := expand_to v_s t in
  Ok v.
(* t_iss.py:81-98 and 101-122: Zs is Z[..., bak, :, :] or X_bar[..., src, :, tap, :] *)
Definition iss23 (X Zs weights : shape) : result shape :=
  let* v_num := einsum ["cfn"; "cfn"; "fn"] "cf" [weights; X; Zs] in
  let* v_denom := einsum ["cfn"; "fn"] "cf" [weights; Zs] in
  bcast v_num v_denom.
Definition src_step (weights : shape) (src : Z) (x : shape * shape * shape) : result (shape * shape * shape) :=
  let '(X, W, H) := x in                                                     (* 167-171 *)
  let* v := iss1 src X weights in
  let* Xs := select 2 src X in let* u := einsum ["cf"; "fn"] "cfn" [v; Xs] in let* X := bcast X u in
  let* Ws := select 2 src W in let* u := einsum ["cf"; "fd"] "cfd" [v; Ws] in let* W := bcast W u in
  let* Hs := select 3 src H in let* u := einsum ["cf"; "fdt"] "cfdt" [v; Hs] in let* H := bcast H u in
  Ok (X, W, H).
Definition bak_step (weights Zt J : shape) (n_src : nat) (bak : Z) (x : shape * shape) : result (shape * shape) :=
  let '(X, W) := x in                                                        (* 175-181 *)
  let* Zb := select 2 bak Zt in
  let* v := iss23 X Zb weights in
  let* u := einsum ["cf"; "fn"] "cfn" [v; Zb] in let* X := bcast X u in
  let* W1 := slice_to 0 n_src W in
  let* Jb := select 2 bak J in
  let* u := einsum ["cf"; "fd"] "cfd" [v; Jb] in
  let* W1' := bcast W1 u in let* _ := expand_to W1' W1 in
  let* c := select 0 (Z.of_nat n_src + bak) W in
  let* c' := bcast c v in let* _ := expand_to c' c in
  Ok (X, W).
Definition tap_step (weights X_bar : shape) (src tap : Z) (x : shape * shape) : result (shape * shape) :=
  let '(X, H) := x in                                                        (* 186-189 *)
  let* Xt := select 1 tap X_bar in let* Xst := select 2 src Xt in
  let* v := iss23 X Xst weights in
  let* u := einsum ["cf"; "fn"] "cfn" [v; Xst] in let* X := bcast X u in
  let* Ht := select 0 tap H in let* Hst := select 0 src Ht in
  let* HV := bcast Hst v in let* _ := expand_to HV Hst in
  Ok (X, H).
(* t_iss.py:125-194 *)
Definition iss_updates_with_H (X X_bar W H weights : shape) (Zt J : option shape) : result (shape * shape * shape) :=
  let* (n_src, n_freq, n_frames) := unpack3 X in
  let* n_chan := match J with
                 | None => Ok n_src
                 | Some _ => match Zt with Some Zt => let* b := size 2 Zt in Ok (n_src + b)
                                        | None => raise AttributeError end end in
  let* n_taps := size 1 X_bar in
  let* (X, W, H) := for_range (src_step weights) n_src (X, W, H) in
  let* (X, W) := match Zt, J with
                 | Some Zt, Some J => for_range (bak_step weights Zt J n_src) (n_chan - n_src) (X, W)
                 | _, _ => Ok (X, W) end in
  let* (X, H) := for_range (fun src => for_range (tap_step weights X_bar src) n_taps) n_chan (X, H) in
  Ok (X, W, H).
(* t_iss.py:197-227 *)
Definition background_update (W H C_XX C_XbarX : shape) : result shape :=
  let* (n_src, n_freq, n_chan) := unpack3 W in
  let* A1 := einsum ["sfc"; "cfd"] "fsd" [W; C_XX] in
  let* A2 := einsum ["sfdt"; "dtfc"] "fsc" [H; C_XbarX] in
  let* A := bcast A1 A2 in
  let* mat := slice_to 0 n_src A in
  let* rhs := slice_from 0 n_src A in
  let* weights := reduce_keep 0 mat in
  let load := [n_src; n_src] in
  let* mat2 := bcast mat weights in
  let* rhs := bcast rhs weights in
  let* mat := einsum ["km"; "kn"] "mn" [mat2; mat2] in
  let* rhs := einsum ["km"; "kn"] "mn" [mat2; rhs] in
  let* M := bcast mat load in
  let* J_H := solve M rhs in
  moveaxis 0 2 J_H.
(* t_iss.py:230-256 *)
Definition one_iter (X X_bar : shape) (cov : option (shape * shape)) (x : shape * shape * shape * option shape * St) :
    result (shape * shape * shape * option shape * St) :=
  let '(Y, W, H, J, m) := x in
  let* (weights, m) := model m Y in
  let* g := reduce_keep 1 Y in let* g := reduce_keep 0 g in
  let* Y := bcast Y g in
  let* W := bcast W g in
  let* g1 := unsq 0 g in let* H := bcast H g1 in
  let* weights := bcast weights g in
  let* J := match J with
            | Some _ => match cov with
                        | Some (C_XX, C_XbarX) => let* J := background_update W H C_XX C_XbarX in Ok (Some J)
                        | None => raise TypeError end
            | None => Ok None end in
  let* Zt := demix_background X J in
  let* (Y, W, H) := iss_updates_with_H Y X_bar W H weights Zt J in
  Ok (Y, W, H, J, m).
(* t_iss.py:259-269: Y is recomputed first and not returned; the caller keeps its Y *)
Definition one_iter_dmc (X X_bar : shape) (cov : option (shape * shape)) (x : shape * shape * shape * option shape * St) :
    result (shape * shape * shape * option shape * St) :=
  let '(Y0, W, H, J, m) := x in
  let* Y := demix_derev X X_bar W H in
  let* (_, W, H, J, m) := one_iter X X_bar cov (Y, W, H, J, m) in
  Ok (Y0, W, H, J, m).
(* t_iss.py:272-302 *)
Definition projection_back_weights (W : shape) (J : option shape) (ref_mic : Z) : result shape :=
  let* (n_src, n_freq, n_chan) := unpack3 W in
  let eye := [n_src; n_src] in
  let* (lhs, rhs) :=
    (if Nat.ltb n_src n_chan then
       match J with
       | None => raise AssertionError
       | Some J =>
           let* W1 := slice_to 0 n_src W in let* W2 := slice_from 0 n_src W in
           let* B := einsum ["sfc"; "cfk"] "sfk" [W2; J] in
           let* B := bcast B W1 in
           let* rhs := (if Z.ltb ref_mic (Z.of_nat n_src) then pick 0 ref_mic eye
                        else let* r := pick 2 (ref_mic - Z.of_nat n_src) J in permute_213 r) in
           let* lhs := einsum ["sfc"] "fcs" [B] in
           Ok (lhs, rhs)
       end
     else
       let* rhs := pick 0 ref_mic eye in
       let* WT := transpose 2 1 W in let* lhs := transpose 1 0 WT in
       Ok (lhs, rhs)) in
  let* a := solve_loaded_general lhs rhs in
  transpose 2 1 a.
(* t_iss.py:414-539 *)
Definition tiss_forward (n_iter n_taps n_delay : nat) (n_src proj_back_mic : option Z) (use_dmc : bool) (m0 : St)
    (X : shape) : result shape :=
  let batch_shape := skipn 3 X in
  let* (n_chan, n_freq, n_frames) := unpack3 X in
  let* n_src := match n_src with
                | None => Ok (Z.of_nat n_chan)
                | Some s => if Z.ltb (Z.of_nat n_chan) s then raise ValueError else Ok s end in
  let is_overdet := Z.ltb n_src (Z.of_nat n_chan) in
  let* X_pad := pad_left (n_taps + n_delay) X in
  let* X_hankel := hankel_view X_pad (n_taps + n_delay + 1) in
  let* X_bar := slice_last 1 (n_delay + 1) X_hankel in
  let* cov := (if is_overdet then
                 let* C_XX := einsum ["cfn"; "dfn"] "cfd" [X; X] in
                 let* C_XbarX := einsum ["cftn"; "dfn"] "ctfd" [X_bar; X] in
                 Ok (Some (C_XX, C_XbarX))
               else Ok None) in
  let* s := new_size n_src in
  let W := n_chan :: n_freq :: s :: batch_shape in
  let eye := [n_chan; s] in
  let* e := unsq 1 eye in let* _ := expand_to e W in
  let H := n_taps :: n_chan :: n_freq :: s :: batch_shape in
  let* J := match cov with
            | Some (C_XX, C_XbarX) => let* J := background_update W H C_XX C_XbarX in Ok (Some J)
            | None => Ok None end in
  let* Y := demix_derev X X_bar W H in
  let* (Y, W, H, J, m) :=
    for_range (fun _ => if use_dmc then one_iter_dmc X X_bar cov else one_iter X X_bar cov) n_iter (Y, W, H, J, m0) in
  let* Y := (if use_dmc then demix_derev X X_bar W H else Ok Y) in
  match proj_back_mic with
  | Some ref => if Nat.ltb 0 n_iter then let* a := projection_back_weights W J ref in bcast a Y else Ok Y
  | None => Ok Y
  end.

(* ---- auxiva_ip.py *)
(* auxiva_ip.py:38-53 *)
Definition orthogonal_constraint (W Cx : shape) : result (option shape) :=
  let* n_src := size 1 W in let* n_chan := size 0 W in
  if Nat.eqb n_src n_chan then Ok None
  else if Nat.ltb n_chan n_src then raise ValueError
  else
    let* A := matmul W Cx in
    let* A1 := slice_to 0 n_src A in let* A2 := slice_from 0 n_src A in
    let* J_H := solve_loaded_general A1 A2 in
    let* J := transpose 1 0 J_H in Ok (Some J).
(* auxiva_ip.py:56-105 *)
Definition projection_back_from_demixing_matrix (Y W : shape) (J : option shape) (ref_mic : Z) : result shape :=
  let* (n_src, n_freq, n_frames) := unpack3 Y in
  let* n_chan := size 0 W in
  let* a := match J with
    | None =>
        let* e1 := pick 0 ref_mic [n_chan; n_chan] in
        let* e1 := expand_to e1 (e1 ++ skipn 2 W) in
        let* Wt := transpose 1 0 W in
        let* a := solve_loaded_general Wt e1 in
        transpose 2 1 a
    | Some C =>
        let* Wr := slice_to 1 n_src W in
        let* A := slice_to 0 n_src Wr in
        let* B := slice_from 0 n_src Wr in
        let* e1 := (if Z.ltb ref_mic (Z.of_nat n_src) then pick 0 ref_mic [n_src; n_src]
                    else let* r := pick 1 (ref_mic - Z.of_nat n_src) C in transpose 1 0 r) in
        let* BC := matmul B C in let* WW := bcast A BC in
        let* e1 := expand_to e1 (e1 ++ skipn 2 WW) in
        let* Wt := transpose 1 0 WW in
        let* a := solve_loaded_general Wt e1 in
        transpose 2 1 a
    end in
  bcast Y a.
(* auxiva_ip.py:262-293 *)
Definition ip_source (X weights Cx evec : shape) (n_src : nat) (k : Z) (st : shape * option shape) :
    result (shape * option shape) :=
  let '(W, _) := st in
  let* J := orthogonal_constraint W Cx in
  let* wk := pick 2 k weights in let* Xw := bcast X wk in
  let* V := einsum ["cfn"; "dfn"] "fcd" [Xw; X] in
  let* WV := matmul W V in
  let* WV := match J with
             | None => Ok WV
             | Some J => let* V1 := slice_to 1 n_src V in let* V2 := slice_from 1 n_src V in
                         let* JV := matmul J V1 in let* d := bcast JV V2 in cat2 1 WV d
             end in
  let* ek := pick 0 k evec in
  let* new_w := solve_loaded_general WV ek in
  let* new_w := select 0 0 new_w in
  let* scale := einsum ["c"; "d"; "cd"] "" [new_w; new_w; V] in
  let* sc := unsq 0 scale in
  let* new_w := bcast new_w sc in
  let* new_w := unsq 1 new_w in
  let* Wa := slice_to 1 (Z.to_nat k) W in let* Wb := slice 1 (Z.to_nat k + 1) n_src W in
  let* c := cat2 1 Wa new_w in let* W := cat2 1 c Wb in
  Ok (W, J).
(* auxiva_ip.py:248-296 *)
Definition ip_iter (X Cx evec : shape) (n_src : nat) (x : shape * shape * option shape * St) :
    result (shape * shape * option shape * St) :=
  let '(Y, W, J, m) := x in
  let* (weights, m) := model m Y in
  let* g := reduce_keep 1 Y in let* g := reduce_keep 0 g in
  let* Y := bcast Y g in
  let* gt := transpose 2 1 g in let* W := bcast W gt in
  let* weights := bcast weights g in
  let* (W, J) := for_range (ip_source X weights Cx evec n_src) n_src (W, J) in
  let* Y := einsum ["fcd"; "dfn"] "cfn" [W; X] in
  Ok (Y, W, J, m).
(* auxiva_ip.py:202-306; new_zeros with a size None raises TypeError (230) *)
Definition ip_forward (n_iter : nat) (n_src proj_back_mic : option Z) (m0 : St) (X : shape) : result shape :=
  let batch_shape := skipn 3 X in
  let* (n_chan, n_freq, n_frames) := unpack3 X in
  match n_src with
  | None => raise TypeError
  | Some n_src =>
      let* s := new_size n_src in
      let W := n_chan :: s :: n_freq :: batch_shape in
      let* _ := expand_to [n_chan; s] W in
      let* Y := slice_to 2 s X in
      let* Cx := einsum ["cfn"; "dfn"] "fcd" [X; X] in
      let* J := orthogonal_constraint W Cx in
      let* evec := expand_to [n_chan; n_chan] ([n_chan; n_chan] ++ skipn 2 W) in
      let* (Y, W, J, m) := for_range (fun _ => ip_iter X Cx evec s) n_iter (Y, W, J, m0) in
      match proj_back_mic with
      | Some ref => projection_back_from_demixing_matrix Y W J ref
      | None => Ok Y
      end
  end.

(* ---- auxiva_ip2.py *)
(* auxiva_ip2.py:29-91; W and A are given together or not at all *)
Definition spatial_model_update_ip2 (Xo weights : shape) (WA : option (shape * shape)) :
    result (shape * option (shape * shape)) :=
  let* n := size 2 Xo in
  if negb (Nat.eqb n 2) then raise AssertionError else
  let V k := let* wk := select 2 k weights in
             let* Vloc := einsum ["fn"; "cfn"; "dfn"] "fcd" [wk; Xo; Xo] in
             let* h := hermite Vloc in bcast Vloc h in
  let* V0 := V 0%Z in let* V1 := V 1%Z in
  let* (eigval, eigvec) := eigh_2x2 V1 (Some V0) in
  let scale k Vk :=                                                          (* 76-81 *)
    let* c := select 0 k eigvec in
    let* row := unsq 1 c in let* col := unsq 0 c in
    let* t := matmul Vk col in matmul row t in
  let* s0 := scale 0%Z V0 in let* s1 := scale 1%Z V1 in
  let* sc := cat2 0 s0 s1 in
  let* eigvec := bcast eigvec sc in
  let* WA := match WA with
             | Some _ => let* W := hermite eigvec in let* A := inv_2x2 W in Ok (Some (W, A))
             | None => Ok None end in
  let* h := hermite eigvec in
  let* X := einsum ["fcd"; "dfn"] "cfn" [h; Xo] in
  Ok (X, WA).
(* auxiva_ip2.py:194-207 *)
Definition ip2_iter (Xo : shape) (x : shape * option (shape * shape) * St) :
    result (shape * option (shape * shape) * St) :=
  let '(X, WA, m) := x in
  let* (weights, m) := model m X in
  let* g := reduce_keep 1 X in let* g := reduce_keep 0 g in
  let* _ := bcast X g in
  let* weights := bcast weights g in
  let* (X, WA) := spatial_model_update_ip2 Xo weights WA in
  Ok (X, WA, m).
(* auxiva_ip2.py:154-213 *)
Definition ip2_forward (n_iter : nat) (proj_back_mic : option Z) (m0 : St) (X : shape) : result shape :=
  let* (n_chan, n_freq, n_frames) := unpack3 X in
  if negb (Nat.eqb n_chan 2) then raise AssertionError else
  let* WA := match proj_back_mic with
             | Some mic =>
                 if Z.leb 0 mic && Z.ltb mic (Z.of_nat n_chan) then
                   let W := n_chan :: n_chan :: n_freq :: skipn 3 X in
                   let* _ := expand_to [n_chan; n_chan] W in Ok (Some (W, W))
                 else raise AssertionError
             | None => Ok None end in
  let* (Y, WA, m) := for_range (fun _ => ip2_iter X) n_iter (X, WA, m0) in
  match proj_back_mic with
  | Some mic =>
      if Nat.ltb 0 n_iter then
        match WA with
        | Some (_, A) => let* a := pick 1 mic A in let* a := moveaxis 0 2 a in bcast a Y
        | None => raise TypeError
        end
      else Ok Y
  | None => Ok Y
  end.

(* ---- five.py *)
(* indexing with proj_back_mic, which may be None:  s[..., proj_back_mic, (p times :)] *)
Definition index_mic (p : nat) (mic : option Z) (s : shape) : result shape :=
  match mic with Some i => select p i s | None => unsq p s end.
(* five.py:36-50 *)
Definition smallest_eigh (V : shape) : result shape :=
  let* (vals, vecs) := eigh_torch V in let* _ := select 0 0 vals in select 0 0 vecs.
(* five.py:53-73 with 32-33 *)
Definition power_step (V_inv : shape) (x : shape) : result shape :=
  let* x := einsum ["fcd"; "fd"] "fc" [V_inv; x] in
  let* ev := reduce 0 x in let* e := unsq 0 ev in bcast x e.
Definition smallest_power (V : shape) (n_iter : nat) : result shape :=
  if negb (square V) then raise AssertionError else
  let* V_inv := inv_loaded V in
  let* x := select 0 0 V_inv in
  let* nrm := reduce_keep 1 x in let* x := bcast x nrm in
  let* x := for_range (fun _ => power_step V_inv) (n_iter - 1) x in
  let* x0 := select 0 0 x in let* s := unsq 0 x0 in
  let* x := bcast x s in
  if Nat.leb n_iter 1 then raise UnboundLocalError else Ok x.
(* five.py:217-242 *)
Definition five_iter (X Qinv_ref : shape) (n_power_iter : option nat) (x : shape * St) : result (shape * St) :=
  let '(Y, m) := x in
  let* (weights, m) := model m Y in
  let* V := einsum ["fn"; "cfn"; "dfn"] "fcd" [weights; X; X] in
  let* h := hermite V in let* V := bcast V h in
  let* eigenvector := match n_power_iter with None => smallest_eigh V | Some p => smallest_power V p end in
  let* z := einsum ["fc"; "fc"] "f" [Qinv_ref; eigenvector] in
  let* z1 := unsq 0 z in let* w := bcast eigenvector z1 in
  let* Y := einsum ["fc"; "cfn"] "fn" [w; X] in
  Ok (Y, m).
(* five.py:146-248 *)
Definition five_forward (n_iter : nat) (proj_back_mic : option Z) (n_power_iter : option nat) (m0 : St) (X : shape) :
    result shape :=
  let* (n_chan, n_freq, n_frames) := unpack3 X in
  let* X := slice_from 1 1 X in
  let* Cx := einsum ["cfn"; "dfn"] "fcd" [X; X] in
  let* h := hermite Cx in let* Cx := bcast Cx h in
  let* (e_val, e_vec) := eigh Cx None in
  let* l := unsq 0 e_val in let* h := hermite e_vec in let* Q := bcast l h in
  let* r := unsq 1 e_val in let* Qinv := bcast e_vec r in
  let* Qinv_ref := index_mic 1 proj_back_mic Qinv in
  let* X := einsum ["fcd"; "dfn"] "cfn" [Q; X] in
  let* Y := select 2 0 X in
  let* Y := match proj_back_mic with
            | Some mic =>
                let* q0 := select 1 0 Q in let* q := unsq 1 q0 in
                let* c0 := select 0 mic Cx in let* c := unsq 0 c0 in
                let* z := matmul q c in let* z := transpose 2 1 z in
                let* z := select 2 0 z in bcast z Y
            | None => Ok Y end in
  let* (Y, m) := for_range (fun _ => five_iter X Qinv_ref n_power_iter) n_iter (Y, m0) in
  let* t := size 0 Y in
  let* Y := cat2 1 (t :: 1 :: skipn 2 Y) Y in
  unsq 2 Y.

(* ---- wpe.py *)
(* wpe.py:32-35 *)
Definition wpe_default_weights (Y : shape) : result shape :=
  let* w := reduce 2 Y in let* s := reduce_keep 0 w in bcast w s.
(* wpe.py:38-84; the default weights are used when there is no model *)
Definition wpe_one_iter (has_model : bool) (Y X X_bar : shape) (m : St) : result (shape * St) :=
  match X_bar with
  | n_frames :: n_taps :: n_freq :: n_chan :: batch_shape =>
      let Lh := n_taps * n_chan in
      let* (weights, m) := (if has_model then model m Y else let* w := wpe_default_weights Y in Ok (w, m)) in
      let* acm := einsum ["fn"; "cftn"; "dfun"] "fctdu" [weights; X_bar; X_bar] in
      let* xcv := einsum ["fn"; "cftn"; "sfn"] "fcts" [weights; X_bar; X] in
      let* acm := reshape (Lh :: Lh :: n_freq :: batch_shape) acm in
      let* xcv := reshape (n_chan :: Lh :: n_freq :: batch_shape) xcv in
      let* H := solve_loaded acm xcv in
      let* H := reshape (n_chan :: n_taps :: n_chan :: n_freq :: batch_shape) H in
      Ok (H, m)
  | _ => raise ValueError
  end.
(* wpe.py:28-29 *)
Definition derev (H X X_bar : shape) : result shape :=
  let* r := einsum ["fcts"; "cftn"] "sfn" [H; X_bar] in bcast X r.
(* wpe.py:136-168 *)
Definition wpe_forward (n_iter n_delay n_taps : nat) (has_model : bool) (m0 : St) (X : shape) : result shape :=
  let* (n_chan, n_freq, n_frames) := unpack3 X in
  let* X_pad := pad_left (n_taps + n_delay) X in
  let* X_hankel := hankel_view X_pad (n_taps + n_delay + 1) in
  let* X_bar := slice_last 1 (n_delay + 1) X_hankel in
  let* (Y, m) := for_range (fun _ (x : shape * St) =>
                   let '(Y, m) := x in
                   let* (H, m) := wpe_one_iter has_model Y X X_bar m in
                   let* Y := derev H X X_bar in Ok (Y, m)) n_iter (X, m0) in
  Ok Y.
End Source.

(* ---- models/classic.py *)
(* classic.py:33-43  LaplaceModel *)
Definition laplace_shape (m : unit) (X : shape) : result (shape * unit) :=
  let* d := reduce_keep 1 X in let* r := expand_to d X in Ok (r, m).
(* classic.py:54-64  GaussModel *)
Definition gauss_shape (m : unit) (X : shape) : result (shape * unit) :=
  let* d := reduce 1 X in let* e := unsq 1 d in let* r := bcast X e in Ok (r, m).
(* classic.py:67-155  NMFModel; the state holds T, V and iR once initialised *)
Definition nmf_shape (n_basis : nat) (m : option (shape * shape * shape)) (X : shape) :
    result (shape * option (shape * shape * shape)) :=
  match X with
  | n_frames :: n_freq :: batch_shape =>
      let* P := reshape_m1 [n_frames; n_freq] X in
      let estimate T V := let* Vt := transpose 1 0 V in matmul T Vt in
      let* (T, V, iR) := match m with
        | Some s => Ok s
        | None => match P with
                  | [n; f; b] => let T := [n_basis; f; b] in let V := [n_basis; n; b] in
                                 let* iR := estimate T V in Ok (T, V, iR)
                  | _ => raise ValueError end
        end in
      let* p := bcast P iR in let* num := matmul p V in let* den := matmul iR V in
      let* q := bcast num den in let* T := bcast T q in                      (* 133-136 *)
      let* iR := estimate T V in
      let* iRt := transpose 1 0 iR in let* Pt := transpose 1 0 P in
      let* p := bcast Pt iRt in let* num := matmul p T in let* den := matmul iRt T in
      let* q := bcast num den in let* V := bcast V q in                      (* 142-147 *)
      let* iR := estimate T V in
      let* r := reshape (n_frames :: n_freq :: batch_shape) iR in
      Ok (r, Some (T, V, iR))
  | _ => raise ValueError
  end.

(* ---- beamformer.py.  mask_model: shape of the input to shape of the masks. *)
Section Beam.
Variable mask_model : shape -> result shape.
(* masks[..., i, :, :] and beamformer.py:261-264, 286-289, 390-393, 489-492 *)
Definition bf_cov (masks X : shape) (i : Z) : result shape :=
  let* mask := select 2 i masks in einsum ["sfn"; "cfn"; "dfn"] "sfcd" [mask; X; X].
(* beamformer.py:27-63 with ref_mic given *)
Definition mwf_bf (R_tgt R_noise : shape) (ref_mic : Z) : result shape :=
  let* A := bcast R_tgt R_noise in let* b := select 0 ref_mic R_tgt in solve_loaded A b.
(* beamformer.py:66-109 *)
Definition mvdr_rtf (R_tgt R_noise : shape) (ref_mic : Z) (power_iterations : option nat) : result shape :=
  let* v := match power_iterations with
            | None => let* (eigval, eigvec) := eigh R_tgt (Some R_noise) in select 0 (-1) eigvec
            | Some p =>
                let* Phi := solve_loaded R_noise R_tgt in
                let* v := select 0 0 Phi in
                for_range (fun _ v => einsum ["cd"; "d"] "c" [Phi; v]) (p - 1) v
            end in
  let* sv := einsum ["cd"; "d"] "c" [R_noise; v] in
  let* scale := pick 0 ref_mic sv in
  bcast sv scale.
(* beamformer.py:112-122 *)
Definition mvdr_bf (R_noise sv : shape) : result shape :=
  let* a := solve_loaded R_noise sv in
  let* denom := einsum ["c"; "c"] "" [sv; a] in
  let* d := unsq 0 denom in bcast a d.
(* beamformer.py:125-136 *)
Definition mvdr_bf2 (R_tgt R_noise : shape) (ref_mic : Z) : result shape :=
  let* num := solve R_noise R_tgt in
  let* dg := diagonal num in let* denom := reduce 0 dg in
  let* d := unsq 0 denom in let* d := unsq 0 d in
  let* w := bcast num d in select 0 ref_mic w.
(* beamformer.py:139-158 *)
Definition gev_bf (R_tgt R_noise : shape) (ref_mic : Z) : result shape :=
  let* (eigval, eigvec) := eigh R_tgt (Some R_noise) in
  let* n := size 0 eigvec in
  let* r := select 0 (-1) [n; n] in let* rhs := unsq 0 r in
  let* h := hermite eigvec in
  let* sv := solve h rhs in
  let* s := select 1 ref_mic sv in let* scale := transpose 2 1 s in
  let* e := select 0 (-1) eigvec in let* e := transpose 2 1 e in
  bcast e scale.
Inductive mvdr_type := Rtf | Scm | OtherType.
(* beamformer.py:235-306 *)
Definition mvdr_forward (ty : mvdr_type) (ref_mic : Z) (n_power_iter : option nat) (X : shape) : result shape :=
  let* x := select 2 ref_mic X in
  let* masks := mask_model x in
  let* n_masks := size 2 masks in
  let* bf :=
    (if Nat.eqb n_masks 2 then
       let* R_tgt := bf_cov masks X 0 in let* R_noise := bf_cov masks X 1 in
       match ty with
       | Rtf => let* rtf := mvdr_rtf R_tgt R_noise ref_mic n_power_iter in mvdr_bf R_noise rtf
       | Scm => mvdr_bf2 R_tgt R_noise ref_mic
       | OtherType => raise UnboundLocalError
       end
     else if Nat.eqb n_masks 3 then
       let* R_tgt := bf_cov masks X 0 in let* R_noise := bf_cov masks X 1 in let* R_noise_2 := bf_cov masks X 2 in
       let* rtf := mvdr_rtf R_tgt R_noise_2 ref_mic n_power_iter in mvdr_bf R_noise rtf
     else raise UnboundLocalError) in
  einsum ["cfn"; "sfc"] "sfn" [X; bf].
(* beamformer.py:367-418 *)
Definition mwf_forward (time_invariant : bool) (ref_mic : Z) (X : shape) : result shape :=
  let* x := select 2 ref_mic X in
  let* masks := mask_model x in
  let* R_tgt := bf_cov masks X 0 in let* R_noise := bf_cov masks X 1 in
  if time_invariant then
    let* bf := mwf_bf R_tgt R_noise ref_mic in
    einsum ["cfn"; "sfc"] "sfn" [X; bf]
  else
    let* n_masks := size 2 masks in
    if negb (Nat.eqb n_masks 4) then raise AssertionError else
    let vary R i := let* V := select 2 i masks in
                    let* R := unsq 2 R in let* V := unsq 0 V in let* V := unsq 0 V in bcast R V in
    let* R_tgt := vary R_tgt 2%Z in let* R_noise := vary R_noise 3%Z in
    let* bf := mwf_bf R_tgt R_noise ref_mic in
    einsum ["cfn"; "sfnc"] "sfn" [X; bf].
(* beamformer.py:468-500 *)
Definition gev_forward (ref_mic : Z) (X : shape) : result shape :=
  let* x := select 2 ref_mic X in
  let* masks := mask_model x in
  let* R_tgt := bf_cov masks X 0 in let* R_noise := bf_cov masks X 1 in
  let* bf := gev_bf R_tgt R_noise ref_mic in
  let* Xt := transpose 2 1 X in
  let* Y := bmm bf Xt in
  transpose 2 1 Y.
End Beam.
