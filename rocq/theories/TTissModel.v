(* torchiva/t_iss.py on whole tensors (any batch dimensions), statement by statement.
   The source model is a function with a state (NMF keeps its factors between calls). *)
From Coq Require Import String Ascii ZArith.
From mathcomp Require Import all_ssreflect all_algebra.
From Verif Require TorchShape.
From Verif Require Import CAlg Py LinalgModel TensorModel TOpsModel.
Set Implicit Arguments. Unset Strict Implicit. Unset Printing Implicit Defensive.
Import GRing.Theory Num.Theory.
Local Open Scope ring_scope.
Local Open Scope py_scope.
Local Open Scope string_scope.

Section TTiss.
Variable C : numClosedFieldType.
Local Notation tensor := (tensor C).

(* t_iss.py:39-42 *)
Definition t_demix_derev (X X_bar W H : tensor) : result tensor :=
  let* reverb := einsum [:: "cfdt"; "dftn"] "cfn" [:: H; X_bar] in
  let* sep := einsum [:: "cfd"; "dfn"] "cfn" [:: W; X] in
  tsub sep reverb.
(* t_iss.py:45-53 *)
Definition t_demix_background (X : tensor) (J : option tensor) : result (option tensor) :=
  if J is Some J then
    let* n_src := TorchShape.size 0 (sh J) in
    let* X1 := slice_to 2 n_src X in
    let* r := einsum [:: "cfd"; "dfn"] "cfn" [:: J; X1] in
    let* X2 := slice_from 2 n_src X in
    let* Zt := tsub r X2 in Ok (Some Zt)
  else Ok None.
(* t_iss.py:56-78; the division 1.0 / n_frames raises ZeroDivisionError without frames,
   for which RuntimeError stands, as in TissModel.v *)
Definition t_iss1 (src : Z) (X weights : tensor) (eps : C) : result tensor :=
  let* n_frames := TorchShape.size 0 (sh X) in
  let* Xs := select 2 src X in
  if n_frames == 0%N then raise RuntimeError else
  let norm := 1 / n_frames%:R in
  let* v_num := einsum [:: "cfn"; "cfn"; "fn"] "cf" [:: weights; X; tmap conjC Xs] in
  let v_num := tmap (fun x => x * norm) v_num in
  let* v_denom := einsum [:: "cfn"; "fn"] "cf" [:: weights; tmap (@mag_sq C) Xs] in
  let v_denom := tmap (fun x => x * norm) v_denom in
  let* v := tdivide v_num v_denom eps in
  let* v_s := select 1 src v_denom in
  let v_s := tmap (fun x => 1 - 1 / sqrtC (clamp x eps)) v_s in
  assign_select 1 src v v_s.
(* t_iss.py:92-98 and 116-122: types 2 and 3 from the steering signal Zs on *)
Definition t_iss23 (X Zs weights : tensor) (eps : C) : result tensor :=
  let* v_num := einsum [:: "cfn"; "cfn"; "fn"] "cf" [:: weights; X; tmap conjC Zs] in
  let* v_denom := einsum [:: "cfn"; "fn"] "cf" [:: weights; tmap (@mag_sq C) Zs] in
  tdivide v_num v_denom eps.
(* t_iss.py:168-174, 176-184, 187-192: the bodies of the loops *)
Definition t_step1 (weights : tensor) (eps : C) (src : Z) (st : tensor * tensor * tensor) : result (tensor * tensor * tensor) :=
  let: (X, W, H) := st in
  let* v := t_iss1 src X weights eps in
  let* Xs := select 2 src X in let* d := einsum [:: "cf"; "fn"] "cfn" [:: v; Xs] in let* X := tsub X d in
  let* Ws := select 2 src W in let* d := einsum [:: "cf"; "fd"] "cfd" [:: v; Ws] in let* W := tsub W d in
  let* Hs := select 3 src H in let* d := einsum [:: "cf"; "fdt"] "cfdt" [:: v; Hs] in let* H := tsub H d in
  Ok (X, W, H).
Definition t_step2 (weights : tensor) (eps : C) (n_src : nat) (Zt J : tensor) (bak : Z) (st : tensor * tensor) : result (tensor * tensor) :=
  let: (X, W) := st in
  let* Zb := select 2 bak Zt in
  let* v := t_iss23 X Zb weights eps in
  let* d := einsum [:: "cf"; "fn"] "cfn" [:: v; Zb] in let* X := tsub X d in
  let* Jb := select 2 bak J in let* d := einsum [:: "cf"; "fd"] "cfd" [:: v; Jb] in
  let* W1 := slice_to 0 n_src W in let* W1 := tsub W1 d in let* W := assign_to 0 n_src W W1 in
  let* Wb := select 0 (Z.add (Z.of_nat n_src) bak) W in let* Wb := tadd Wb v in
  let* W := assign_select 0 (Z.add (Z.of_nat n_src) bak) W Wb in
  Ok (X, W).
Definition t_step3 (weights : tensor) (eps : C) (X_bar : tensor) (src tap : Z) (st : tensor * tensor) : result (tensor * tensor) :=
  let: (X, H) := st in
  let* Xt := select 1 tap X_bar in let* Xst := select 2 src Xt in
  let* v := t_iss23 X Xst weights eps in
  let* d := einsum [:: "cf"; "fn"] "cfn" [:: v; Xst] in let* X := tsub X d in
  let* Hs := select 1 src H in let* Hst := select 0 tap Hs in let* HV := tadd Hst v in
  let* Hs := assign_select 0 tap Hs HV in let* H := assign_select 1 src H Hs in      (* H[..., src, tap] = HV *)
  Ok (X, H).
(* t_iss.py:156-194 *)
Definition t_iss_updates_with_H (X X_bar W H weights : tensor) (J Zt : option tensor) (eps : C) :
    result (tensor * tensor * tensor) :=
  let* n_src := TorchShape.size 2 (sh X) in
  let* n_chan := (match J, Zt with
                  | None, _ => Ok n_src
                  | Some _, Some Zt => let* k := TorchShape.size 2 (sh Zt) in Ok (n_src + k)%N
                  | Some _, None => raise AttributeError
                  end) in
  let* n_taps := TorchShape.size 1 (sh X_bar) in
  let* (XW, H) := TorchShape.for_range (t_step1 weights eps) n_src (X, W, H) in
  let* (X, W) := (match Zt, J with
                  | Some Zt, Some J => TorchShape.for_range (t_step2 weights eps n_src Zt J) (n_chan - n_src) XW
                  | _, _ => Ok XW
                  end) in
  let* (X, H) := TorchShape.for_range (fun src => TorchShape.for_range (t_step3 weights eps X_bar src) n_taps) n_chan (X, H) in
  Ok (X, W, H).
(* t_iss.py:197-227; mat2 is mat * weights *)
Definition t_background_update (W H C_XX C_XbarX : tensor) (eps : C) : result tensor :=
  let* n_src := TorchShape.size 2 (sh W) in
  let* A1 := einsum [:: "sfc"; "cfd"] "fsd" [:: W; C_XX] in
  let* A2 := einsum [:: "sfdt"; "dtfc"] "fsc" [:: H; C_XbarX] in
  let* A := tadd A1 A2 in
  let* mat := slice_to 0 n_src A in
  let* rhs := slice_from 0 n_src A in
  let* norm := tnorm_keep 0 mat in
  let weights := tmap (fun x => 1 / clamp x eps) norm in
  let load := tscale eps (teye C n_src) in
  let* mat2 := tmul mat weights in
  let* rhs := tmul rhs weights in
  let* mat := einsum [:: "km"; "kn"] "mn" [:: tmap conjC mat2; mat2] in
  let* rhs := einsum [:: "km"; "kn"] "mn" [:: tmap conjC mat2; rhs] in
  let* mat := tadd mat load in
  let* J_H := solve mat rhs in
  moveaxis 0 2 (tmap conjC J_H).

Section Loop.
Variable St : Type.
Variable model : St -> tensor -> result (tensor * St).
(* t_iss.py:230-256; C_XX and C_XbarX are None exactly when J is *)
Definition t_one_iter (X X_bar : tensor) (Cs : option (tensor * tensor)) (eps : C)
    (st : tensor * tensor * tensor * option tensor * St) : result (tensor * tensor * tensor * option tensor * St) :=
  let: (Y, W, H, J, m) := st in
  let* (weights, m) := model m Y in
  let* g := tmean2_keep (tmap (@mag_sq C) Y) in
  let g := tmap (fun x => clamp x eps) g in
  let g_sqrt := tmap sqrtC g in
  let* Y := tdivide Y g_sqrt eps in
  let* W := tdivide W g_sqrt eps in
  let* g4 := unsq 0 g_sqrt in
  let* H := tdivide H g4 eps in
  let* weights := tmul weights g in
  let* J := (match J, Cs with
             | Some _, Some (C_XX, C_XbarX) => let* J := t_background_update W H C_XX C_XbarX (10%:R ^- 3) in Ok (Some J)
             | Some _, None => raise AttributeError
             | None, _ => Ok None
             end) in
  let* Zt := t_demix_background X J in
  let* (YW, H) := t_iss_updates_with_H Y X_bar W H weights J Zt eps in
  Ok (YW, H, J, m).
(* t_iss.py:259-269 *)
Definition t_one_iter_dmc (X X_bar : tensor) (Cs : option (tensor * tensor)) (eps : C)
    (st : tensor * tensor * tensor * option tensor * St) : result (tensor * tensor * tensor * option tensor * St) :=
  let: (Y0, W, H, J, m) := st in
  let* Y := t_demix_derev X X_bar W H in
  let* (YWH, J, m) := t_one_iter X X_bar Cs eps (Y, W, H, J, m) in
  Ok (Y0, YWH.1.2, YWH.2, J, m).
(* t_iss.py:272-302; the loading of solve_loaded_general is its default *)
Definition t_projection_back_weights (W : tensor) (J : option tensor) (ref_mic : Z) : result tensor :=
  match sh W with
  | n_chan :: n_freq :: n_src :: _ =>
      let eye := teye C n_src in
      let* (lhs, rhs) :=
        (if (n_src < n_chan)%N then
           if J is Some J then
             let* W1 := slice_to 0 n_src W in
             let* W2 := slice_from 0 n_src W in
             let* B := einsum [:: "sfc"; "cfk"] "sfk" [:: W2; J] in
             let* B := tadd B W1 in
             let* rhs := (if Z.ltb ref_mic (Z.of_nat n_src) then pick 0 ref_mic eye
                          else let* r := pick 2 (Z.sub ref_mic (Z.of_nat n_src)) J in permute_213 r) in
             let* lhs := einsum [:: "sfc"] "fcs" [:: B] in
             Ok (lhs, rhs)
           else raise AssertionError
         else
           let* rhs := pick 0 ref_mic eye in
           let* WT := transpose 2 1 W in
           let* lhs := transpose 1 0 WT in
           Ok (lhs, rhs)) in
      let* a := solve_loaded_general lhs rhs (10%:R ^- 5) (10%:R ^- 5) in
      transpose 2 1 a
  | _ => raise ValueError
  end.
Fixpoint t_iterate (A : Type) (body : A -> result A) (n : nat) (x : A) : result A :=
  if n is n'.+1 then let* y := body x in t_iterate body n' y else Ok x.
(* t_iss.py:430-542 after the parameters are resolved: the output, self.W, self.J *)
Definition t_tiss_forward (n_iter n_taps n_delay : nat) (n_src : option nat) (use_dmc : bool)
    (proj_back_mic : option Z) (eps : C) (m0 : St) (X : tensor) : result (tensor * tensor * option tensor) :=
  match sh X with
  | n_frames :: n_freq :: n_chan :: batch_shape =>
      let n_src := if n_src is Some n then n else n_chan in
      if (n_chan < n_src)%N then raise ValueError else
      let is_overdet := (n_src < n_chan)%N in
      let* X_pad := pad_left (n_taps + n_delay) X in
      let* X_hankel := hankel_view X_pad (n_taps + n_delay + 1) in
      let* X_bar := slice_last 1 (n_delay + 1) X_hankel in
      let* Cs :=
        (if is_overdet then
           let* C_XX := einsum [:: "cfn"; "dfn"] "cfd" [:: X; tmap conjC X] in
           let C_XX := tmap (fun x => x / n_frames%:R) C_XX in
           let* C_XbarX := einsum [:: "cftn"; "dfn"] "ctfd" [:: X_bar; tmap conjC X] in
           let C_XbarX := tmap (fun x => x / n_frames%:R) C_XbarX in
           Ok (Some (C_XX, C_XbarX))
         else Ok None) in
      let W := tzeros C [:: n_chan, n_freq, n_src & batch_shape] in
      let* eye := unsq 1 (teye2 C n_src n_chan) in
      let* W := assign_all W eye in
      let H := tzeros C [:: n_taps, n_chan, n_freq, n_src & batch_shape] in
      let* J := (if Cs is Some (C_XX, C_XbarX) then let* J := t_background_update W H C_XX C_XbarX eps in Ok (Some J)
                 else Ok None) in
      let* Y := t_demix_derev X X_bar W H in
      let* (YWH, J, m) := t_iterate (if use_dmc then t_one_iter_dmc X X_bar Cs eps else t_one_iter X X_bar Cs eps)
                            n_iter (Y, W, H, J, m0) in
      let: (Y, W, H) := YWH in
      let* Y := (if use_dmc then t_demix_derev X X_bar W H else Ok Y) in
      let* Y := (match proj_back_mic with
                 | Some ref_mic =>
                     if (0 < n_iter)%N then let* a := t_projection_back_weights W J ref_mic in tmul a Y else Ok Y
                 | None => Ok Y
                 end) in
      Ok (Y, W, J)
  | _ => raise ValueError
  end.
End Loop.
End TTiss.
