(* Model of torchiva/scaling.py on whole tensors, with any batch dimensions (see TensorModel.v;
   ScalingModel.v has the same functions with the batch as a finite type).  Spectrograms have the
   Python shape batch + (channels, frequencies, frames), references batch + (frequencies,
   frames). *)
From Coq Require Import String Ascii ZArith.
From mathcomp Require Import all_ssreflect all_algebra.
From Verif Require TorchShape.
From Verif Require Import CAlg Py Batch LinalgModel TensorModel TOpsModel.
Set Implicit Arguments. Unset Strict Implicit. Unset Printing Implicit Defensive.
Import GRing.Theory Num.Theory.
Local Open Scope ring_scope.
Local Open Scope py_scope.

Section TScaling.
Variable C : numClosedFieldType.
Local Notation tensor := (tensor C).
Implicit Types (Y ref : tensor).

(* torchiva/parameters.py eps_scaling *)
Definition t_eps_mdp : C := 10%:R ^- 7.
Definition t_eps_gmdp : C := 10%:R ^- 5.
(* view_as_complex(view_as_real(x) / d) *)
Definition re_im_div (x d : C) : C := 'Re x / d + 'i * ('Im x / d).

(* scaling.py:81-101 minimum_distortion_l2 *)
Definition t_md_l2 Y ref : result tensor :=
  let* r := unsq 2 ref in let* pr := tmul (tmap conjC r) Y in let* num := tsum 0 pr in   (* 94 *)
  let* n := TorchShape.size 0 (sh Y) in
  let num := tmap (fun x => x / n%:R) num in
  let* denom := tmean 0 (tmap (@mag_sq C) Y) in                                               (* 95 *)
  let* c := tzip (fun x d => re_im_div x (clamp d t_eps_mdp)) num denom in               (* 97-99 *)
  let* c := unsq 0 c in tmul Y (tmap conjC c).                                           (* 101 *)

(* scaling.py:104-123 minimum_distortion_l2_phase *)
Definition t_md_phase Y ref : result tensor :=
  let* Y := transpose 2 1 Y in                                                           (* 117 *)
  let* r := unsq 1 ref in let* pr := tmul (tmap conjC r) Y in let* num := tmean 0 pr in  (* 119 *)
  let c := tmap (fun x => re_im_div x (clamp (sqrtC ('Re x ^+ 2 + 'Im x ^+ 2)) (10%:R ^- 5))) num in (* 121 *)
  let* c := unsq 0 c in let* o := tmul Y (tmap conjC c) in transpose 2 1 o.              (* 123 *)

(* ---- minimum_distortion *)
Variable pw : C -> C -> C.    (* x.pow(y) for real x >= 0 and real y *)
(* scaling.py:214-217 lp_norm *)
Definition t_lp_norm (E : tensor) (p : C) : result tensor :=
  if (0 < p) && (p < 2%:R) then
    Ok (tmap (fun x => p / clamp (2%:R * pw `|x| (2%:R - p)) t_eps_gmdp) E)
  else raise AssertionError.
(* scaling.py:220-228 lpq_norm with axis = -3 *)
Definition t_lpq_norm (E : tensor) (p q : C) : result tensor :=
  if [&& 0 < p, p <= q & q <= 2%:R] then
    let E := tmap (fun x => `|x| + 10%:R ^- 5) E in                                      (* 223 *)
    let E := tmap (fun x => pw x q + 10%:R ^- 5) E in                                    (* 224 *)
    let* s := tsum_keep 2 E in let rn := tmap (fun x => pw x (1 - p / q)) s in           (* 225 *)
    let qfn := tmap (fun x => pw `|x| (2%:R - q)) E in                                   (* 226 *)
    let* d := tmul (tmap (fun x => 2%:R * x) rn) qfn in
    Ok (tmap (fun x => p / clamp x t_eps_gmdp) d)                                        (* 227 *)
  else raise AssertionError.

Section Loop.
Variable St : Type.
Variable model : option (St -> tensor -> result (tensor * St)).
Variables (p q : option C) (rtol : C).
(* scaling.py:182-193 the weights; with neither model nor p the function has returned before *)
Definition t_weights (st : St) (error : tensor) : result (tensor * St) :=
  match model with
  | Some m =>
      let* e := transpose 2 1 error in let* (w, st) := m st e in let* w := transpose 2 1 w in   (* 183 *)
      let* w := select 3 Z0 w in let* w := select 2 Z0 w in                              (* 184 *)
      let* norm := tsum_keep 0 w in                                                      (* 187 *)
      let norm := tmap (fun x => clamp x (10%:R ^- 5)) norm in                           (* 188 *)
      let* w := tdiv w norm in Ok (w, st)                                                (* 189 *)
  | None =>
      match p with
      | None => raise TypeError
      | Some p =>
          let* w := if (if q is Some q then p == q else true) then t_lp_norm error p
                    else if q is Some q then t_lpq_norm error p q else raise TypeError in
          Ok (w, st)
      end
  end.
(* 181: the current error *)
Definition t_error Y ref (c : tensor) : result tensor :=
  let* r := unsq 1 ref in let* c := unsq 0 c in let* cY := tmul c Y in tsub r cY.
(* 196-198: minimise the weighted error *)
Definition t_min Y ref (w : tensor) : result tensor :=
  let* r := unsq 1 ref in
  let* num := tmul r (tmap conjC Y) in let* num := tmul num w in let* num := tsum 0 num in
  let* denom := tmul (tmap (fun x => `|x| ^+ 2) Y) w in let* denom := tsum 0 denom in
  tzip (fun x d => x / clamp d t_eps_gmdp) num denom.
(* 206: norm over all elements *)
Definition t_fro (t : tensor) : C := sqrtC (\sum_(i <- idxs (sh t)) `|at_ t i| ^+ 2).
(* 206-208: relative step; a comparison with NaN or inf is false *)
Definition t_small_step (c prev : tensor) : result bool :=
  let* d := tsub c prev in Ok ((t_fro prev != 0) && (t_fro d / t_fro prev < rtol)).
(* scaling.py:173-209, the while loop; fuel = max_iter - epoch; Y in the order
   (..., n_freq, n_chan, n_frames) *)
Fixpoint t_md_loop Y ref (fuel : nat) (c : tensor) (prev : option tensor) (st : St) : result (tensor * St) :=
  match fuel with
  | O => Ok (c, st)
  | S n =>
      let* error := t_error Y ref c in
      let* (w, st) := t_weights st error in
      let* c := t_min Y ref w in
      match prev with
      | None => t_md_loop Y ref n c (Some c) st
      | Some pr => let* stop := t_small_step c pr in
          if stop then Ok (c, st) else t_md_loop Y ref n c (Some c) st
      end
  end.
(* scaling.py:126-211 minimum_distortion; max_iter <= 0 is 0 *)
Definition t_minimum_distortion Y ref (max_iter : nat) (st : St) : result (tensor * St) :=
  if (if model is None then (if p is Some p then (p == 2%:R) && (if q is Some q then p == q else true) else true) else false) (* 160 *)
  then let* o := t_md_l2 Y ref in Ok (o, st)
  else
    if (List.length (sh Y) < 3)%N then raise ValueError else                             (* 163 *)
    let* Yt := transpose 2 1 Y in                                                        (* 168 *)
    let c := mkT (behead (sh Yt)) (fun _ => 1) in                                        (* 171 *)
    let* (c, st) := t_md_loop Yt ref max_iter c None st in
    let* c := unsq 0 c in let* c := transpose 2 1 c in let* o := tmul Y c in Ok (o, st). (* 211 *)
End Loop.

(* ---- projection_back.  Tensors of indices *)
Record itensor := mkI { ish : seq nat; iat : seq nat -> nat }.
(* torch.argsort(t, dim=-1); argsort is an oracle: the order in which the n numbers of a row are
   put (ties are broken as torch likes) *)
Variable argsort : forall n, ('I_n -> C) -> 'I_n -> 'I_n.
Definition t_argsort (t : tensor) : result itensor :=
  let* n := TorchShape.size 0 (sh t) in
  Ok (mkI (sh t) (fun i => if i is x :: r then
        (if insub x is Some k then nat_of_ord (argsort (fun j : 'I_n => at_ t (nat_of_ord j :: r)) k) else 0%N) else 0%N)).
(* t[..., -k:]; all of it when k = 0 *)
Definition i_last (k : nat) (t : itensor) : result itensor :=
  let* n := TorchShape.size 0 (ish t) in
  let m := if k == 0%N then n else minn k n in
  Ok (mkI (TorchShape.set 0 m (ish t)) (fun i => if i is x :: r then iat t ((n - m + x)%N :: r) else 0%N)).
Definition i_unsq (p : nat) (t : itensor) : result itensor :=
  let* s := TorchShape.unsq p (ish t) in Ok (mkI s (fun i => iat t (TorchShape.del p i))).
(* the first result of torch.broadcast_tensors(t, u) *)
Definition i_bcast (t : itensor) (u : tensor) : result itensor :=
  let* s := TorchShape.bcast (ish t) (sh u) in Ok (mkI s (fun i => iat t (clip (ish t) i))).
(* torch.gather(t, dim=-1, index): as many dimensions, none of the others larger *)
Definition tgather (t : tensor) (ix : itensor) : result tensor :=
  if (List.length (sh t) == List.length (ish ix)) && all (fun ab : nat * nat => (ab.1 <= ab.2)%N) (zip (behead (ish ix)) (behead (sh t)))
  then Ok (mkT (ish ix) (fun i => at_ t (iat ix i :: behead i)))
  else raise RuntimeError.
(* reshape((-1,) + s) *)
Definition treshape_m1 (s : seq nat) (t : tensor) : result tensor :=
  let* s := TorchShape.reshape_m1 s (sh t) in Ok (mkT s (fun i => at_ t (unflat (sh t) (flat s i)))).
(* scaling.py:42-78 projection_back *)
Definition t_projection_back Y ref : result tensor :=
  match sh Y with
  | _ :: n_freq :: n_chan :: shape =>                                                    (* 55-56 *)
      let* Y := transpose 2 1 Y in                                                       (* 58 *)
      let* m := tsum 1 (tmap (@mag C) Y) in let* m := tsum 1 m in
      let* I_nz := t_argsort m in let* I_nz := i_last n_chan I_nz in                     (* 61 *)
      let* Yn := slice_to 0 n_chan Y in let* Iy := i_unsq 1 I_nz in let* Iy := i_unsq 1 Iy in
      let* Iy := i_bcast Iy Yn in                                                        (* 63 *)
      let* rn := slice_to 0 n_chan ref in let* Ir := i_unsq 1 I_nz in let* Ir := i_bcast Ir rn in (* 64 *)
      let* A := tgather Y Iy in let* A := transpose 1 0 A in                             (* 66 *)
      let* b := tgather ref Ir in let* b := unsq 0 b in                                  (* 67-68 *)
      let* A_flat := treshape_m1 [:: n_chan; n_chan] A in                                (* 72 *)
      let* k := TorchShape.size 0 (sh b) in
      let* b_flat := treshape_m1 [:: k; n_chan] b in                                     (* 73 *)
      let dload := tscale (10%:R ^- 5) (teye C n_chan) in                                (* 75 *)
      let* Al := tadd A_flat dload in let* c := solve Al b_flat in                       (* 76 *)
      let* c := reshape [:: 1%N, n_chan, n_freq & shape] c in
      let* o := tmul Y c in transpose 2 1 o                                              (* 78 *)
  | _ => raise ValueError
  end.
End TScaling.
