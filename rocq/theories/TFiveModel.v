(* torchiva/five.py on whole tensors (any batch dimensions), statement by statement.
   adjust_global_scale (76-81) is never called. *)
From Coq Require Import String Ascii ZArith.
From mathcomp Require Import all_ssreflect all_algebra.
From Verif Require TorchShape.
From Verif Require Import CAlg Py LinalgModel FiveModel TensorModel TOpsModel TTissModel TIpModel TEighModel.
Set Implicit Arguments. Unset Strict Implicit. Unset Printing Implicit Defensive.
Import GRing.Theory Num.Theory.
Local Open Scope ring_scope.
Local Open Scope py_scope.
Local Open Scope string_scope.

Section TFive.
Variable C : numClosedFieldType.
Local Notation tensor := (tensor C).
Variable eighO : forall n, eigh_oracle C n.     (* torch.linalg.eigh *)

(* torch.linalg.inv *)
Definition t_inv (A : tensor) : result tensor :=
  if sh A is n :: m :: r then
    if n == m then
      let* X := mapb 0 r (fun i => torch_inv (mat n n A i)) in
      Ok (mkT (sh A) (fun j => if j is y :: x :: i then get (X i) x y else 0))
    else raise RuntimeError
  else raise RuntimeError.
(* linalg.py:110-116  inv_loaded *)
Definition t_inv_loaded (A : tensor) (load : C) : result tensor :=
  let* n := TorchShape.size 0 (sh A) in
  let eye := teye C n in
  let* m := tmax_keep 1 (tmap (fun x => `|x|) A) in let* m := tmax_keep 0 m in
  let load_factor := tmap (fun x => clamp (load * x) load) m in
  let* d := tmul load_factor eye in let* Al := tadd A d in t_inv Al.
(* division where a zero divisor makes a NaN; the entries that are not NaN are not kept *)
Definition tdiv_nan (t u : tensor) : result tensor :=
  let* s := TorchShape.bcast (sh t) (sh u) in
  let* v := mapb 0 s (fun i => if at_ u (clip (sh u) i) == 0 then raise NotANumber else Ok (at_ t (clip (sh t) i) / at_ u (clip (sh u) i))) in
  Ok (mkT s v).
(* five.py:36-50; the eigenvalues are not used by the caller *)
Definition t_smallest_eigh (V : tensor) : result tensor :=
  let* (ev, vec) := t_eigh_wrapper eighO V in select 0 Z0 vec.
(* five.py:64-67, the norm and its [..., None] in one step; the norms are not zero
   (power_nonzero in FiveBridge.v) *)
Definition t_power_step (V_inv x : tensor) : result tensor :=
  let* x := einsum [:: "fcd"; "fd"] "fc" [:: V_inv; x] in
  let* ev := tnorm_keep 0 x in tdiv x ev.
(* five.py:53-73 with 32-33 (norm along the frequencies).  n_iter <= 1 does not bind ev, which
   line 73 reports; nothing between 62 and 73 raises *)
Definition t_smallest_power (V : tensor) (n_iter : nat) : result tensor :=
  if ~~ TorchShape.square (sh V) then raise AssertionError else
  let* V_inv := t_inv_loaded V (10%:R ^- 5) in
  let* x := select 0 Z0 V_inv in
  let* nrm := tnorm_keep 1 x in
  if (n_iter <= 1)%N then raise UnboundLocalError
  else
    let* x := tdiv_nan x nrm in
    let* x := t_iterate (t_power_step V_inv) (n_iter - 1) x in
    let* x0 := select 0 Z0 x in
    let* s := unsq 0 (tmap (fun z => (sgn z)^*) x0) in
    tmul x s.
(* five.py:178-179 *)
Definition t_five_cov (X : tensor) (n_frames : nat) : result tensor :=
  let* Cx := einsum [:: "cfn"; "dfn"] "fcd" [:: X; tmap conjC X] in
  let Cx := tmap (fun x => x / n_frames%:R) Cx in
  let* h := hermite Cx in let* s := tadd Cx h in
  Ok (tscale (1 / 2%:R) s).
(* five.py:183-192: Q and Qinv *)
Definition t_five_whiten (Cx : tensor) : result (tensor * tensor) :=
  let* (e_val, e_vec) := t_eigh eighO Cx None in
  let* e_vec := flip_last e_vec in
  let* e_val := flip_last e_val in
  let e_val_sqrt := tmap (fun x => sqrtC (clamp x (10%:R ^- 5))) e_val in
  let* l := unsq 0 e_val_sqrt in let* h := hermite e_vec in
  let* Q := tmul (tmap (fun x => x^-1) l) h in
  let* r := unsq 1 e_val_sqrt in
  let* Qinv := tmul e_vec r in
  Ok (Q, Qinv).
(* indexing with proj_back_mic, which may be None: t[..., proj_back_mic, :] *)
Definition t_index_mic (mic : option Z) (t : tensor) : result tensor :=
  match mic with Some z => select 1 z t | None => unsq 1 t end.
(* five.py:207, 212-215 *)
Definition t_five_init (mic : option Z) (X Q Cx : tensor) : result tensor :=
  let* Y := select 2 Z0 X in
  match mic with
  | Some z =>
      let* q := select 1 Z0 Q in let* q := unsq 1 q in
      let* c := select 0 z Cx in let* c := unsq 0 c in
      let* z := matmul q c in let* z := transpose 2 1 z in
      let* z := select 2 Z0 z in tmul z Y
  | None => Ok Y
  end.
(* five.py:223-224 *)
Definition t_five_V (weights X : tensor) : result tensor :=
  let* V := einsum [:: "fn"; "cfn"; "dfn"] "fcd" [:: weights; X; tmap conjC X] in
  let* h := hermite V in let* s := tadd V h in
  Ok (tscale (1 / 2%:R) s).
(* five.py:229-235 *)
Definition t_five_eigvec (n_power_iter : option nat) (V : tensor) : result tensor :=
  match n_power_iter with None => t_smallest_eigh V | Some p => t_smallest_power V p end.
(* five.py:238-242 *)
Definition t_five_output (Qinv_ref X u : tensor) : result tensor :=
  let* z := einsum [:: "fc"; "fc"] "f" [:: Qinv_ref; u] in
  let* z := unsq 0 z in
  let* w := tmul u (tmap conjC z) in
  einsum [:: "fc"; "cfn"] "fn" [:: tmap conjC w; X].
Section Loop.
Variable St : Type.
Variable model : St -> tensor -> result (tensor * St).
(* five.py:217-242 *)
Definition t_five_iter (X Qinv_ref : tensor) (n_power_iter : option nat) (x : tensor * St) : result (tensor * St) :=
  let: (Y, m) := x in
  let* (weights, m) := model m Y in
  let* V := t_five_V weights X in
  let* u := t_five_eigvec n_power_iter V in
  let* Y := t_five_output Qinv_ref X u in
  Ok (Y, m).
(* five.py:146-248 after the parameters are resolved and the source model reset to m0 *)
Definition t_five_forward (n_iter : nat) (proj_back_mic : option Z) (n_power_iter : option nat) (m0 : St) (X : tensor) : result tensor :=
  match sh X with
  | n_frames :: n_freq :: n_chan :: _ =>
      let* X := slice_from 1 1 X in
      let* Cx := t_five_cov X n_frames in
      let* (Q, Qinv) := t_five_whiten Cx in
      let* Qinv_ref := t_index_mic proj_back_mic Qinv in
      let* X := einsum [:: "fcd"; "dfn"] "cfn" [:: Q; X] in
      let* Y := t_five_init proj_back_mic X Q Cx in
      let* (Y, m) := t_iterate (t_five_iter X Qinv_ref n_power_iter) n_iter (Y, m0) in
      match sh Y with
      | t :: f :: s => let* Y := tcat 1 (tzeros C [:: t, 1 & s]%N) Y in unsq 2 Y
      | _ => raise IndexError
      end
  | _ => raise ValueError
  end.
End Loop.
End TFive.
