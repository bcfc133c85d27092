(* torchiva/linalg.py on whole tensors: the 2 x 2 routines and eigh, statement by statement.
   torch.linalg.eigh is applied to each matrix of the batch (an oracle, as in LinalgModel.v).
   Complex inputs only: for real dtypes is_complex_type (186-189) skips the imaginary parts. *)
From Coq Require Import String Ascii ZArith.
From mathcomp Require Import all_ssreflect all_algebra.
From Verif Require TorchShape.
From Verif Require Import CAlg Py LinalgModel TensorModel TOpsModel.
Set Implicit Arguments. Unset Strict Implicit. Unset Printing Implicit Defensive.
Import GRing.Theory Num.Theory.
Local Open Scope ring_scope.
Local Open Scope py_scope.

Section TEigh.
Variable C : numClosedFieldType.
Local Notation tensor := (tensor C).
Implicit Types (t u v A : tensor).
Local Notation Z1 := (Zpos xH).
(* t[..., i, j] *)
Definition entry (i j : Z) t : result tensor := let* c := select 0 j t in select 0 i c.
(* t[..., i, j] = v *)
Definition assign_entry (i j : Z) t v : result tensor :=
  let* c := TorchShape.select 0 j (sh t) in let* s := TorchShape.select 0 i c in
  let* v := broadcast_to s v in
  Ok (mkT (sh t) (fun k => if (nth 0%N k 0 == zidx (nth 0%N (sh t) 0) j) && (nth 0%N k 1 == zidx (nth 0%N (sh t) 1) i)
                           then at_ v (drop 2 k) else at_ t k)).
(* torch.stack((t, u), dim=-1) *)
Definition stack2 t u : result tensor :=
  let* s := TorchShape.stack2 (sh t) (sh u) in
  Ok (mkT s (fun i => if i is x :: r then (if x == 0%N then at_ t r else at_ u r) else 0)).
(* torch.flip(t, dims=(-1,)) *)
Definition flip_last t : result tensor :=
  let* n := TorchShape.size 0 (sh t) in
  Ok (mkT (sh t) (fun i => if i is x :: r then at_ t ((n - x.+1)%N :: r) else 0)).
Definition re t : tensor := tmap (fun x => 'Re x) t.
Definition im t : tensor := tmap (fun x => 'Im x) t.

(* linalg.py:119-140 *)
Definition t_inv_2x2 (W : tensor) (eps : C) : result tensor :=
  if sh W is a :: b :: _ then
    if (a != b) || (a != 2%N) then raise ValueError
    else
      let* W11 := entry Z0 Z0 W in let* W21 := entry Z1 Z0 W in
      let* W12 := entry Z0 Z1 W in let* W22 := entry Z1 Z1 W in
      let* p := tmul W11 W22 in let* q := tmul W12 W21 in let* det := tsub p q in
      let det := tmap (fun d => if `|d| < eps then eps else d) det in
      let* c0 := stack2 W22 (tmap -%R W21) in
      let* c1 := stack2 (tmap -%R W12) W11 in
      let* adjoint := stack2 c0 c1 in
      let* d := unsq 0 det in let* d := unsq 0 d in
      tdiv adjoint d
  else raise IndexError.

(* linalg.py:183-190 *)
Definition t_secular (a11 a12 a22 b11 b12 b22 : tensor) : result tensor :=
  let* a11b22 := tmul (re a11) (re b22) in
  let* a22b11 := tmul (re a22) (re b11) in
  let* p := tmul (re a12) (re b12) in let* q := tmul (im a12) (im b12) in
  let* re_a12b12c := tadd p q in
  let* b := tadd a11b22 a22b11 in tsub b (tscale 2%:R re_a12b12c).
(* linalg.py:192, 193 and 225 *)
Definition t_det (a11 a12 a22 : tensor) : result tensor :=
  let* p := tmul (re a11) (re a22) in tsub p (tmap (@mag_sq C) a12).
(* linalg.py:210-218 *)
Definition t_gev_vectors (s : seq nat) (ev1 ev2 a11 a12 b11 b12 : tensor) : result tensor :=
  let V := tzeros C s in
  let* x := tmul ev1 b12 in let* x := tsub x a12 in let* V := assign_entry Z0 Z0 V x in
  let* x := tmul ev1 b11 in let* x := tsub a11 x in let* V := assign_entry Z1 Z0 V x in
  let* x := tmul ev2 b12 in let* x := tsub x a12 in let* V := assign_entry Z0 Z1 V x in
  let* x := tmul ev2 b11 in let* x := tsub a11 x in assign_entry Z1 Z1 V x.
(* linalg.py:170-218 *)
Definition t_gev (A B : tensor) (eps : C) : result (tensor * tensor) :=
  let* a11 := entry Z0 Z0 A in let* a12 := entry Z0 Z1 A in let* a22 := entry Z1 Z1 A in
  let* b11 := entry Z0 Z0 B in let* b12 := entry Z0 Z1 B in let* b22 := entry Z1 Z1 B in
  let* b := t_secular a11 a12 a22 b11 b12 b22 in
  let* det_A := t_det a11 a12 a22 in
  let* det_B := t_det b11 b12 b22 in
  let* c := tmul det_A det_B in
  let* delta := tsub (tmap (fun x => x ^+ 2) b) (tscale 4%:R c) in
  let delta := tmap (fun x => clamp x eps) delta in
  let ev := tzeros C (behead (sh A)) in
  let* x := tsub b (tmap sqrtC delta) in let* ev := assign_select 0 Z0 ev (tscale (1 / 2%:R) x) in
  let* x := tadd b (tmap sqrtC delta) in let* ev := assign_select 0 Z1 ev (tscale (1 / 2%:R) x) in
  let* d := unsq 0 det_B in let* ev := tdiv ev (tmap (fun x => clamp x eps) d) in
  let* ev1 := select 0 Z0 ev in let* ev2 := select 0 Z1 ev in
  let* V := t_gev_vectors (sh A) ev1 ev2 a11 a12 b11 b12 in
  Ok (ev, V).
(* linalg.py:166-167 *)
Definition t_geigh_2x2_raw (A B : tensor) (eps : C) : result (tensor * tensor) :=
  let* s := TorchShape.bcast (sh A) (sh B) in
  let* A := broadcast_to s A in let* B := broadcast_to s B in t_gev A B eps.
(* linalg.py:220-248 *)
Definition t_eigh_2x2_raw (A : tensor) (eps : C) : result (tensor * tensor) :=
  let* a00 := entry Z0 Z0 A in let* a11 := entry Z1 Z1 A in let* a01 := entry Z0 Z1 A in let* a10 := entry Z1 Z0 A in
  let* trace := tadd (re a00) (re a11) in
  let* det := t_det a00 a01 a11 in
  let* delta := tsub (tmap (fun x => x ^+ 2) trace) (tscale 4%:R det) in
  let delta := tmap (fun x => clamp x eps) delta in
  let ev := tzeros C (behead (sh A)) in
  let* x := tsub trace (tmap sqrtC delta) in let* ev := assign_select 0 Z0 ev (tscale (1 / 2%:R) x) in
  let* x := tadd trace (tmap sqrtC delta) in let* ev := assign_select 0 Z1 ev (tscale (1 / 2%:R) x) in
  let V := tzeros C (sh A) in
  let* V := assign_entry Z1 Z0 V a01 in
  let* e := select 0 Z0 ev in let* x := tsub e a11 in let* V := assign_entry Z0 Z0 V x in
  let* e := select 0 Z1 ev in let* x := tsub e a00 in let* V := assign_entry Z1 Z1 V x in
  let* V := assign_entry Z0 Z1 V a10 in
  Ok (ev, V).
(* linalg.py:158-159 and 162-163 *)
Definition is22 t : bool := if sh t is a :: b :: _ then (a == 2%N) && (b == a) else false.
(* linalg.py:152-253 *)
Definition t_eigh_2x2 (A : tensor) (B : option tensor) (eps : C) : result (tensor * tensor) :=
  if ~~ is22 A then raise AssertionError
  else if ~~ (if B is Some B then is22 B else true) then raise AssertionError
  else
    let* (ev, V) := (if B is Some B then t_geigh_2x2_raw A B eps else t_eigh_2x2_raw A eps) in
    let* sq := tsum_keep 1 (tmap (@mag_sq C) V) in
    let* V := tdivide V (tmap sqrtC sq) eps in
    Ok (ev, V).

Variable eighO : forall n, eigh_oracle C n.     (* torch.linalg.eigh *)
(* linalg.py:256-269; RuntimeError of torch.linalg.eigh for matrices that are not square *)
Definition t_eigh_wrapper (V : tensor) : result (tensor * tensor) :=
  if sh V is n :: m :: _ then
    if n == m then
      Ok (mkT (behead (sh V)) (fun j => if j is x :: i then (if insub x is Some k then (@eighO n (mat n n V i)).1 k else 0) else 0),
          mkT (sh V) (fun j => if j is y :: x :: i then get (@eighO n (mat n n V i)).2 x y else 0))
    else raise RuntimeError
  else raise RuntimeError.
(* linalg.py:272-312 *)
Definition t_eigh (A : tensor) (B : option tensor) : result (tensor * tensor) :=
  let* n := TorchShape.size 0 (sh A) in
  if n == 2%N then t_eigh_2x2 A B (eigh_eps C)
  else if B is Some B then
    if ~~ TorchShape.seqb (sh A) (sh B) then raise AssertionError
    else
      let* (Bval, Bvec) := t_eigh_wrapper B in
      let Bval_sqrt := tmap (fun x => sqrtC (clamp x (10%:R ^- 5))) Bval in
      let* s := unsq 0 Bval_sqrt in let* h := hermite Bvec in
      let* m := tmul (tmap (fun x => x^-1) s) h in
      let* B_sqrt_inv := matmul Bvec m in
      let* Bh := hermite B_sqrt_inv in
      let* L := matmul B_sqrt_inv A in let* L := matmul L Bh in
      let* (ev, U) := t_eigh_wrapper L in
      let* Bh := hermite B_sqrt_inv in let* V := matmul Bh U in
      let* norm := tnorm_keep 1 V in
      let* V := tdiv V (tmap (fun x => clamp x (10%:R ^- 5)) norm) in
      Ok (ev, V)
  else t_eigh_wrapper A.
End TEigh.
