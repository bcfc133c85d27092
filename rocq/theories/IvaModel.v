(* Model of torchiva/auxiva_ip.py and torchiva/auxiva_ip2.py (one batch element).
   Python index order W[f, s, c] becomes W f s c.  nS = n_src, nS + nB = n_chan
   (n_src > n_chan, a ValueError at auxiva_ip.py:43-47, is excluded by types; see
   the shape tier), nF = n_freq, nN = n_frames.  "J is None" is the case nB = 0.
   Not modelled: verbose printing (cost, auxiva_ip.py:108-122). *)
From mathcomp Require Import all_ssreflect all_algebra.
From Verif Require Import CAlg Py Batch LinalgModel TissModel.
Set Implicit Arguments. Unset Strict Implicit. Unset Printing Implicit Defensive.
Import GRing.Theory Num.Theory Order.TTheory.
Local Open Scope ring_scope.
Local Open Scope py_scope.

(* a for loop whose body may raise *)
Section FoldM.
Variables (S T : Type) (body : S -> T -> result S).
Fixpoint foldM (s : S) (l : seq T) : result S :=
  match l with [::] => Ok s | x :: l' => let* s' := body s x in foldM s' l' end.
End FoldM.

Section IP.
Variable C : numClosedFieldType.
Variables (nS nB nF nN : nat).
Local Notation nC := (nS + nB)%N.
Local Notation sig := (sig C nF nN).
Local Notation filt := (filt C nF).

(* auxiva_ip.py:238  covariance of the input *)
Definition ip_Cx (X : sig nC) (f : 'I_nF) : 'M[C]_nC :=
  \matrix_(c, d) ((\sum_n X f c n * (X f d n)^*) / nN%:R).

(* auxiva_ip.py:38-53  orthogonal_constraint; None when n_src = n_chan *)
Definition orthogonal_constraint (W : filt nS nC) (Cx : 'I_nF -> 'M[C]_nC) (load : C) :
    result (filt nB nS) :=
  if (0 < nB)%N then
    let* JH := gather 0 (fun f => let A := W f *m Cx f in
                 solve_loaded_general (lsubmx A) (rsubmx A) load load) in
    Ok [ffun f => ctr (JH f)]
  else Ok [ffun f => 0].

(* auxiva_ip.py:56-105  projection_back_from_demixing_matrix; load is ignored and the
   defaults 1e-5 of solve_loaded_general apply; 0 <= ref_mic < n_chan *)
Definition ip_pb (Y : sig nS) (W : filt nS nC) (J : filt nB nS) (ref : 'I_nC) : result (sig nS) :=
  let* a := gather 0 (fun f =>
    let: (lhs, rhs) :=
      if (0 < nB)%N then
        ((lsubmx (W f) + rsubmx (W f) *m J f)^T,                             (* 98, 100 *)
         match split ref with
         | inl r => delta_mx r 0 : 'cV[C]_nS                                 (* 93-94 *)
         | inr r => (row r (J f))^T                                          (* 96 *)
         end)
      else ((lsubmx (W f))^T,                                                (* 81-84 *)
            match split ref with inl r => delta_mx r 0 | inr _ => 0 end) in
    solve_loaded_general lhs rhs (10%:R ^- 5) (10%:R ^- 5)) in
  Ok [ffun f => \matrix_(s, n) (Y f s n * a f s 0)].                         (* 103 *)

(* auxiva_ip.py:268-270  weighted covariance (not divided by the number of frames) *)
Definition ip_V (X : sig nC) (w : sig nS) (k : 'I_nS) (f : 'I_nF) : 'M[C]_nC :=
  \matrix_(c, d) \sum_n X f c n * w f k n * (X f d n)^*.
(* auxiva_ip.py:273-278  [W V; J V_1 - V_2] *)
Definition ip_WV (W : 'M[C]_(nS, nC)) (J : 'M[C]_(nB, nS)) (V : 'M[C]_nC) : 'M[C]_nC :=
  col_mx (W *m V) (J *m usubmx V - dsubmx V).
(* auxiva_ip.py:262-293  body of the loop over the sources; state (W, J) *)
Definition ip_source (X : sig nC) (w : sig nS) (eps : C) (st : filt nS nC * filt nB nS) (k : 'I_nS) :
    result (filt nS nC * filt nB nS) :=
  let: (W, _) := st in
  let* J := orthogonal_constraint W (ip_Cx X) eps in                         (* 265 *)
  let V := ip_V X w k in
  let* sol := gather (0 : 'cV[C]_nC) (fun f =>
     solve_loaded_general (ip_WV (W f) (J f) (V f)) (delta_mx (lshift nB k) 0 : 'cV[C]_nC) eps eps) in
  let new_w f c := (sol f c 0)^* in                                          (* 281-284 *)
  let scale f := 'Re (\sum_c \sum_d new_w f c * (new_w f d)^* * V f c d) in  (* 287-288 *)
  let W' : filt nS nC := [ffun f => \matrix_(s, c)
      if s == k then new_w f c / sqrtC (clamp (scale f) eps) else W f s c] in (* 289-293 *)
  Ok (W', J).

Section Loop.
Variable St : Type.                                  (* state of the source model *)
Variable model : St -> sig nS -> sig nS * St.        (* weights, new state *)
Variables (X : sig nC) (eps : C).

Definition ipst := (sig nS * filt nS nC * filt nB nS * St)%type.
Definition ip_gain (Y : sig nS) (s : 'I_nS) : C :=                           (* 256 *)
  clamp ((\sum_f \sum_n mag_sq (Y f s n)) / (nF * nN)%:R) eps.
(* auxiva_ip.py:248-296  one epoch *)
Definition ip_iter (x : ipst) : result ipst :=
  let: (Y, W, J, m) := x in
  let: (weights, m') := model m Y in                                         (* 252 *)
  let g := ip_gain Y in
  let W1 : filt nS nC := [ffun f => \matrix_(s, c) (W f s c / clamp (sqrtC (g s)) eps)] in
  let w1 : sig nS := [ffun f => \matrix_(s, n) (weights f s n * g s)] in
  let* r := foldM (ip_source X w1 eps) (W1, J) (enum 'I_nS) in
  let: (W', J') := r in
  Ok ([ffun f => W' f *m X f], W', J', m').                                  (* 296 *)
Fixpoint ip_loop (n : nat) (x : ipst) : result ipst :=
  match n with O => Ok x | S n' => let* y := ip_iter x in ip_loop n' y end.

(* auxiva_ip.py:230-306  forward after the parameters are resolved and the source
   model is reset to m0.  W[:] = eye(n_src, n_chan); Y = X[:n_src] *)
Definition ip_raw (n_iter : nat) (m0 : St) : result ipst :=
  let W : filt nS nC := [ffun f => row_mx 1%:M 0] in
  let* J := orthogonal_constraint W (ip_Cx X) eps in                         (* 240 *)
  ip_loop n_iter ([ffun f => usubmx (X f)], W, J, m0).
Definition ip_forward (n_iter : nat) (proj_back : option 'I_nC) (m0 : St) : result (sig nS * St) :=
  let* x := ip_raw n_iter m0 in
  let: (Y, W, J, m) := x in
  match proj_back with
  | Some ref => let* Y' := ip_pb Y W J ref in Ok (Y', m)                     (* 301-304 *)
  | None => Ok (Y, m)
  end.
End Loop.
End IP.

Section IP2.
Variable C : numClosedFieldType.
Variables (nF nN : nat).
Local Notation sig := (sig C nF nN).
Local Notation filt := (filt C nF).

(* auxiva_ip2.py:55-64  weighted covariance, made Hermitian *)
Definition ip2_V (X w : 'M[C]_(2, nN)) (k : 'I_2) : 'M[C]_2 :=
  let Vloc : 'M[C]_2 := \matrix_(c, d) ((\sum_n w k n * X c n * (X d n)^*) / nN%:R) in
  (1 / 2%:R) *: (Vloc + hermite Vloc).
(* auxiva_ip2.py:69-82  scaled generalised eigenvectors, largest eigenvalue first *)
Definition ip2_eigvec (V0 V1 : 'M[C]_2) (eps : C) : 'M[C]_2 :=
  let E := (geigh_2x2 V1 V0 eps).2 in
  let F : 'M[C]_2 := \matrix_(i, k) E i (rev_ord k) in                       (* flip *)
  let form (V : 'M[C]_2) k := `|\sum_i (F i k)^* * (\sum_j V i j * F j k)| in
  let s k := form (if k == i0 then V0 else V1) k in
  \matrix_(i, k) (F i k / clamp (sqrtC (clamp (s k) (10%:R ^- 7))) eps).
(* auxiva_ip2.py:29-91  spatial_model_update_ip2 at one frequency: X, W, A *)
Definition ip2_update (Xo w : 'M[C]_(2, nN)) (eps : C) : 'M[C]_(2, nN) * 'M[C]_2 * 'M[C]_2 :=
  let E := ip2_eigvec (ip2_V Xo w i0) (ip2_V Xo w i1) eps in
  let W := hermite E in
  (W *m Xo, W, inv_2x2 W (10%:R ^- 6)).

Section Loop2.
Variable St : Type.
Variable model : St -> sig 2 -> sig 2 * St.
Variables (Xo : sig 2) (eps : C).
Definition ip2_gain (Y : sig 2) (s : 'I_2) : C :=                            (* 201 *)
  clamp ((\sum_f \sum_n mag_sq (Y f s n)) / (nF * nN)%:R) (10%:R ^- 5).
(* auxiva_ip2.py:194-207; W and A are only used after the loop *)
Definition ip2_iter (x : sig 2 * filt 2 2 * filt 2 2 * St) : sig 2 * filt 2 2 * filt 2 2 * St :=
  let: (X, W, A, m) := x in
  let: (weights, m') := model m X in
  let w : sig 2 := [ffun f => \matrix_(s, n) (weights f s n * ip2_gain X s)] in
  let r := [ffun f => ip2_update (Xo f) (w f) eps] in
  ([ffun f => (r f).1.1], [ffun f => (r f).1.2], [ffun f => (r f).2], m').
Definition ip2_loop (n : nat) (m0 : St) :=
  iter n ip2_iter (Xo, [ffun f => 1%:M], [ffun f => 1%:M], m0).
(* auxiva_ip2.py:209-213; proj_back_mic in {0, 1} is the type (AssertionError otherwise) *)
Definition ip2_forward (n_iter : nat) (mic : option 'I_2) (m0 : St) : sig 2 * St :=
  let: (X, W, A, m) := ip2_loop n_iter m0 in
  match mic with
  | Some r => if (0 < n_iter)%N then ([ffun f => \matrix_(s, n) (A f r s * X f s n)], m) else (X, m)
  | None => (X, m)
  end.
End Loop2.
End IP2.
