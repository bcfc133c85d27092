(* Specification vocabulary for AuxIVA_IP and AuxIVA_IP2; independent of the model. *)
From mathcomp Require Import all_ssreflect all_algebra.
From Verif Require Import CAlg LinalgSpec TissSpec.
Set Implicit Arguments. Unset Strict Implicit. Unset Printing Implicit Defensive.
Import GRing.Theory Num.Theory Order.TTheory.
Local Open Scope ring_scope.

Section Spec.
Variable C : numClosedFieldType.

(* unnormalised weighted covariance of a signal *)
Definition wcov n nN (w : 'I_nN -> C) (X : 'M[C]_(n, nN)) : 'M[C]_n :=
  \matrix_(c, d) \sum_k w k * (X c k * (X d k)^*).
(* w^H V w *)
Definition form n (V : 'M[C]_n) (u v : 'cV[C]_n) : C := (ctr u *m V *m v) 0 0.
(* x is the unique minimiser of the regularised least squares objective *)
Definition rls_argmin m n (A : 'M[C]_(m, n)) (b : 'cV[C]_m) (load eps : C) (x : 'cV[C]_n) : Prop :=
  forall y, y != x -> rls_objective A b load eps x < rls_objective A b load eps y.
(* J decorrelates the background signals from the sources Y as well as possible
   (nothing is required of J without background channels) *)
Definition bg_argmin nS nB nN (Y : 'M[C]_(nS, nN)) (X : 'M[C]_(nS + nB, nN)) (eps : C)
    (J : 'M[C]_(nB, nS)) : Prop :=
  forall b (J' : 'M[C]_(nB, nS)), row b J' != row b J ->
    bg_objective Y X eps J b < bg_objective Y X eps J' b.

(* one iterative projection update of source k: row k of W becomes x^H divided by
   sqrt (max (x^H V x, eps)), where x is the regularised solution of
   [W; J, -I] V x = e_k; the other rows stay *)
Definition ip_row nS nB (V : 'M[C]_(nS + nB)) (W : 'M[C]_(nS, nS + nB)) (J : 'M[C]_(nB, nS)) (eps : C)
    (k : 'I_nS) (W' : 'M[C]_(nS, nS + nB)) : Prop :=
  (forall i, i != k -> row i W' = row i W) /\
  exists x, rls_argmin (full_demix W J *m V) (delta_mx (lshift nB k) 0) eps eps x /\
    row k W' = (sqrtC (Num.max ('Re (form V x x)) eps))^-1 *: ctr x.

(* one sweep over the sources at one frequency, from W0 (after normalisation) to W';
   J' is the background filter used for the last source *)
Definition ip_sweep nS nB nN (X : 'M[C]_(nS + nB, nN)) (w : 'M[C]_(nS, nN)) (eps : C)
    (W0 : 'M[C]_(nS, nS + nB)) (W' : 'M[C]_(nS, nS + nB)) (J' : 'M[C]_(nB, nS)) : Prop :=
  exists (Ws : nat -> 'M[C]_(nS, nS + nB)) (Js : nat -> 'M[C]_(nB, nS)),
  [/\ Ws 0%N = W0, Ws nS = W', ((0 < nS)%N -> Js nS.-1 = J') &
   forall k : 'I_nS, bg_argmin (Ws k *m X) X eps (Js k) /\
     ip_row (wcov (w k) X) (Ws k) (Js k) eps k (Ws k.+1)].

(* mean power of source s over all frequencies and frames *)
Definition mean_pow nS nF nN (Y : 'I_nF -> 'M[C]_(nS, nN)) (s : 'I_nS) : C :=
  (\sum_f \sum_n `|Y f s n| ^+ 2) / (nF * nN)%:R.

(* one epoch of AuxIVA-IP: weights from the source model, scaled by the clamped mean
   power g of the source, rows of W divided by max (sqrt g, eps), one sweep *)
Definition ip_epoch nS nB nF nN (X : 'I_nF -> 'M[C]_(nS + nB, nN)) (eps : C)
    (weights Y : 'I_nF -> 'M[C]_(nS, nN)) (W W' : 'I_nF -> 'M[C]_(nS, nS + nB))
    (J' : 'I_nF -> 'M[C]_(nB, nS)) (Y' : 'I_nF -> 'M[C]_(nS, nN)) : Prop :=
  let g s := Num.max (mean_pow Y s) eps in
  forall f, ip_sweep (X f) (\matrix_(s, n) (weights f s n * g s)) eps
      (\matrix_(s, c) (W f s c / Num.max (sqrtC (g s)) eps)) (W' f) (J' f)
    /\ Y' f = W' f *m X f.

(* AuxIVA-IP for n epochs with source model `model' started in state m0 *)
Inductive ip_run nS nB nF nN (St : Type)
    (model : St -> {ffun 'I_nF -> 'M[C]_(nS, nN)} -> {ffun 'I_nF -> 'M[C]_(nS, nN)} * St)
    (X : 'I_nF -> 'M[C]_(nS + nB, nN)) (eps : C) (m0 : St) :
    nat -> {ffun 'I_nF -> 'M[C]_(nS, nN)} -> ('I_nF -> 'M[C]_(nS, nS + nB)) ->
    ('I_nF -> 'M[C]_(nB, nS)) -> St -> Prop :=
  | ip_start (Y : {ffun 'I_nF -> 'M[C]_(nS, nN)}) W J : (forall f, Y f = usubmx (X f)) -> (forall f, W f = row_mx 1%:M 0) ->
      (forall f, bg_argmin (W f *m X f) (X f) eps (J f)) -> ip_run model X eps m0 0 Y W J m0
  | ip_next n Y W J m (Y' : {ffun 'I_nF -> 'M[C]_(nS, nN)}) W' J' m' : ip_run model X eps m0 n Y W J m -> (model m Y).2 = m' ->
      ip_epoch X eps (model m Y).1 Y W W' J' Y' -> ip_run model X eps m0 n.+1 Y' W' J' m'.
End Spec.

Section Spec2.
Variable C : numClosedFieldType.
(* the vector orthogonal to the first row of A - l B, scaled to unit norm unless its
   norm is below eps *)
Definition pencil_vec (A B : 'M[C]_2) (l eps : C) : 'cV[C]_2 :=
  let g : 'cV[C]_2 := \col_i if i == 0 then l * B 0 1 - A 0 1 else A 0 0 - l * B 0 0 in
  (Num.max (sqrtC (\sum_i `|g i 0| ^+ 2)) eps)^-1 *: g.
(* W solves the two-channel problem for the covariances V0, V1: f k are the (unscaled)
   generalised eigenvectors with eigenvalues l 1 < l 0; one of them vanishes exactly
   when (1, 0) is an eigenvector for its eigenvalue.  If neither scale is clamped, both
   filters are normalised and decorrelated with respect to both covariances, and
   |det W|^2 is the largest possible for the given output powers. *)
Definition ip2_solution (V : 'I_2 -> 'M[C]_2) (eps : C) (W : 'M[C]_2) : Prop :=
  exists l : 'I_2 -> C, let f k := pencil_vec (V 1) (V 0) (l k) eps in
  [/\ (forall k, l k \is Num.real) /\ l 1 < l 0, (forall k, eigenpair (V 1) (V 0) (l k) (f k)),
      (forall k, f k = 0 <-> eigenpair (V 1) (V 0) (l k) (e1 C)) &
   ((forall k, 10%:R ^- 7 <= form (V k) (f k) (f k) /\ eps ^+ 2 <= form (V k) (f k) (f k)) ->
   let w k := ctr (row k W) in
   [/\ forall k, form (V k) (w k) (w k) = 1, forall k, form (V k) (w 0) (w 1) = 0 &
   forall U : 'M[C]_2, let u k := ctr (row k U) in
     `|\det U| ^+ 2 <= `|\det W| ^+ 2 * (form (V 0) (u 0) (u 0) * form (V 1) (u 1) (u 1))])].
End Spec2.
