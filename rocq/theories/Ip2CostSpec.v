(* When no floor is active in an iteration of AuxIVA_IP2 with the Laplace model (C77). *)
From mathcomp Require Import all_ssreflect all_algebra.
From Verif Require Import CAlg LinalgSpec TissSpec SrcSpec CostSpec IvaSpec.
Set Implicit Arguments. Unset Strict Implicit. Unset Printing Implicit Defensive.
Import GRing.Theory Num.Theory Order.TTheory.
Local Open Scope ring_scope.

Section Spec.
Variable C : numClosedFieldType.
Variables (nF nN : nat).
Variables (eps em : C) (X : 'I_nF -> 'M[C]_(2, nN)) (Y : 'I_nF -> 'M[C]_(2, nN)).
(* covariance of the microphones at one frequency, weighted by the inverse norms of the
   frames of source s, times the mean power of the source *)
Definition ip2_cov f (s : 'I_2) : 'M[C]_2 :=
  nN%:R^-1 *: wcov (fun n => (2%:R * frame_norm Y s n)^-1 * Num.max (mean_pow Y s) (10%:R ^- 5)) (X f).
(* no frame is below the floor of the Laplace model; determinant and discriminant are above
   eps; the scales of the eigenvectors (for the larger eigenvalue l 0 and the smaller one l 1)
   are above their floors *)
Definition ip2_unclamped : Prop :=
  (forall s n, em <= 2%:R * frame_norm Y s n) /\
  forall f, let V := ip2_cov f in
  [/\ eps <= \det (V 0), eps <= pencil_disc (V 1) (V 0) &
   forall l : 'I_2 -> C, l 1 < l 0 -> (forall k, \det (V 1 - l k *: V 0) = 0) ->
   forall k, let v := pencil_vec (V 1) (V 0) (l k) eps in
     10%:R ^- 7 <= form (V k) v v /\ eps ^+ 2 <= form (V k) v v].
End Spec.
