(* Specification vocabulary for the source models; independent of the model. *)
From mathcomp Require Import all_ssreflect all_algebra.
From Verif Require Import CAlg.
Set Implicit Arguments. Unset Strict Implicit. Unset Printing Implicit Defensive.
Import GRing.Theory Num.Theory Order.TTheory.
Local Open Scope ring_scope.

Section Spec.
Variable C : numClosedFieldType.
Variables (nF nN K : nat).
(* energy of frame n over all frequencies *)
Definition frame_energy (X : 'M[C]_(nF, nN)) (n : 'I_nN) : C := \sum_f `|X f n| ^+ 2.
(* every entry of a weight matrix lies in (0, 1/eps] *)
Definition usable (eps : C) m n (w : 'M[C]_(m, n)) : Prop := forall i j, 0 < w i j <= eps^-1.
Definition positive m n (A : 'M[C]_(m, n)) : Prop := forall i j, 0 < A i j.
(* the low-rank spectrogram T V^T, at least eps *)
Definition recon (eps : C) (T : 'M[C]_(nF, K)) (V : 'M[C]_(nN, K)) f n : C :=
  Num.max (\sum_k T f k * V n k) eps.
Definition lowrank (T : 'M[C]_(nF, K)) (V : 'M[C]_(nN, K)) f n : C := \sum_k T f k * V n k.
Definition divergence (lg : C -> C) (P R : 'I_nF -> 'I_nN -> C) : C :=
  \sum_f \sum_n (P f n / R f n + lg (R f n)).
(* multiplicative updates with square root damping, floored at eps *)
Definition mult_T (eps : C) (P : 'M[C]_(nF, nN)) (T : 'M[C]_(nF, K)) (V : 'M[C]_(nN, K)) (T' : 'M[C]_(nF, K)) : Prop :=
  let R := recon eps T V in
  forall f k, let den := \sum_n V n k / R f n in
    0 < den /\ T' f k = Num.max (T f k * sqrtC ((\sum_n P f n * V n k / R f n ^+ 2) / den)) eps.
Definition mult_V (eps : C) (P : 'M[C]_(nF, nN)) (T : 'M[C]_(nF, K)) (V : 'M[C]_(nN, K)) (V' : 'M[C]_(nN, K)) : Prop :=
  let R := recon eps T V in
  forall n k, let den := \sum_f T f k / R f n in
    0 < den /\ V' n k = Num.max (V n k * sqrtC ((\sum_f P f n * T f k / R f n ^+ 2) / den)) eps.
End Spec.
(* the inequality that characterises logarithms up to a constant *)
Definition log_like (C : numClosedFieldType) (lg : C -> C) : Prop :=
  forall x y, 0 < x -> 0 < y -> lg y - lg x <= y / x - 1.
