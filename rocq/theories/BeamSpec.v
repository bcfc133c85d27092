(* Specification vocabulary for the beamformers. *)
From mathcomp Require Import all_ssreflect all_algebra.
From Verif Require Import CAlg LinalgSpec.
Set Implicit Arguments. Unset Strict Implicit. Unset Printing Implicit Defensive.
Import GRing.Theory Num.Theory Order.TTheory.
Local Open Scope ring_scope.

Section Spec.
Variable C : numClosedFieldType.
Variable n : nat.
(* response w^H d of filter w to a source with steering vector d *)
Definition response (w d : 'cV[C]_n) : C := \sum_c (w c 0)^* * d c 0.
(* power w^H R w at the output of w *)
Definition out_power (R : 'M[C]_n) (w : 'cV[C]_n) : C := \sum_c \sum_d (w c 0)^* * R c d * w d 0.
(* mean square error of w^H x as an estimate of the target at microphone ref
   (target covariance Rt, independent noise covariance Rn), plus load *)
Definition mmse_objective (Rt Rn : 'M[C]_n) (ref : 'I_n) (load : C) (w : 'cV[C]_n) : C :=
  out_power Rt (w - delta_mx ref 0) + out_power Rn w + load * \sum_c `|w c 0| ^+ 2.
(* unnormalised sample covariance of a signal with non-negative frame weights *)
Definition weighted_cov nN (m : 'I_nN -> C) (X : 'M[C]_(n, nN)) : 'M[C]_n :=
  \matrix_(c, d) \sum_k m k * X c k * (X d k)^*.
(* smallest eigenvalue at least 1e-5 (the code loads the noise covariance otherwise) *)
Definition well_conditioned (B : 'M[C]_n) : Prop :=
  forall v : 'cV[C]_n, 10%:R ^- 5 * (\sum_i `|v i 0| ^+ 2) <= (ctr v *m B *m v) 0 0.
(* masks are non-negative *)
Definition nonneg nS nF nN (m : 'I_nS -> 'I_nF -> 'rV[C]_nN) : Prop := forall s f j, 0 <= m s f 0 j.
(* the filter w is the MVDR filter for the steering vector d and the loaded noise covariance;
   when the normalising denominator d^H (R + l)^-1 d is below eps it only attenuates *)
Definition mvdr_of (R : 'M[C]_n) (d : 'cV[C]_n) (eps : C) (w : 'cV[C]_n) : Prop :=
  exists l a, [/\ is_load R eps l, (R + l%:M) *m a = d,
   (eps <= response d a -> response w d = 1 /\
      forall u, response u d = 1 -> u != w -> out_power (R + l%:M) w < out_power (R + l%:M) u) &
   (response d a < eps -> response w d = response d a / eps /\ 0 <= response w d < 1)].
End Spec.
