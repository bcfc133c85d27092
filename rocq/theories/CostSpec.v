(* Cost functions of independent vector analysis, for C19; independent of the model. *)
From mathcomp Require Import all_ssreflect all_algebra.
From Verif Require Import CAlg TissModel TissSpec SrcSpec CostModel.
Set Implicit Arguments. Unset Strict Implicit. Unset Printing Implicit Defensive.
Import GRing.Theory Num.Theory Order.TTheory.
Local Open Scope ring_scope.

(* lg turns products of positive numbers into sums *)
Definition log_mul (C : numClosedFieldType) (lg : C -> C) : Prop :=
  forall x y, 0 < x -> 0 < y -> lg (x * y) = lg x + lg y.

Section Spec.
Variable C : numClosedFieldType.
Variable lg : C -> C.
Variables (nS nB nF nN : nat).

(* auxiliary cost at one frequency: weighted powers of the sources minus
   2 log |det D|, D the complete demixing matrix *)
Definition surrogate (w Y : 'M[C]_(nS, nN)) (D : 'M[C]_(nS + nB)) : C :=
  \sum_s wpower (w s) (Y s) / nN%:R - lg (`|\det D| ^+ 2).

(* norm of frame n of source s over all frequencies *)
Definition frame_norm (Y : 'I_nF -> 'M[C]_(nS, nN)) s n : C := sqrtC (\sum_f `|Y f s n| ^+ 2).
(* contrast function: r, made smooth below eps / 2 *)
Definition contrast (em r : C) : C := if em <= 2%:R * r then r else r ^+ 2 / em + em / 4%:R.
(* cost of the spherical Laplace source prior *)
Definition laplace_cost (em : C) (Y : 'I_nF -> 'M[C]_(nS, nN)) (D : 'I_nF -> 'M[C]_(nS + nB)) : C :=
  \sum_s (\sum_n contrast em (frame_norm Y s n)) / nN%:R - \sum_f lg (`|\det (D f)| ^+ 2).
(* the same cost minimised over the scale of each source (up to a constant) *)
Definition laplace_cost_si (Y : 'I_nF -> 'M[C]_(nS, nN)) (D : 'I_nF -> 'M[C]_(nS + nB)) : C :=
  nF%:R * (\sum_s lg ((\sum_n frame_norm Y s n) ^+ 2)) - \sum_f lg (`|\det (D f)| ^+ 2).
(* row s multiplied by a s *)
Definition scale_rows m n (a : 'I_m -> C) (M : 'M[C]_(m, n)) : 'M[C]_(m, n) :=
  \matrix_(i, j) (a i * M i j).
End Spec.

Section Clamps.
Variable C : numClosedFieldType.
Variables (nS nB nF nT nN : nat).
(* no clamp is active in the iteration that starts from x: neither in the Laplace model nor
   in the own update of a source, which comes after those of the sources before it *)
Definition unclamped (em eps : C) (x : @st C nS nB nF nT nN unit) : Prop :=
  (forall s n, em <= 2%:R * frame_norm (stY x) s n) /\
  forall f (s : 'I_nS), let w := iter_weights em eps (stY x) f in
    is_true (eps <= wpower (w s) ((foldl (step1 w eps) (iter_start eps x f) (take s (enum 'I_nS))).1.1 s) / nN%:R).
(* mean power of source s *)
Definition mean_power (Y : 'I_nF -> 'M[C]_(nS, nN)) s : C :=
  (\sum_f \sum_n `|Y f s n| ^+ 2) / (nF * nN)%:R.
End Clamps.
