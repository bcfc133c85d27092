(* Specification vocabulary for WPE. *)
From mathcomp Require Import all_ssreflect all_algebra.
From Verif Require Import CAlg TissSpec.
Set Implicit Arguments. Unset Strict Implicit. Unset Printing Implicit Defensive.
Import GRing.Theory Num.Theory Order.TTheory.
Local Open Scope ring_scope.

Section Spec.
Variable C : numClosedFieldType.
Variables (nC nT dl nN : nat).
(* prediction of one channel from past frames with coefficients h (channel, tap) *)
Definition predict (X : 'M[C]_(nC, nN)) (h : 'I_nC -> 'I_nT -> C) (n : 'I_nN) : C :=
  \sum_c \sum_t (h c t)^* * ago X c n (nT + dl - t).
(* weighted energy of the prediction error plus load *)
Definition pred_err (w : 'I_nN -> C) (X : 'M[C]_(nC, nN)) (s : 'I_nC) h : C :=
  \sum_n w n * `|X s n - predict X h n| ^+ 2.
Definition wpe_objective (w : 'I_nN -> C) (X : 'M[C]_(nC, nN)) (s : 'I_nC) (load : C) h : C :=
  pred_err w X s h + load * \sum_c \sum_t `|h c t| ^+ 2.
(* weighted correlation between the delayed inputs (c, t) and (d, u) *)
Definition past_corr (w : 'I_nN -> C) (X : 'M[C]_(nC, nN)) c (t : 'I_nT) d (u : 'I_nT) : C :=
  \sum_n w n * ago X c n (nT + dl - t) * (ago X d n (nT + dl - u))^*.
(* the diagonal load: eps times the largest correlation, at least eps *)
Definition is_past_load (w : 'I_nN -> C) (X : 'M[C]_(nC, nN)) (eps load : C) : Prop :=
  [/\ eps <= load, (forall c t d u, eps * `|past_corr w X c t d u| <= load)
    & load = eps \/ exists c t d u, load = eps * `|past_corr w X c t d u|].
End Spec.
