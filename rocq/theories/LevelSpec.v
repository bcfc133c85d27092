(* Vocabulary of C66: making the input louder or quieter. *)
From mathcomp Require Import all_ssreflect all_algebra.
From Verif Require Import CAlg TissModel BeamModel TissSpec WpeSpec.
Set Implicit Arguments. Unset Strict Implicit. Unset Printing Implicit Defensive.
Import GRing.Theory Num.Theory Order.TTheory.
Local Open Scope ring_scope.

Section Level.
Variable C : numClosedFieldType.
Variables (nF nN : nat).
(* the signals multiplied by a *)
Definition amplify c (a : C) (X : sig C nF nN c) : sig C nF nN c := [ffun f => a *: X f].
(* some entry of R has modulus at least one *)
Definition loud n (R : 'M[C]_n) : Prop := exists i j, 1 <= `|R i j|.
(* ... and still has after the input is multiplied by a *)
Definition loud_both n (a : C) (R : 'M[C]_n) : Prop := loud R /\ loud (`|a| ^+ 2 *: R).
(* mean power of the microphones at one frequency and frame *)
Definition mean_power c (Y : sig C nF nN c) f n : C := (\sum_i `|Y f i n| ^+ 2) / c%:R.
(* frame weights inversely proportional to the power, of sum one *)
Definition inverse_power c (Y : sig C nF nN c) f n : C := (mean_power Y f n)^-1 / \sum_k (mean_power Y f k)^-1.
(* no frame of Y is below the floor eps and the delayed inputs of X, weighted by the
   inverse power of Y, have a correlation of at least one, before and after amplification *)
Definition above_floors c nT dl (a eps : C) (X Y : sig C nF nN c) : Prop := forall f,
  [/\ forall n, eps <= mean_power Y f n, forall n, eps <= `|a| ^+ 2 * mean_power Y f n &
   exists c (t : 'I_nT) d (u : 'I_nT), 1 <= `|past_corr dl (inverse_power Y f) (X f) c t d u| /\
     1 <= `|a| ^+ 2 * `|past_corr dl (inverse_power Y f) (X f) c t d u|].
End Level.
(* one microphone, and a network that calls everything target *)
Definition energy (C : numClosedFieldType) nF nN (X : sig C nF nN 1) f : C := \sum_n `|X f 0 n| ^+ 2.
Definition all_target (C : numClosedFieldType) nF nN : mask_model C 1 nF nN :=
  fun _ => [:: fun _ _ => \row_n 1; fun _ _ => \row_n 0].
Definition all_both (C : numClosedFieldType) nF nN : mask_model C 1 nF nN :=
  fun _ => [:: fun _ _ => \row_n 1; fun _ _ => \row_n 1].
