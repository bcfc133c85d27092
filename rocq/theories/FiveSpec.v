(* Specification vocabulary for FIVE; independent of the model. *)
From mathcomp Require Import all_ssreflect all_algebra.
From Verif Require Import CAlg LinalgSpec.
Set Implicit Arguments. Unset Strict Implicit. Unset Printing Implicit Defensive.
Import GRing.Theory Num.Theory Order.TTheory.
Local Open Scope ring_scope.

Section Spec.
Variable C : numClosedFieldType.
Variables (m nN : nat).
(* sample covariance of m channels *)
Definition sample_cov (X : 'M[C]_(m, nN)) : 'M[C]_m := \matrix_(c, d) ((\sum_n X c n * (X d n)^*) / nN%:R).
(* all eigenvalues of the covariance are at least 1e-5 *)
Definition full_power (X : 'M[C]_(m, nN)) : Prop :=
  forall v : 'cV[C]_m, 10%:R ^- 5 * (\sum_i `|v i 0| ^+ 2) <= \sum_n `|\sum_c (v c 0)^* * X c n| ^+ 2 / nN%:R.
(* output of the linear filter g *)
Definition filtered (g : 'cV[C]_m) (X : 'M[C]_(m, nN)) : 'rV[C]_nN := \row_n \sum_c (g c 0)^* * X c n.
(* inner product of two signals over time *)
Definition corr (a b : 'rV[C]_nN) : C := \sum_n a 0 n * (b 0 n)^*.
Definition energy (a : 'rV[C]_nN) : C := \sum_n `|a 0 n| ^+ 2.
Definition wenergy (w a : 'rV[C]_nN) : C := \sum_n w 0 n * `|a 0 n| ^+ 2.
(* y is a filtered version of X that, among all filters, has the smallest weighted
   energy relative to its energy *)
Definition extracts (w : 'rV[C]_nN) (X : 'M[C]_(m, nN)) (y : 'rV[C]_nN) : Prop :=
  (exists g, y = filtered g X) /\
  forall g, wenergy w y * energy (filtered g X) <= wenergy w (filtered g X) * energy y.
End Spec.

(* extra conditions for exactly two channels, where FIVE uses a closed-form solver:
   the cross covariance is real and not too small, and the eigenvalues differ *)
Definition real_if_two (C : numClosedFieldType) k : 'M[C]_k.+1 -> Prop :=
  match k with
  | 1 => fun R => [/\ R 0 1 \is Num.real, 10%:R ^- 15 <= `|R 0 1| & 10%:R ^- 15 <= pencil_disc R 1%:M]
  | _ => fun _ => True
  end.

