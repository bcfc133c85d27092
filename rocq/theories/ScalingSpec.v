(* Specification vocabulary for the scaling functions. *)
From mathcomp Require Import all_ssreflect all_algebra all_fingroup.
From Verif Require Import CAlg.
Set Implicit Arguments. Unset Strict Implicit. Unset Printing Implicit Defensive.
Import GRing.Theory Num.Theory Order.TTheory.
Local Open Scope ring_scope.

Section Spec.
Variable C : numClosedFieldType.
Variable nN : nat.
Implicit Types (x y w : 'rV[C]_nN).
(* weighted squared error between ref and a multiple z of y *)
Definition werr w (ref y : 'rV[C]_nN) (z : C) : C := \sum_n w 0 n * `|ref 0 n - z * y 0 n| ^+ 2.
Definition sqerr (ref x : 'rV[C]_nN) : C := \sum_n `|ref 0 n - x 0 n| ^+ 2.
Definition mean_power x : C := (\sum_n `|x 0 n| ^+ 2) / nN%:R.
Definition corr x y : C := (\sum_n x 0 n * (y 0 n)^*) / nN%:R.
(* absolute value rounded off near zero: exact from eps/2 on, at most eps/4 too large *)
Definition soft_abs (eps r : C) : C := if 2%:R * r < eps then r ^+ 2 / eps + eps / 4%:R else r.
Definition l1_error (eps : C) (ref y : 'rV[C]_nN) (z : C) : C :=
  \sum_n soft_abs eps `|ref 0 n - z * y 0 n|.
(* weights of iteratively reweighted least squares for the l_p norm at the coefficient z *)
Definition lp_weights (pw : C -> C -> C) (p : C) (ref y : 'rV[C]_nN) (z : C) : 'rV[C]_nN :=
  \row_n (let d := 2%:R * pw `|ref 0 n - z * y 0 n| (2%:R - p) in
          p / (if d < 10%:R ^- 5 then 10%:R ^- 5 else d)).
Definition weighted_power (w y : 'rV[C]_nN) : C := \sum_n `|y 0 n| ^+ 2 * w 0 n.
(* z' is the minimiser of the weighted error (attenuated if the weighted power is tiny) *)
Definition irls_step (w ref y : 'rV[C]_nN) (z' : C) : Prop :=
  (10%:R ^- 5 <= weighted_power w y -> forall z, z != z' -> werr w ref y z' < werr w ref y z) /\
  (weighted_power w y < 10%:R ^- 5 -> z' * 10%:R ^- 5 = \sum_n ref 0 n * (y 0 n)^* * w 0 n).
End Spec.
(* an ascending argsort *)
Definition sorts (C : numClosedFieldType) n (argsort : ('I_n -> C) -> {perm 'I_n}) : Prop :=
  forall (g : 'I_n -> C), (forall i, g i \is Num.real) ->
  forall i j : 'I_n, (i <= j)%N -> g (argsort g i) <= g (argsort g j).
(* relative change of a vector of coefficients below rtol *)
Definition rel_small (C : numClosedFieldType) (I : finType) (x prev : I -> C) (rtol : C) : bool :=
  \sum_i `|x i - prev i| ^+ 2 < rtol ^+ 2 * \sum_i `|prev i| ^+ 2.
