(* Powers of non-negative numbers, and the error that minimum_distortion minimises (C38). *)
From mathcomp Require Import all_ssreflect all_algebra.
Set Implicit Arguments. Unset Strict Implicit. Unset Printing Implicit Defensive.
Import GRing.Theory Num.Theory.
Local Open Scope ring_scope.

Section Pow.
Variable C : numClosedFieldType.
(* pw x t is x^t for x >= 0 and t > 0 *)
Definition pow_like (pw : C -> C -> C) : Prop :=
  (forall x t, 0 <= x -> 0 < t -> 0 <= pw x t) /\
  (forall x, 0 <= x -> pw x 1 = x) /\
  (forall x s t, 0 <= x -> 0 < s -> 0 < t -> pw x (s + t) = pw x s * pw x t) /\
  (forall x y t, 0 <= x -> 0 <= y -> 0 < t -> pw (x * y) t = pw x t * pw y t) /\
  (forall x t, 0 <= x -> 0 < t -> pw (pw x t) t^-1 = x) /\
  (forall x y t, 0 <= x -> x < y -> 0 < t -> pw x t < pw y t) /\
  (forall x t, 0 <= x -> 0 < t < 1 -> pw x t <= 1 + t * (x - 1)).
(* r^p, rounded off near zero: a parabola as long as 2 r^(2-p) < eps *)
Definition soft_pow (pw : C -> C -> C) (p eps r : C) : C :=
  if 2%:R * pw r (2%:R - p) < eps
  then p * r ^+ 2 / eps + (1 - p / 2%:R) * pw (pw (eps / 2%:R) (2%:R - p)^-1) p
  else pw r p.
Definition lp_error nN (pw : C -> C -> C) (p eps : C) (ref y : 'rV[C]_nN) (z : C) : C :=
  \sum_n soft_pow pw p eps `|ref 0 n - z * y 0 n|.
End Pow.
