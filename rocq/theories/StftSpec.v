(* Specification side of C45. *)
From mathcomp Require Import all_ssreflect all_algebra.
From Verif Require Import Py FftSpec.
Set Implicit Arguments. Unset Strict Implicit. Unset Printing Implicit Defensive.
Import GRing.Theory Num.Theory.
Local Open Scope ring_scope.

Section StftSpec.
Variable C : numClosedFieldType.
Variables (n_fft hop : nat) (window : nat -> C).
(* the window is real, and not negligible on hop consecutive samples around its centre *)
Definition good_window : Prop :=
  (forall j, window j \is Num.real) /\
  (0 < hop)%N /\
  exists a, [/\ (a <= n_fft %/ 2)%N, (n_fft - n_fft %/ 2 <= a + hop)%N, (a + hop <= n_fft)%N &
    forall j, (a <= j < a + hop)%N -> 10%:R ^- 11 < window j ^+ 2].
(* number of samples recovered from n *)
Definition recovered (n : nat) : nat :=
  if odd n_fft then (hop * ((n - 1) %/ hop) + 1)%N else (hop * (n %/ hop))%N.
End StftSpec.
