(* Specification vocabulary for C06, C07, C15-C22; independent of the model. *)
From mathcomp Require Import all_ssreflect all_algebra.
From Verif Require Import CAlg.
Set Implicit Arguments. Unset Strict Implicit. Unset Printing Implicit Defensive.
Import GRing.Theory Num.Theory Order.TTheory.
Local Open Scope ring_scope.

Section Spec.
Variable C : numClosedFieldType.

(* z is the sample k frames before frame n of row c, or zero before the start *)
Definition is_ago m nN (M : 'M[C]_(m, nN)) (c : 'I_m) (n : 'I_nN) (k : nat) (z : C) : Prop :=
  (forall p : 'I_nN, (p + k = n)%N -> z = M c p) /\ ((n < k)%N -> z = 0).
(* the same as a function *)
Definition ago m nN (M : 'M[C]_(m, nN)) (c : 'I_m) (n : 'I_nN) (k : nat) : C :=
  \sum_(p < nN | (p + k == n)%N) M c p.

(* Y is the output of demixing matrices W and dereverberation filters H applied
   to X: tap t of nT reads the input nT + dl - t frames earlier *)
Definition filter_output nS nC nF nT dl nN (X : 'I_nF -> 'M[C]_(nC, nN))
    (W : 'I_nF -> 'M[C]_(nS, nC)) (H : 'I_nF -> 'I_nT -> 'M[C]_(nS, nC))
    (Y : 'I_nF -> 'M[C]_(nS, nN)) : Prop :=
  forall f s n, Y f s n = \sum_c W f s c * X f c n
    - \sum_c \sum_(t < nT) H f t s c * ago (X f) c n (nT + dl - t).

(* weighted energy of y - u z *)
Definition wenergy nN (w y z : 'I_nN -> C) (u : C) : C := \sum_n w n * `|y n - u * z n| ^+ 2.
(* weighted correlation of y and z, and weighted power of z *)
Definition wcorr nN (w y z : 'I_nN -> C) : C := \sum_n w n * y n * (z n)^*.
Definition wpower nN (w z : 'I_nN -> C) : C := \sum_n w n * `|z n| ^+ 2.
(* sample cross-correlation (matrix) of two multichannel signals *)
Definition xcorr m n nN (A : 'M[C]_(m, nN)) (B : 'M[C]_(n, nN)) : 'M[C]_(m, n) :=
  \matrix_(i, j) ((\sum_k A i k * (B j k)^*) / nN%:R).
End Spec.

Section Spec2.
Variable C : numClosedFieldType.
(* the complete demixing matrix: source rows W, background rows [J, -I] *)
Definition full_demix nS nB (W : 'M[C]_(nS, nS + nB)) (J : 'M[C]_(nB, nS)) : 'M[C]_(nS + nB) :=
  col_mx W (row_mx J (- 1%:M)).
(* background signals J X1 - X2 *)
Definition background nS nB nN (X : 'M[C]_(nS + nB, nN)) (J : 'M[C]_(nB, nS)) : 'M[C]_(nB, nN) :=
  J *m usubmx X - dsubmx X.
(* row-normalised squared correlation of background signal b with the sources Y,
   plus regularisation *)
Definition bg_objective nS nB nN (Y : 'M[C]_(nS, nN)) (X : 'M[C]_(nS + nB, nN)) (eps : C)
    (J : 'M[C]_(nB, nS)) (b : 'I_nB) : C :=
  \sum_i `|xcorr Y (background X J) i b
           / Num.max (sqrtC (\sum_j `|xcorr Y (usubmx X) i j| ^+ 2)) eps| ^+ 2
  + eps * \sum_j `|J b j| ^+ 2.
End Spec2.

Section Spec3.
Variable C : numClosedFieldType.
(* matrix and right-hand side of the projection-back system for microphone ref *)
Definition pb_matrix nS nB (W : 'M[C]_(nS, nS + nB)) (J : 'M[C]_(nB, nS)) : 'M[C]_nS :=
  (lsubmx W + rsubmx W *m J)^T.
Definition pb_target nS nB (J : 'M[C]_(nB, nS)) (ref : 'I_(nS + nB)) : 'cV[C]_nS :=
  match split ref with inl r => delta_mx r 0 | inr r => (row r J)^T end.
(* reverberation estimate of source s at frame n *)
Definition reverb nS nC nT dl nN (X : 'M[C]_(nC, nN)) (H : 'I_nT -> 'M[C]_(nS, nC)) s n : C :=
  \sum_c \sum_(t < nT) H t s c * ago X c n (nT + dl - t).
End Spec3.
