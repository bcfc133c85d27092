(* Specification vocabulary for C08-C14; independent of the model. *)
From mathcomp Require Import all_ssreflect all_algebra.
From Verif Require Import CAlg.
Set Implicit Arguments. Unset Strict Implicit. Unset Printing Implicit Defensive.
Import GRing.Theory Num.Theory Order.TTheory.
Local Open Scope ring_scope.

(* ------------------------------------------------------------------ spec *)
Section Spec.
Variable C : numClosedFieldType.
(* Euclidean norm of row i *)
Definition row_norm m n (A : 'M[C]_(m,n)) (i : 'I_m) : C := sqrtC (\sum_j `|A i j| ^+ 2).
(* regularised least squares objective: rows weighted by 1/max(row norm, eps) *)
Definition rls_objective m n (A : 'M[C]_(m,n)) (b : 'cV[C]_m) (load eps : C) (x : 'cV[C]_n) : C :=
  \sum_i `|((A *m x) i 0 - b i 0) / Num.max (row_norm A i) eps| ^+ 2
  + load * \sum_j `|x j 0| ^+ 2.
(* A x = b *)
Definition solves n k (A : 'M[C]_n) (b x : 'M[C]_(n,k)) : Prop := A *m x = b.
(* (lambda, v) is an eigenpair of the pencil (A, B) *)
Definition eigenpair n (A B : 'M[C]_n) (l : C) (v : 'cV[C]_n) : Prop := A *m v = l *: (B *m v).
(* first canonical basis vector of C^2 *)
Definition e1 : 'cV[C]_2 := delta_mx ord0 0.
(* discriminant of det (A - x B) for 2x2 matrices *)
Definition pencil_disc (A B : 'M[C]_2) : C :=
  (A 0 0 * B 1 1 + A 1 1 * B 0 0 - A 0 1 * B 1 0 - A 1 0 * B 0 1) ^+ 2 - 4%:R * (\det A * \det B).
(* a correct Hermitian eigensolver: ascending real eigenvalues, orthonormal eigenvectors *)
Definition eigensolver n (eighO : 'M[C]_n -> ('I_n -> C) * 'M[C]_n) : Prop :=
  forall M : 'M[C]_n, herm M ->
  [/\ forall i, (eighO M).1 i \is Num.real,
      forall i j : 'I_n, (i <= j)%N -> (eighO M).1 i <= (eighO M).1 j,
      ctr (eighO M).2 *m (eighO M).2 = 1%:M
    & forall i, M *m col i (eighO M).2 = (eighO M).1 i *: col i (eighO M).2].
End Spec.

(* the diagonal load added by the "loaded" solvers: load times the largest entry
   modulus, but at least load *)
Definition is_load (C : numClosedFieldType) n (A : 'M[C]_n) (load lf : C) : Prop :=
  [/\ load <= lf, (forall i j, load * `|A i j| <= lf)
    & lf = load \/ exists i j, lf = load * `|A i j|].
