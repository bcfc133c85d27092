(* Model of torchiva/linalg.py (numeric content, one matrix at a time).
   Complex tensors are exact: entries in an abstract numClosedFieldType C.
   Batch dimensions are handled in the shape tier; every function here acts on
   one matrix, torch applies it to all leading indices independently. *)
From mathcomp Require Import all_ssreflect all_algebra.
From Verif Require Import CAlg Py.
Set Implicit Arguments. Unset Strict Implicit. Unset Printing Implicit Defensive.
Import GRing.Theory Num.Theory Order.TTheory.
Local Open Scope ring_scope.
Local Open Scope py_scope.

Section Linalg.
Variable C : numClosedFieldType.

(* torch.linalg.solve(A, B): LinAlgError on an exactly singular A. *)
Definition torch_solve n k (A : 'M[C]_n) (B : 'M[C]_(n,k)) : result 'M[C]_(n,k) :=
  if A \in unitmx then Ok (invmx A *m B) else raise LinAlgError.
(* torch.linalg.inv(A) *)
Definition torch_inv n (A : 'M[C]_n) : result 'M[C]_n :=
  if A \in unitmx then Ok (invmx A) else raise LinAlgError.

(* torchiva/linalg.py:31-32  divide(num, denom, eps) *)
Definition divide (num denom eps : C) : C := num / clamp denom eps.

(* A tensor element with its dtype flag (pt.is_complex). *)
Inductive scalar := Real_ of C | Cplx_ of C.
(* value of a tensor element; a real element is used through its real part *)
Definition sval (s : scalar) : C := match s with Real_ x => 'Re x | Cplx_ z => z end.
(* torchiva/linalg.py:35-51  multiply(tensor1, tensor2); view_as_complex(view_as_real(z) * x) *)
Definition multiply (s1 s2 : scalar) : scalar :=
  match s1, s2 with
  | Cplx_ z1, Cplx_ z2 => Cplx_ (z1 * z2)
  | Real_ x1, Real_ x2 => Real_ ('Re x1 * 'Re x2)
  | Real_ x, Cplx_ z | Cplx_ z, Real_ x => Cplx_ ('Re z * 'Re x + 'i * ('Im z * 'Re x))
  end.

(* torchiva/linalg.py:54-58  mag_sq, complex branch (the real branch is the case 'Im x = 0) *)
Definition mag_sq (x : C) : C := ('Re x) ^+ 2 + ('Im x) ^+ 2.
(* torchiva/linalg.py:61-62  mag *)
Definition mag (x : C) : C := sqrtC (mag_sq x).

(* torchiva/linalg.py:65-72  bmm: complex matrix product through real and imaginary parts *)
Definition reM m n (A : 'M[C]_(m,n)) : 'M[C]_(m,n) := map_mx (fun z => 'Re z) A.
Definition imM m n (A : 'M[C]_(m,n)) : 'M[C]_(m,n) := map_mx (fun z => 'Im z) A.
Definition bmm m n p (A : 'M[C]_(m,n)) (B : 'M[C]_(n,p)) : 'M[C]_(m,p) :=
  let re := reM A *m reM B - imM A *m imM B in
  let im := reM A *m imM B + imM A *m reM B in
  \matrix_(i, j) (re i j + 'i * im i j).

(* torchiva/linalg.py:75-79  hermite (complex branch, default dims) *)
Definition hermite m n (A : 'M[C]_(m,n)) : 'M[C]_(n,m) := map_mx conjC A^T.

(* A.abs().max(dim=-2).values.max(dim=-1).values, torchiva/linalg.py:84-86; entries are >= 0 *)
Definition max_abs n (A : 'M[C]_n) : C :=
  \big[Num.max/0]_(j < n) \big[Num.max/0]_(i < n) `|A i j|.
(* load_factor, torchiva/linalg.py:84-87 and 112-115 *)
Definition load_factor n (A : 'M[C]_n) (load : C) : C := clamp (load * max_abs A) load.

(* torchiva/linalg.py:82-88  solve_loaded; max over an empty dimension raises IndexError *)
Definition solve_loaded n k (A : 'M[C]_n) (b : 'M[C]_(n,k)) (load : C) : result 'M[C]_(n,k) :=
  if n == 0%N then raise IndexError
  else torch_solve (A + load_factor A load *: 1%:M) b.

(* torchiva/linalg.py:110-116  inv_loaded *)
Definition inv_loaded n (A : 'M[C]_n) (load : C) : result 'M[C]_n :=
  if n == 0%N then raise IndexError
  else torch_inv (A + load_factor A load *: 1%:M).

(* torchiva/linalg.py:91-107  solve_loaded_general; A is (rows m) x (columns n).
   weights = 1 / clamp(row norm, min=eps);  A2 = A * weights;
   solve(A2^H A2 + load I, A2^H (b * weights)) *)
Definition row_weight m n (A : 'M[C]_(m,n)) (eps : C) (i : 'I_m) : C :=
  1 / clamp (sqrtC (\sum_j `|A i j| ^+ 2)) eps.
Definition solve_loaded_general m n k (A : 'M[C]_(m,n)) (b : 'M[C]_(m,k)) (load eps : C) :
    result 'M[C]_(n,k) :=
  let A2 : 'M[C]_(m,n) := \matrix_(i, j) (A i j * row_weight A eps i) in
  let b2 : 'M[C]_(m,k) := \matrix_(i, j) (b i j * row_weight A eps i) in
  let AA : 'M[C]_n := \matrix_(i, j) \sum_r (A2 r i)^* * A2 r j in
  let Ab : 'M[C]_(n,k) := \matrix_(i, j) \sum_r (A2 r i)^* * b2 r j in
  torch_solve (AA + load *: 1%:M) Ab.

(* torchiva/linalg.py:119-140  inv_2x2; the shape check (ValueError) is the type 'M_2 *)
Definition i0 : 'I_2 := ord0.
Definition i1 : 'I_2 := lift ord0 ord0.
Definition mx22 (a b c d : C) : 'M[C]_2 :=
  \matrix_(i, j) if i == i0 then (if j == i0 then a else b) else (if j == i0 then c else d).
Definition inv_2x2 (W : 'M[C]_2) (eps : C) : 'M[C]_2 :=
  let det := W i0 i0 * W i1 i1 - W i0 i1 * W i1 i0 in
  let det' := if `|det| < eps then eps else det in
  \matrix_(i, j) ((mx22 (W i1 i1) (- W i0 i1) (- W i1 i0) (W i0 i0)) i j / det').

(* torchiva/linalg.py:143-149  diagonal_loading reads the undefined global name eps *)
Definition diagonal_loading n (A : 'M[C]_n) (d : 'cV[C]_n) : result 'M[C]_n := raise NameError.

(* torchiva/linalg.py:152-253  eigh_2x2.  Column k of the second component is the
   k-th eigenvector.  Division by clamp(norm, min=eps): meaningful for eps > 0 or
   norm > 0 (0/0 is NaN in torch and not modelled). *)
Definition normalize_cols (V : 'M[C]_2) (eps : C) : 'M[C]_2 :=           (* 250-251 *)
  \matrix_(i, k) divide (V i k) (sqrtC (mag_sq (V i0 k) + mag_sq (V i1 k))) eps.

Definition geigh_2x2 (A B : 'M[C]_2) (eps : C) : ('I_2 -> C) * 'M[C]_2 :=   (* 161-218 *)
  let a11 := A i0 i0 in let a12 := A i0 i1 in let a22 := A i1 i1 in
  let b11 := B i0 i0 in let b12 := B i0 i1 in let b22 := B i1 i1 in
  let a11b22 := 'Re a11 * 'Re b22 in
  let a22b11 := 'Re a22 * 'Re b11 in
  let re_a12b12c := 'Re a12 * 'Re b12 + 'Im a12 * 'Im b12 in
  let b := a11b22 + a22b11 - 2%:R * re_a12b12c in
  let det_A := 'Re a11 * 'Re a22 - mag_sq a12 in
  let det_B := 'Re b11 * 'Re b22 - mag_sq b12 in
  let c := det_A * det_B in
  let delta := clamp (b ^+ 2 - 4%:R * c) eps in
  let ev1 := (1 / 2%:R) * (b - sqrtC delta) / clamp det_B eps in
  let ev2 := (1 / 2%:R) * (b + sqrtC delta) / clamp det_B eps in
  let V := mx22 (ev1 * b12 - a12) (ev2 * b12 - a12)
                (a11 - ev1 * b11) (a11 - ev2 * b11) in
  ((fun k => if k == i0 then ev1 else ev2), normalize_cols V eps).

Definition eigh_2x2 (A : 'M[C]_2) (eps : C) : ('I_2 -> C) * 'M[C]_2 :=      (* 220-248 *)
  let trace := 'Re (A i0 i0) + 'Re (A i1 i1) in
  let det := 'Re (A i0 i0) * 'Re (A i1 i1) - mag_sq (A i0 i1) in
  let delta := clamp (trace ^+ 2 - 4%:R * det) eps in
  let ev1 := (1 / 2%:R) * (trace - sqrtC delta) in
  let ev2 := (1 / 2%:R) * (trace + sqrtC delta) in
  let V := mx22 (ev1 - A i1 i1) (A i1 i0)
                (A i0 i1) (ev2 - A i0 i0) in
  ((fun k => if k == i0 then ev1 else ev2), normalize_cols V eps).

(* torchiva/linalg.py:256-269, 304-312: torch.linalg.eigh itself is an oracle. *)
Definition eigh_oracle n := 'M[C]_n -> ('I_n -> C) * 'M[C]_n.

(* torchiva/linalg.py:286-302  generalized branch of eigh (sizes other than 2) *)
Definition geigh_n n (eighO : eigh_oracle n) (A B : 'M[C]_n) : ('I_n -> C) * 'M[C]_n :=
  let: (Bval, Bvec) := eighO B in
  let Bval_sqrt i := sqrtC (clamp (Bval i) (10%:R ^- 5)) in
  let B_sqrt_inv := Bvec *m (\matrix_(i, j) ((Bval_sqrt i)^-1 * hermite Bvec i j)) in
  let L := B_sqrt_inv *m A *m hermite B_sqrt_inv in
  let: (eigenvalues, U) := eighO L in
  let V := hermite B_sqrt_inv *m U in
  let norm k := sqrtC (\sum_i `|V i k| ^+ 2) in
  (eigenvalues, \matrix_(i, k) (V i k / clamp (norm k) (10%:R ^- 5))).

(* torchiva/linalg.py:272-312  eigh: 2x2 inputs go to the specialised routine.
   The default eps is 1e-15. *)
Definition eigh_eps : C := 10%:R ^- 15.
Definition eigh (eighO : forall n, eigh_oracle n) n : 'M[C]_n -> ('I_n -> C) * 'M[C]_n :=
  match n return 'M[C]_n -> ('I_n -> C) * 'M[C]_n with
  | 2 => fun A => eigh_2x2 A eigh_eps
  | n' => fun A => eighO n' A
  end.
Definition geigh (eighO : forall n, eigh_oracle n) n : 'M[C]_n -> 'M[C]_n -> ('I_n -> C) * 'M[C]_n :=
  match n return 'M[C]_n -> 'M[C]_n -> ('I_n -> C) * 'M[C]_n with
  | 2 => fun A B => geigh_2x2 A B eigh_eps
  | n' => fun A B => geigh_n (eighO n') A B
  end.
End Linalg.
