(* Properties C44 and C47: channel selection and dtype conversion. *)
From mathcomp Require Import all_ssreflect all_fingroup all_algebra.
From Verif Require Import Py UtilModel UtilSpec UtilProofs.
Set Implicit Arguments. Unset Strict Implicit. Unset Printing Implicit Defensive.
Import GRing.Theory Num.Theory Order.TTheory.
Local Open Scope ring_scope.

(* ------------------------------------------------------------------- C44 *)
(* the rows of the result are distinct channels of the input, in order of non-increasing
   energy, and no other channel has more energy than any of them; every argsort allowed *)
Theorem c44_select (C : numClosedFieldType) (B : Type) nC nN (argsort : B -> ('I_nC -> C) -> {perm 'I_nC})
    (x : B -> 'M[C]_(nC, nN)) (num : int) b :
  (0 < nN)%N -> sorts_descending (argsort b) ->
  exists sel : 'I_(prefix_len nC num) -> 'I_nC,
   [/\ injective sel,
       forall j, row j (select_most_energetic argsort x num b) = row (sel j) (x b),
       forall i j : 'I_(prefix_len nC num), (i <= j)%N -> energy (row (sel j) (x b)) <= energy (row (sel i) (x b)) &
       forall c j, (forall i, sel i != c) -> energy (row c (x b)) <= energy (row (sel j) (x b))].
Proof. exact: select_lemma. Qed.
Print Assumptions c44_select.
(* the number of channels returned; a negative num drops |num| channels instead *)
Theorem c44_count nC (num : int) :
  (0 <= num -> prefix_len nC num = minn `|num|%N nC) /\ (num < 0 -> prefix_len nC num = (nC - `|num|%N)%N).
Proof. exact: count_lemma. Qed.
Print Assumptions c44_count.
(* hypotheses of c44_select: an argsort with the required property exists for two channels *)
Example c44_example (C : numClosedFieldType) :
  sorts_descending (fun p : 'I_2 -> C => if p ord_max <= p ord0 then 1%g else tperm ord0 ord_max).
Proof. exact: two_sort. Qed.

(* ------------------------------------------------------------------- C47 *)
(* both conversions are idempotent, land in the complex (real) types, and undo each other *)
Theorem c47_inverse :
  [/\ forall d c, dtype_f2cpx (DType d) = Ok c -> dtype_f2cpx (DType c) = Ok c /\ is_complex_type (DType c),
  forall d r, dtype_cpx2f (DType d) = Ok r -> dtype_cpx2f (DType r) = Ok r /\ ~~ is_complex_type (DType r),
  forall d c, dtype_f2cpx (DType d) = Ok c -> dtype_cpx2f (DType c) = dtype_cpx2f (DType d) &
  forall d r, dtype_cpx2f (DType d) = Ok r -> dtype_f2cpx (DType r) = dtype_f2cpx (DType d)].
Proof. exact: dt_lemma. Qed.
Print Assumptions c47_inverse.
(* they fail on exactly the other types, by AssertionError *)
Theorem c47_domain d :
  dtype_f2cpx (DType d) = Err AssertionError /\ dtype_cpx2f (DType d) = Err AssertionError
  <-> ~ (d = float32 \/ d = float64 \/ d = complex64 \/ d = complex128).
Proof. exact: dt_bad2. Qed.
Print Assumptions c47_domain.
(* a tensor is converted by its type *)
Theorem c47_tensor d : [/\ is_complex_type (DTensor d) = is_complex_type (DType d),
  dtype_f2cpx (DTensor d) = dtype_f2cpx (DType d) & dtype_cpx2f (DTensor d) = dtype_cpx2f (DType d)].
Proof. exact: dt_tensor. Qed.
Print Assumptions c47_tensor.
(* the precision is kept *)
Theorem c47_precision d : (forall c, dtype_f2cpx (DType d) = Ok c -> bits c = bits d) /\
  (forall r, dtype_cpx2f (DType d) = Ok r -> bits r = bits d).
Proof. exact: dt_bits. Qed.
Print Assumptions c47_precision.
Example c47_example : [/\ dtype_f2cpx (DType float32) = Ok complex64, dtype_cpx2f (DTensor complex128) = Ok float64,
  dtype_f2cpx (DType float16) = Err AssertionError & dtype_cpx2f (DType complex32) = Err AssertionError].
Proof. by []. Qed.
