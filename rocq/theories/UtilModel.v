(* Model of torchiva/utils.py:30-61 and torchiva/dtypes.py:26-65. *)
From mathcomp Require Import all_ssreflect all_fingroup all_algebra.
From Verif Require Import Py.
Set Implicit Arguments. Unset Strict Implicit. Unset Printing Implicit Defensive.
Import GRing.Theory Num.Theory.
Local Open Scope ring_scope.
Local Open Scope py_scope.

Section Select.
Variables (C : numClosedFieldType) (B : Type) (nC nN : nat).
(* torch.argsort(..., descending=True) on one row of n_channels values, by batch element *)
Variable argsort : B -> ('I_nC -> C) -> {perm 'I_nC}.
(* utils.py:48; the mean over zero samples is NaN in torch and not modelled *)
Definition power (x : 'M[C]_(nC, nN)) (c : 'I_nC) : C := (\sum_n `|x c n| ^+ 2) / nN%:R.
(* length of [..., :num] on a dimension of size nC; a negative num counts from the end *)
Definition prefix_len (num : int) : nat :=
  match num with Posz k => minn k nC | Negz k => (nC - k.+1)%N end.
Lemma prefix_le num : (prefix_len num <= nC)%N.
Proof. by case: num => k; rewrite /= ?geq_minr ?leq_subr. Qed.
(* utils.py:30-61  select_most_energetic with the default axes dim=-2, dim_reduc=-1, on
   x of shape (batch, n_channels, n_samples); other axes are not modelled *)
Definition select_most_energetic (x : B -> 'M[C]_(nC, nN)) (num : int) : B -> 'M[C]_(prefix_len num, nN) :=
  fun b => let index := argsort b (power (x b)) in                                  (* 50 *)
  \matrix_(j, n) x b (index (widen_ord (prefix_le num) j)) n.                       (* 51-60 *)
End Select.

(* torch dtypes *)
Inductive dtype : Set :=
  | float16 | bfloat16 | float32 | float64 | complex32 | complex64 | complex128
  | uint8 | int8 | int16 | int32 | int64 | bool_ | quint8 | qint8 | qint32 | quint4x2.
(* an argument of the conversion functions: a dtype, or a tensor of some dtype *)
Inductive dtype_arg := DType (d : dtype) | DTensor (d : dtype).
Definition the_dtype (a : dtype_arg) : dtype := match a with DType d => d | DTensor d => d end.
(* dtypes.py:26-31 *)
Definition is_complex_type (a : dtype_arg) : bool :=
  match the_dtype a with complex64 | complex128 => true | _ => false end.
(* dtypes.py:34-48; dtypes outside the table fail the assertion *)
Definition dtype_f2cpx (a : dtype_arg) : result dtype :=
  match the_dtype a with
  | float32 => Ok complex64 | float64 => Ok complex128
  | complex64 => Ok complex64 | complex128 => Ok complex128
  | _ => raise AssertionError
  end.
(* dtypes.py:51-65 *)
Definition dtype_cpx2f (a : dtype_arg) : result dtype :=
  match the_dtype a with
  | complex64 => Ok float32 | complex128 => Ok float64
  | float32 => Ok float32 | float64 => Ok float64
  | _ => raise AssertionError
  end.
