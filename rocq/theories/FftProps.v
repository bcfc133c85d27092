(* C43: fftconvolve is linear convolution. *)
From Coq Require Import String.
From mathcomp Require Import all_ssreflect all_algebra.
From Verif Require Import CAlg Py FftModel FftSpec FftProofs.
Set Implicit Arguments. Unset Strict Implicit. Unset Printing Implicit Defensive.
Import GRing.Theory Num.Theory.
Local Open Scope ring_scope.

Theorem c43_full (C : numClosedFieldType) (root : nat -> C) : unit_roots root -> forall x y : seq C,
  (0 < size x)%N -> (0 < size y)%N -> real_signal x -> real_signal y ->
  fftconvolve root x y "full" = Ok (mkseq (conv x y) (size x + size y - 1)).
Proof. exact: fft_full. Qed.
Print Assumptions c43_full.
(* nothing is lost: outside of these samples the convolution is zero *)
Theorem c43_support (C : numClosedFieldType) (x y : seq C) t :
  (0 < size x)%N -> (0 < size y)%N -> (size x + size y - 1 <= t)%N -> conv x y t = 0.
Proof. exact: conv_out. Qed.
Print Assumptions c43_support.
Theorem c43_same (C : numClosedFieldType) (root : nat -> C) : unit_roots root -> forall x y : seq C,
  (0 < size x)%N -> (0 < size y)%N -> real_signal x -> real_signal y ->
  fftconvolve root x y "same" = Ok (mkseq (fun t => conv x y ((size y - 1) %/ 2 + t)) (size x)).
Proof. exact: fft_same. Qed.
Print Assumptions c43_same.
Theorem c43_valid (C : numClosedFieldType) (root : nat -> C) : unit_roots root -> forall x y : seq C,
  (0 < size x)%N -> (0 < size y)%N -> real_signal x -> real_signal y ->
  fftconvolve root x y "valid" = Ok (mkseq (fun t => conv x y (minn (size x) (size y) - 1 + t))
    (maxn (size x) (size y) - minn (size x) (size y) + 1)).
Proof. exact: fft_valid. Qed.
Print Assumptions c43_valid.
(* these are the samples where the shorter signal is covered completely *)
Theorem c43_valid_samples (C : numClosedFieldType) (x y : seq C) t :
  (size y <= size x)%N -> (0 < size y)%N -> (t <= size x - size y)%N ->
  conv x y (size y - 1 + t) = \sum_(j < size y) x`_(size y - 1 + t - j) * y`_j.
Proof. exact: conv_valid. Qed.
Print Assumptions c43_valid_samples.
Theorem c43_other_mode (C : numClosedFieldType) (root : nat -> C) (x y : seq C) m :
  ~ List.In m [:: "full"; "same"; "valid"]%string -> fftconvolve root x y m = Err ValueError.
Proof. exact: fft_bad_mode. Qed.
Print Assumptions c43_other_mode.

(* (1 + 2 z) (3 + 4 z + 5 z^2) *)
Example c43_example (C : numClosedFieldType) : exists root : nat -> C, unit_roots root /\
  fftconvolve root [:: 1; 2%:R] [:: 3%:R; 4%:R; 5%:R] "full" = Ok [:: 3%:R; 10%:R; 13%:R; 10%:R].
Proof.
have [root h] := unit_roots_ex C; exists root; split=> //.
have R (l : seq nat) : real_signal [seq k%:R : C | k <- l].
  move=> t; case: (ltnP t (size l)) => tl; last by rewrite nth_default ?rpred0 ?size_map.
  by rewrite (nth_map 0%N) ?realn.
rewrite fft_full //; [|exact: (R [:: 1; 2]%N)|exact: (R [:: 3; 4; 5]%N)].
congr Ok; rewrite /mkseq /= /conv /=.
have S2 (F : nat -> C) : \sum_(i < 2) F i = F 0%N + F 1%N.
  by rewrite 2!big_ord_recl big_ord0 /= addr0.
have S3 (P : pred nat) (F : nat -> C) : \sum_(i < 3 | P i) F i
  = (if P 0%N then F 0%N else 0) + ((if P 1%N then F 1%N else 0) + (if P 2%N then F 2%N else 0)).
  by rewrite big_mkcond 3!big_ord_recl big_ord0 /= addr0.
set x := [:: 1; 2%:R]; set y := [:: 3%:R; 4%:R; 5%:R].
have E t : \sum_(i < 2) \sum_(j < 3 | (i + j)%N == t) x`_i * y`_j
  = \sum_(j < 3 | (0 + j)%N == t) x`_0 * y`_j + \sum_(j < 3 | (1 + j)%N == t) x`_1 * y`_j.
  exact: (S2 (fun i => \sum_(j < 3 | (i + j)%N == t) x`_i * y`_j)).
have G i t : \sum_(j < 3 | (i + j)%N == t) x`_i * y`_j
  = (if (i + 0)%N == t then x`_i * y`_0 else 0) + ((if (i + 1)%N == t then x`_i * y`_1 else 0)
     + (if (i + 2)%N == t then x`_i * y`_2 else 0)).
  exact: (S3 (fun j => (i + j)%N == t) (fun j => x`_i * y`_j)).
rewrite !E !G /= !(addr0, add0r, mul1r).
by rewrite -!natrM -!natrD.
Qed.
