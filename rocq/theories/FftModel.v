(* Model of torch.fft.rfft / irfft and of torchiva/fftconvolve.py, on one pair of real
   signals (leading dimensions are processed independently; complex inputs are rejected by
   torch.fft.rfft and not modelled). *)
From Coq Require Import String.
From mathcomp Require Import all_ssreflect all_algebra.
From Verif Require Import CAlg Py.
Set Implicit Arguments. Unset Strict Implicit. Unset Printing Implicit Defensive.
Import GRing.Theory Num.Theory.
Local Open Scope ring_scope.
Local Open Scope py_scope.

Section Fft.
Variable C : numClosedFieldType.
Variable root : nat -> C.              (* root n = exp(-2 pi i / n) *)
(* torch.fft.rfft(x, n): the bins k = 0, ..., n // 2 *)
Definition rfft (n : nat) (x : nat -> C) (k : nat) : C := \sum_(j < n) x j * root n ^+ (j * k).
(* torch.fft.irfft(X, n): the missing bins are the conjugates of the given ones; imaginary
   parts at 0 and n / 2 are ignored *)
Definition irfft (n : nat) (X : nat -> C) (t : nat) : C :=
  let full k := if (k <= n./2)%N then X k else (X (n - k)%N)^* in
  'Re ((\sum_(k < n) full k * (root n)^-1 ^+ (t * k)) / n%:R).
(* y[..., a:b], 0 <= a *)
Definition slice (y : seq C) (a b : nat) : seq C := take (b - a) (drop a y).

(* fftconvolve.py:24-71; signals of length zero are not modelled *)
Definition fftconvolve (x1 x2 : seq C) (mode : string) : result (seq C) :=
  let n1 := size x1 in let n2 := size x2 in
  let n := (n1 + n2 - 1)%N in                                                (* 43 *)
  let X1 := rfft n (nth 0 x1) in                                             (* 46-47 *)
  let X2 := rfft n (nth 0 x2) in
  let y := mkseq (irfft n (fun k => X1 k * X2 k)) n in                       (* 50 *)
  if String.eqb mode "full" then Ok (slice y 0 n)                            (* 52-54 *)
  else if String.eqb mode "same" then                                        (* 56-59 *)
    let start := ((n - n1) %/ 2)%N in Ok (slice y start (start + n1)%N)
  else if String.eqb mode "valid" then                                       (* 61-64 *)
    let valid_len := (maxn n1 n2 - minn n1 n2 + 1)%N in
    let start := ((n - valid_len) %/ 2)%N in Ok (slice y start (start + valid_len)%N)
  else raise ValueError.                                                     (* 66-67 *)
End Fft.
