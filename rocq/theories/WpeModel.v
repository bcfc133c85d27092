(* Model of torchiva/wpe.py (one batch element).  nC = n_chan, nF = n_freq,
   nT = n_taps, dl = n_delay, nN = n_frames. *)
From mathcomp Require Import all_ssreflect all_algebra.
From Verif Require Import CAlg Py Batch LinalgModel TissModel.
Set Implicit Arguments. Unset Strict Implicit. Unset Printing Implicit Defensive.
Import GRing.Theory Num.Theory Order.TTheory.
Local Open Scope ring_scope.
Local Open Scope py_scope.

Section Wpe.
Variable C : numClosedFieldType.
Variables (nC nF nT dl nN : nat).
Local Notation sig := (sig C nF nN nC).
Local Notation taps := (taps C nT nC nN).

(* (c, t) flattened row by row, as reshape does on the trailing dimensions *)
Definition stack (Xb : taps) : 'M[C]_(nC * nT, nN) :=
  \matrix_(k, n) mxvec (\matrix_(c, t) Xb t c n) 0 k.

(* torchiva/wpe.py:28-29 derev; H is (n_chan * n_taps) x n_chan at each frequency *)
Definition derev (H : {ffun 'I_nF -> 'M[C]_(nC * nT, nC)}) (X : sig) (Xb : {ffun 'I_nF -> taps}) : sig :=
  [ffun f => \matrix_(s, n) (X f s n -
     \sum_c \sum_t (H f (mxvec_index c t) s)^* * Xb f t c n)].

(* torchiva/wpe.py:32-35 wpe_default_weights; mean over an empty channel dimension
   and division by an empty sum are NaN in torch and not modelled *)
Definition default_weights (eps : C) (Y : sig) : 'I_nF -> 'rV[C]_nN := fun f =>
  let w n := 1 / clamp ((\sum_c mag_sq (Y f c n)) / nC%:R) eps in
  \row_n (w n / \sum_k w k).

(* torchiva/wpe.py:38-84 wpe_one_iter, after the weights are computed *)
Definition acm (w : 'rV[C]_nN) (Xb : taps) : 'M[C]_(nC * nT) :=              (* 69, 73 *)
  \matrix_(k, l) \sum_n w 0 n * stack Xb k n * (stack Xb l n)^*.
Definition xcv (w : 'rV[C]_nN) (Xb : taps) (X : 'M[C]_(nC, nN)) : 'M[C]_(nC * nT, nC) := (* 70, 74 *)
  \matrix_(k, s) \sum_n w 0 n * stack Xb k n * (X s n)^*.
Definition wpe_one_iter (w : 'I_nF -> 'rV[C]_nN) (X : sig) (Xb : {ffun 'I_nF -> taps}) (eps : C) :
    result {ffun 'I_nF -> 'M[C]_(nC * nT, nC)} :=
  (* solve_loaded: max over an empty dimension, whatever the number of frequencies *)
  if (nC * nT == 0)%N then raise IndexError
  else gather 0 (fun f => solve_loaded (acm (w f) (Xb f)) (xcv (w f) (Xb f) (X f)) eps).

(* torchiva/wpe.py:136-168 forward; model = None uses the default weights; a model
   has a state (never reset by WPE) and returns weights of shape (n_freq, n_frames) *)
Section Loop.
Variable St : Type.
Variable model : option (St -> sig -> ('I_nF -> 'rV[C]_nN) * St).
Variables (X : sig) (eps : C).
Definition weights (m : St) (Y : sig) : ('I_nF -> 'rV[C]_nN) * St :=        (* 62-66 *)
  if model is Some mo then mo m Y else (default_weights eps Y, m).
Fixpoint wpe_loop (n : nat) (Y : sig) (m : St) : result (sig * St) :=        (* 164-166 *)
  match n with
  | O => Ok (Y, m)
  | S n' =>
      let: (w, m') := weights m Y in
      let* H := wpe_one_iter w X (delayed nT dl X) eps in
      wpe_loop n' (derev H X (delayed nT dl X)) m'
  end.
Definition wpe_forward (n_iter : nat) (m0 : St) : result (sig * St) := wpe_loop n_iter X m0.
End Loop.
End Wpe.
