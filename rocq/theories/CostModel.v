(* T-ISS driven by the Laplace source model (torchiva/t_iss.py with
   torchiva/models/classic.py LaplaceModel), one batch element. *)
From mathcomp Require Import all_ssreflect all_algebra.
From Verif Require Import CAlg Py Batch LinalgModel TissModel SrcModel.
Set Implicit Arguments. Unset Strict Implicit. Unset Printing Implicit Defensive.
Import GRing.Theory Num.Theory Order.TTheory.
Local Open Scope ring_scope.

Section Model.
Variable C : numClosedFieldType.
Variables (nS nF nN : nat).
(* classic.py:33-43 applied to a tensor (n_src, n_freq, n_frames): the frequency sum is
   over dim -2, so every source is treated separately.  LaplaceModel has no state. *)
Definition laplace_model (em : C) (m : unit) (Y : sig C nF nN nS) : sig C nF nN nS * unit :=
  ([ffun f => \matrix_(s, n) laplace em (\matrix_(f, n) Y f s n) f n], m).

Section Iter.
Variables (nB nT dl : nat).
Local Notation st := (@st C nS nB nF nT nN unit).
Variables (em eps : C).
(* t_iss.py:234, 239, 246  weights of one iteration, multiplied by the gain *)
Definition iter_weights (Y : sig C nF nN nS) f : 'M[C]_(nS, nN) :=
  \matrix_(s, n) ((laplace_model em tt Y).1 f s n * gain eps Y s).
(* t_iss.py:240-245  normalised signals and filters handed to iss_updates_with_H *)
Definition iter_start (x : st) f : issst C nS nB nT nN :=
  (\matrix_(s, n) divide (stY x f s n) (sqrtC (gain eps (stY x) s)) eps,
   \matrix_(s, c) divide (stW x f s c) (sqrtC (gain eps (stY x) s)) eps,
   [ffun t => \matrix_(s, c) divide (stH x f t s c) (sqrtC (gain eps (stY x) s)) eps]).
End Iter.
End Model.
