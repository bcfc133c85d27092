(* Specification vocabulary for C80: the cost that independent vector extraction with the
   Laplace model minimises; independent of the model. *)
From mathcomp Require Import all_ssreflect all_algebra.
From Verif Require Import CAlg LinalgSpec FiveSpec.
Set Implicit Arguments. Unset Strict Implicit. Unset Printing Implicit Defensive.
Import GRing.Theory Num.Theory Order.TTheory.
Local Open Scope ring_scope.

Section Spec.
Variable C : numClosedFieldType.
Variables (nF nN : nat).
Implicit Types Y : 'M[C]_(nF, nN).
(* norm of frame n over all frequencies *)
Definition frame Y n : C := sqrtC (\sum_f `|Y f n| ^+ 2).
(* exponential of the cost 2 F log (sum of the norms of the frames) - sum_f log (energy at f): the
   negative log likelihood of an extracted source with a spherical Laplace prior, minimised over a
   common factor of all frequencies.  By the orthogonality of the background the determinant of
   the demixing matrix is the energy of the output, up to a constant *)
Definition spread Y : C := (\sum_n frame Y n) ^+ (2 * nF) / \prod_f energy (row f Y).
(* frequency f multiplied by a f *)
Definition rescale (a : 'I_nF -> C) Y : 'M[C]_(nF, nN) := \matrix_(f, n) (a f * Y f n).
(* a spectrogram without its DC bin *)
Definition above_dc (Y : 'M[C]_(nF.+1, nN)) : 'M[C]_(nF, nN) := \matrix_(f, n) Y (lift ord0 f) n.
End Spec.
