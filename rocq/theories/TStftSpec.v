(* Specification vocabulary for batches of recordings (C74). *)
From mathcomp Require Import all_ssreflect all_algebra.
From Verif Require Import Py TensorModel TSpec.
Set Implicit Arguments. Unset Strict Implicit. Unset Printing Implicit Defensive.
Local Open Scope ring_scope.

Section Spec.
Variable C : numClosedFieldType.
(* recording b of a batch of recordings (batch, channels, samples) as an input of its own *)
Definition recording (x : tensor C) (b : seq nat) : tensor C := mkT (take 2 (sh x)) (fun i => at_ x (i ++ b)).
(* res, the result for a batch of recordings of n samples, against one b, the result for recording b
   alone: either every recording alone succeeds and the batch holds these results, or a recording
   alone fails and the batch fails with its exception *)
Definition one_by_one n nS (B : seq nat) (res : result (tensor C)) (one : seq nat -> result (tensor C)) : Prop :=
  match res with
  | Ok y => sh y = [:: n, nS & B] /\ forall b, inr B b -> exists y1, [/\ one b = Ok y1, sh y1 = [:: n; nS] &
      forall t s, (t < n)%N -> (s < nS)%N -> at_ y1 [:: t; s] = at_ y [:: t, s & b]]
  | Err e => exists2 b, inr B b & one b = Err e
  end.
(* a separator on spectrograms treats every element of the batch B as g does *)
Definition treats nC nF nN nS (B : seq nat) (sep : tensor C -> result (tensor C))
    (g : seq nat -> {ffun 'I_nF -> 'M[C]_(nC, nN)} -> result {ffun 'I_nF -> 'M[C]_(nS, nN)}) : Prop :=
  forall X, sh X = [:: nN, nF, nC & B] -> lifts B [:: nN, nF, nS & B] (sep X) (fun b => g b (sig_at nF nN nC X b)) (sig_at nF nN nS).
(* number of frames of a recording of n samples *)
Definition frames_of (n_fft : nat) (hop_length : option nat) (n : nat) : nat :=
  (1 + (n + 2 * (n_fft %/ 2) - n_fft) %/ odflt (n_fft %/ 4) hop_length)%N.
End Spec.
