(* Specification vocabulary for FIVE on batches (C73). *)
From Coq Require Import ZArith.
From mathcomp Require Import all_ssreflect all_algebra.
From Verif Require TorchShape.
From Verif Require Import Py TensorModel TSpec.
Set Implicit Arguments. Unset Strict Implicit. Unset Printing Implicit Defensive.
Local Open Scope ring_scope.

(* FIVE gives its source model tensors of shape (batch, n_freq, n_frames).  The source model on
   tensors, with a state St, computes on each element of the batch B what m, with a state St1,
   computes; rs reads the state of one element, inv holds of the states the model may be in *)
Definition extractor_as (C : numClosedFieldType) (St St1 : Type) nF nN (B : seq nat) (tm : St -> tensor C -> result (tensor C * St))
    (m : St1 -> 'M[C]_(nF, nN) -> 'M[C]_(nF, nN) * St1) (inv : St -> Prop) (rs : St -> seq nat -> St1) : Prop :=
  forall s Y, inv s -> sh Y = [:: nN, nF & B] -> exists w s', [/\ tm s Y = Ok (w, s'), inv s', sh w = [:: nN, nF & B] &
    forall b, inr B b -> m (rs s b) (mat nF nN Y b) = (mat nF nN w b, rs s' b)].
(* proj_back_mic = z names microphone mic of nC, counted from the end if it is negative *)
Definition mic_of (nC : nat) (z : Z) (mic : 'I_nC) : Prop :=
  if Z.ltb z Z0 then Z.add (Z.of_nat nC) z = Z.of_nat mic else z = Z.of_nat mic.
(* one extracted signal with a source axis of size one *)
Definition one_source (C : numClosedFieldType) nF nN (Y : 'M[C]_(nF, nN)) : {ffun 'I_nF -> 'M[C]_(1, nN)} := [ffun f => row f Y].
