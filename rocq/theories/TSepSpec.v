(* Specification vocabulary for the separation algorithms on batches (C70). *)
From Coq Require Import ZArith.
From mathcomp Require Import all_ssreflect all_algebra.
From Verif Require Import Py TissModel SrcModel TensorModel TSpec.
Set Implicit Arguments. Unset Strict Implicit. Unset Printing Implicit Defensive.
Local Open Scope ring_scope.

(* r: batch shape; the computation res on the whole batch gives a result which satisfies ok and
   in which rd reads, at each batch index, what g computes there; an exception of res is the
   exception of g somewhere *)
Definition gives (A U : Type) (ok : A -> Prop) (r : seq nat) (res : result A) (g : seq nat -> result U) (rd : A -> seq nat -> U) : Prop :=
  match res with
  | Ok a => ok a /\ forall i, inr r i -> g i = Ok (rd a i)
  | Err e => exists2 i, inr r i & g i = Err e
  end.
(* a source model on tensors, with a state St, computes on each element of the batch B what m,
   with a state St1, computes; rs reads the state of one element, inv holds of the states that
   the model may be in *)
Definition source_as (C : numClosedFieldType) (St St1 : Type) nF nN nS (B : seq nat) (tm : St -> tensor C -> result (tensor C * St))
    (m : St1 -> {ffun 'I_nF -> 'M[C]_(nS, nN)} -> {ffun 'I_nF -> 'M[C]_(nS, nN)} * St1) (inv : St -> Prop) (rs : St -> seq nat -> St1) : Prop :=
  forall s Y, inv s -> sh Y = [:: nN, nF, nS & B] -> exists w s', [/\ tm s Y = Ok (w, s'), inv s', sh w = [:: nN, nF, nS & B] &
    forall b, inr B b -> m (rs s b) (sig_at nF nN nS Y b) = (sig_at nF nN nS w b, rs s' b)].
(* the microphone that proj_back_mic = z names in T_ISS: z itself, or, for a negative z, counted
   back from the number of sources nS (not of microphones) *)
Definition names_mic (nS nB : nat) (z : Z) (ref : 'I_(nS + nB)) : Prop :=
  if Z.ltb z Z0 then Z.add (Z.of_nat nS) z = Z.of_nat ref else z = Z.of_nat ref.
Section Tiss.
Variable C : numClosedFieldType.
Variables (nS nB nF nN : nat) (B : seq nat).
(* the background filter J is there exactly when there are more microphones than sources *)
Definition okJ (J : option (tensor C)) : Prop := if J is Some J then (0 < nB)%N /\ sh J = [:: nS, nF, nB & B] else nB = 0%N.
Definition rdJ (J : option (tensor C)) (b : seq nat) : {ffun 'I_nF -> 'M[C]_(nB, nS)} := if J is Some J then sig_at nF nS nB J b else [ffun f => 0].
(* shapes of the output and of the filters self.W and self.J; one batch element of them *)
Definition okR (r : tensor C * tensor C * option (tensor C)) : Prop :=
  [/\ sh r.1.1 = [:: nN, nF, nS & B], sh r.1.2 = [:: (nS + nB)%N, nF, nS & B] & okJ r.2].
Definition rdR (r : tensor C * tensor C * option (tensor C)) (b : seq nat) :
    {ffun 'I_nF -> 'M[C]_(nS, nN)} * {ffun 'I_nF -> 'M[C]_(nS, nS + nB)} * {ffun 'I_nF -> 'M[C]_(nB, nS)} :=
  (sig_at nF nN nS r.1.1 b, sig_at nF (nS + nB) nS r.1.2 b, rdJ r.2 b).
(* the parameter n_src: None stands for the number of channels *)
Definition n_src_is (o : option nat) : Prop := if o is Some k then k = nS else nB = 0%N.
(* proj_back_mic: None, or a microphone; on a batch it has to be one of the first n_src *)
Definition pb_is (pb : option Z) (ref : option 'I_(nS + nB)) : Prop :=
  match pb, ref with
  | Some z, Some ref => names_mic z ref /\ (B = [::] \/ (ref < nS)%N)
  | None, None => True
  | _, _ => False
  end.
(* proj_back_mic: None, or one of the first n_src microphones *)
Definition pb_near (pb : option Z) (ref : option 'I_(nS + nB)) : Prop :=
  match pb, ref with
  | Some z, Some ref => names_mic z ref /\ (ref < nS)%N
  | None, None => True
  | _, _ => False
  end.
End Tiss.
(* NMF on the sources of one batch element, each with its own factors *)
Definition nmf_each (C : numClosedFieldType) nF nN nS K (eps : C) (tv : {ffun 'I_nS -> factors C nF nN K}) (Y : sig C nF nN nS) :
    sig C nF nN nS * {ffun 'I_nS -> factors C nF nN K} :=
  let res s := nmf_update eps (\matrix_(f, n) Y f s n) (tv s) in
  ([ffun f => \matrix_(s, n) (res s).2 f n], [ffun s => (res s).1]).
