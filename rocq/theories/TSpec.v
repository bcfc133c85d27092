(* Specification vocabulary for batches (C69): one element of a batch of tensors as a matrix. *)
From mathcomp Require Import all_ssreflect all_algebra.
From Verif Require Import Py TensorModel.
Set Implicit Arguments. Unset Strict Implicit. Unset Printing Implicit Defensive.
Local Open Scope ring_scope.

Section Spec.
Variable C : numClosedFieldType.
(* element b of a tensor of shape (batch, channels, frequencies, frames): a matrix
   channels x frames for each frequency *)
Definition sig_at nF nN nC (t : tensor C) (b : seq nat) : {ffun 'I_nF -> 'M[C]_(nC, nN)} :=
  [ffun f => \matrix_(c, n) at_ t [:: nat_of_ord n, nat_of_ord f, nat_of_ord c & b]].
(* r: batch shape; the tensor computation res gives a tensor of shape s and computes, at each
   batch index, what g computes there, where rd reads one element of the batch; an
   exception of res is the exception of g somewhere *)
Definition lifts (U : Type) (r s : seq nat) (res : result (tensor C)) (g : seq nat -> result U) (rd : tensor C -> seq nat -> U) : Prop :=
  match res with
  | Ok t => sh t = s /\ forall i, inr r i -> g i = Ok (rd t i)
  | Err e => exists2 i, inr r i & g i = Err e
  end.
(* a weight model on tensors computes m on each element of the batch B *)
Definition acts_as nF nN nC (B : seq nat) (mo : tensor C -> result (tensor C))
    (m : {ffun 'I_nF -> 'M[C]_(nC, nN)} -> 'I_nF -> 'rV[C]_nN) : Prop :=
  forall Y, sh Y = [:: nN, nF, nC & B] -> exists w, [/\ mo Y = Ok w, sh w = [:: nN, nF & B] &
    forall b f n, inr B b -> at_ w [:: nat_of_ord n, nat_of_ord f & b] = m (sig_at nF nN nC Y b) f 0 n].
(* an optional weight model *)
Definition weights_as nF nN nC (B : seq nat) (tm : option (tensor C -> result (tensor C)))
    (om : option ({ffun 'I_nF -> 'M[C]_(nC, nN)} -> 'I_nF -> 'rV[C]_nN)) : Prop :=
  match tm, om with Some mo, Some m => acts_as B mo m | None, None => True | _, _ => False end.
(* a mask model on tensors gives, for each element of the batch B, the nM masks that mm computes
   from that element of the reference channel *)
Definition masks_as nS nF nN (nM : nat) (B : seq nat) (tm : tensor C -> result (tensor C))
    (mm : 'M[C]_(nF, nN) -> seq ('I_nS -> 'I_nF -> 'rV[C]_nN)) : Prop :=
  forall x, sh x = [:: nN, nF & B] -> exists M, [/\ tm x = Ok M, sh M = [:: nN, nF, nM, nS & B] &
    forall b, inr B b -> let l := mm (\matrix_(f, n) at_ x [:: nat_of_ord n, nat_of_ord f & b]) in size l = nM /\
      forall i s f n, (i < nM)%N -> at_ M [:: nat_of_ord n, nat_of_ord f, i, nat_of_ord s & b] = nth (fun _ _ => 0) l i s f 0 n].
(* element b of a batch of signals as an input of its own, without batch dimensions *)
Definition alone (t : tensor C) (b : seq nat) : tensor C := mkT (take 3 (sh t)) (fun i => at_ t (i ++ b)).
(* res, the result for a batch of shape B, against one b, the result for element b alone: either
   every element alone succeeds and the batch holds these results, or an element alone fails
   and the batch fails with its exception *)
Definition separately nN nF nS (B : seq nat) (res : result (tensor C)) (one : seq nat -> result (tensor C)) : Prop :=
  match res with
  | Ok Y => sh Y = [:: nN, nF, nS & B] /\ forall b, inr B b -> exists Y1, [/\ one b = Ok Y1, sh Y1 = [:: nN; nF; nS] &
      forall n f s, (n < nN)%N -> (f < nF)%N -> (s < nS)%N -> at_ Y1 [:: n; f; s] = at_ Y [:: n, f, s & b]]
  | Err e => exists2 b, inr B b & one b = Err e
  end.
End Spec.
