(* Specification vocabulary for the scaling functions on batches (C75). *)
From mathcomp Require Import all_ssreflect all_fingroup all_algebra.
From Verif Require Import Py TensorModel.
Set Implicit Arguments. Unset Strict Implicit. Unset Printing Implicit Defensive.
Import GRing.Theory Num.Theory.
Local Open Scope ring_scope.

Section Spec.
Variable C : numClosedFieldType.
(* element b of a batch of spectrograms, and of a batch of references, in the form of
   ScalingModel.v with a batch of one element *)
Definition spec_at nC nF nN (t : tensor C) (b : seq nat) : unit -> 'I_nC -> 'I_nF -> 'rV[C]_nN :=
  fun _ c f => \row_n at_ t [:: nat_of_ord n, nat_of_ord f, nat_of_ord c & b].
Definition ref_at nF nN (t : tensor C) (b : seq nat) : unit -> 'I_nF -> 'rV[C]_nN :=
  fun _ f => \row_n at_ t [:: nat_of_ord n, nat_of_ord f & b].
(* element b of a batch of references, as a reference of its own *)
Definition ref_alone (t : tensor C) (b : seq nat) : tensor C := mkT (take 2 (sh t)) (fun i => at_ t (i ++ b)).
(* the element of a tensor with batch shape R that broadcasting uses for element b of a batch:
   dimensions that are missing or of size one in R are not indexed *)
Fixpoint bc_elem (R b : seq nat) : seq nat :=
  match R, b with
  | n :: R', x :: b' => (if n == 1%N then 0%N else x) :: bc_elem R' b'
  | _, _ => [::]
  end.
(* R is B except for missing dimensions at the front and dimensions of size one (shapes are
   written last dimension first) *)
Fixpoint fits (R B : seq nat) : bool :=
  match R, B with
  | [::], _ => true
  | n :: R', m :: B' => ((n == m) || (n == 1%N)) && fits R' B'
  | _ :: _, [::] => false
  end.
(* the scaled spectrograms o of the batch Y are those that g computes from each element *)
Definition scales nC nF nN (B : seq nat) (o : tensor C) (g : seq nat -> unit -> 'I_nC -> 'I_nF -> 'rV[C]_nN) : Prop :=
  sh o = [:: nN, nF, nC & B] /\ forall b (c : 'I_nC) (f : 'I_nF) (n : 'I_nN), inr B b -> at_ o [:: nat_of_ord n, nat_of_ord f, nat_of_ord c & b] = g b tt c f 0 n.
(* res, a result for the batch B, against one b, the result that the model of ScalingModel.v gives for
   element b *)
Definition scaled nC nF nN (B : seq nat) (res : result (tensor C)) (one : seq nat -> result (unit -> 'I_nC -> 'I_nF -> 'rV[C]_nN)) : Prop :=
  match res with
  | Ok o => sh o = [:: nN, nF, nC & B] /\ forall b, inr B b -> exists2 out, one b = Ok out &
      forall (c : 'I_nC) (f : 'I_nF) (n : 'I_nN), at_ o [:: nat_of_ord n, nat_of_ord f, nat_of_ord c & b] = out tt c f 0 n
  | Err e => exists2 b, inr B b & one b = Err e
  end.
(* the exponents with which the iteration runs: 0 < p < 2, or 0 < p <= q <= 2 when they differ *)
Definition exponents (p : C) (q : option C) : bool :=
  match q with
  | None => (0 < p) && (p < 2%:R)
  | Some q => if p == q then (0 < p) && (p < 2%:R) else [&& 0 < p, p <= q & q <= 2%:R]
  end.
(* argsort puts the frames in the order of the permutation that perm gives; it depends only on the
   numbers that it is given *)
Definition orders n (argsort : ('I_n -> C) -> 'I_n -> 'I_n) (perm : ('I_n -> C) -> {perm 'I_n}) : Prop :=
  forall g g' : 'I_n -> C, g =1 g' -> forall i, argsort g i = perm g' i.
(* z is the coefficient that fits y to r with the weights w, attenuated when the weighted power of
   y is below 1e-5 *)
Definition weighted_fit nN (w r y : 'rV[C]_nN) (z : C) : Prop :=
  let pow := \sum_n `|y 0 n| ^+ 2 * w 0 n in
  z * (if pow < 10%:R ^- 5 then 10%:R ^- 5 else pow) = \sum_n r 0 n * (y 0 n)^* * w 0 n.
(* the weights that minimum_distortion takes from what its model returned: those of element 0 and
   frequency 0, divided by their sum over the frames when that is at least 1e-5 *)
Definition first_weights nC nN (v : tensor C) (c : 'I_nC) : 'rV[C]_nN :=
  let s := \sum_(n < nN) at_ v [:: nat_of_ord n; 0%N; nat_of_ord c; 0%N] in
  \row_(n < nN) (at_ v [:: nat_of_ord n; 0%N; nat_of_ord c; 0%N] / (if s < 10%:R ^- 5 then 10%:R ^- 5 else s)).
(* One iteration of minimum_distortion with a model m on a batch Y of nM elements: from the
   coefficients c, m is given the errors in the layout of Y; it returns v; and the new coefficient of
   every element, frequency and channel fits that channel to the reference with the weights
   first_weights of v. *)
Definition shared_step nC nF nN nM (R : seq nat) (Y ref : tensor C) St (m : St -> tensor C -> result (tensor C * St)) (st st' : St)
    (c c' : 'I_nM -> 'I_nF -> 'I_nC -> C) : Prop :=
  exists e v, [/\ m st e = Ok (v, st'), sh e = sh Y,
    forall (b : 'I_nM) f k (n : 'I_nN), at_ e [:: nat_of_ord n; nat_of_ord f; nat_of_ord k; nat_of_ord b] =
      @ref_at nF nN ref (bc_elem R [:: nat_of_ord b]) tt f 0 n - c b f k * @spec_at nC nF nN Y [:: nat_of_ord b] tt k f 0 n &
    forall (b : 'I_nM) f k, weighted_fit (@first_weights nC nN v k) (@ref_at nF nN ref (bc_elem R [:: nat_of_ord b]) tt f)
      (@spec_at nC nF nN Y [:: nat_of_ord b] tt k f) (c' b f k)].
End Spec.
Arguments spec_at {C} nC nF nN t b _ _ _.
Arguments ref_at {C} nF nN t b _ _.
Arguments first_weights {C} nC nN v c.
