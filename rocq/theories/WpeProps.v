(* Properties C34, C35 and the WPE part of C22 (torchiva/wpe.py). *)
From mathcomp Require Import all_ssreflect all_algebra.
From Verif Require Import CAlg Py LinalgModel TissModel TissSpec WpeModel WpeSpec WpeProofs WpeBridge.
Set Implicit Arguments. Unset Strict Implicit. Unset Printing Implicit Defensive.
Import GRing.Theory Num.Theory Order.TTheory.
Local Open Scope ring_scope.

(* Every iteration succeeds; its output is the input minus a linear prediction from
   past frames; it has at most the weighted energy of the input, and the prediction
   filter is the unique minimiser of weighted error energy plus load. *)
Theorem c34_wpe_iteration (C : numClosedFieldType) nC nF nT dl nN (St : Type)
    (model : option (St -> sig C nF nN nC -> ('I_nF -> 'rV[C]_nN) * St))
    (X : sig C nF nN nC) (eps : C) n m0 :
  (0 < nC * nT)%N -> 0 < eps ->
  (forall mo, model = Some mo -> forall m Y f n, 0 <= (mo m Y).1 f 0 n) ->
  exists Y m Y' m' (h : 'I_nF -> 'I_nC -> 'I_nC -> 'I_nT -> C),
  [/\ wpe_forward nT dl model X eps n m0 = Ok (Y, m),
      wpe_forward nT dl model X eps n.+1 m0 = Ok (Y', m'),
      (forall f s k, Y' f s k = X f s k - predict dl (X f) (h f s) k) &
   forall f s, let w := (weights model eps m Y).1 f 0 in
    [/\ \sum_k w k * `|Y' f s k| ^+ 2 <= \sum_k w k * `|X f s k| ^+ 2 &
    exists load, is_past_load nT dl w (X f) eps load /\
     forall g : 'I_nC -> 'I_nT -> C, (exists c t, g c t != h f s c t) ->
      wpe_objective dl w (X f) s load (h f s) < wpe_objective dl w (X f) s load g]].
Proof. exact: c34_lemma. Qed.
Print Assumptions c34_wpe_iteration.
(* the default weights (model = None) need no hypothesis *)
Theorem c34_wpe_default (C : numClosedFieldType) nC nF nT dl nN
    (X : sig C nF nN nC) (eps : C) n :
  (0 < nC * nT)%N -> 0 < eps ->
  exists Y Y', wpe_forward nT dl None X eps n tt = Ok (Y, tt) /\
    wpe_forward nT dl None X eps n.+1 tt = Ok (Y', tt) /\
    forall f s, \sum_k default_weights eps Y f 0 k * `|Y' f s k| ^+ 2
             <= \sum_k default_weights eps Y f 0 k * `|X f s k| ^+ 2.
Proof.
move=> n0 e0; have [|Y [[] [Y' [[] [h [h1 h2 _ h4]]]]]] := @c34_lemma C nC nF nT dl nN unit None X eps n tt n0 e0 => //.
by exists Y, Y'; split=> //; split=> // f s; case: (h4 f s).
Qed.
Print Assumptions c34_wpe_default.
(* a model with constant weights meets the hypothesis *)
Example c34_example (C : numClosedFieldType) nC nF nN :
  forall mo, Some (fun (m : unit) (Y : sig C nF nN nC) => ((fun f : 'I_nF => const_mx 1 : 'rV[C]_nN), m)) = Some mo ->
  forall m Y f n, 0 <= (mo m Y).1 f 0 n.
Proof. by move=> mo [<-] m Y f n; rewrite mxE ler01. Qed.

Theorem c35_default_weights (C : numClosedFieldType) nC nF nN (eps : C) (Y : sig C nF nN nC) f :
  0 < eps -> (0 < nN)%N ->
  (forall n, 0 < default_weights eps Y f 0 n) /\ \sum_n default_weights eps Y f 0 n = 1.
Proof. by move=> e0 n0; split; [move=> n; exact: default_weights_pos|exact: default_weights_sum]. Qed.
Print Assumptions c35_default_weights.
(* louder frames (above the floor) get smaller weights *)
Theorem c35_default_weights_order (C : numClosedFieldType) nC nF nN (eps : C) (Y : sig C nF nN nC) f n k :
  0 < eps -> \sum_c `|Y f c n| ^+ 2 <= \sum_c `|Y f c k| ^+ 2 ->
  default_weights eps Y f 0 k <= default_weights eps Y f 0 n.
Proof. exact: default_weights_order. Qed.
Print Assumptions c35_default_weights_order.
Theorem c35_no_taps (C : numClosedFieldType) nC nF dl nN (St : Type)
    (model : option (St -> sig C nF nN nC -> ('I_nF -> 'rV[C]_nN) * St))
    (X : sig C nF nN nC) (eps : C) n m0 :
  wpe_forward 0 dl model X eps n.+1 m0 = Err IndexError.
Proof. exact: wpe_no_taps. Qed.
Print Assumptions c35_no_taps.

Theorem c22_wpe_zero_iterations (C : numClosedFieldType) nC nF nT dl nN (St : Type)
    (model : option (St -> sig C nF nN nC -> ('I_nF -> 'rV[C]_nN) * St))
    (X : sig C nF nN nC) (eps : C) m0 :
  wpe_forward nT dl model X eps 0 m0 = Ok (X, m0).
Proof. by []. Qed.
Print Assumptions c22_wpe_zero_iterations.
