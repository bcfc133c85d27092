(* Property C80: FIVE and the cost of independent vector extraction. *)
From mathcomp Require Import all_ssreflect all_algebra.
From Verif Require Import CAlg Py Batch LinalgModel LinalgSpec LinalgProofs LinalgBridge TissModel
  EigExists SrcModel FiveModel FiveSpec FiveProofs FiveBridge FiveCostModel FiveCostSpec FiveCostProofs.
Set Implicit Arguments. Unset Strict Implicit. Unset Printing Implicit Defensive.
Import GRing.Theory Num.Theory Order.TTheory.
Local Open Scope ring_scope.

(* each iteration with the Laplace model decreases the cost up to the scales of the frequencies:
   with suitable positive factors, one per frequency, the new output is no worse than the old one *)
Theorem c80_rescaled (C : numClosedFieldType) (eighO : forall n, eigh_oracle C n) k nF nN
    (X : sig C nF.+1 nN k.+1) (mic : 'I_k.+1) (em : C) :
  (forall n, eigensolver (eighO n)) -> (0 < nN)%N ->
  (forall f, full_power (X (lift ord0 f))) -> (forall f, real_if_two (sample_cov (X (lift ord0 f)))) -> 0 < em ->
  forall n Yp mp Y m, five_forward eighO (lap em) X mic None n tt = Ok (Yp, mp) ->
  five_forward eighO (lap em) X mic None n.+1 tt = Ok (Y, m) ->
  (forall j, em <= 2%:R * frame (above_dc Yp) j) ->
  (forall f, row f (above_dc Yp) != 0) -> (forall f, row f (above_dc Y) != 0) ->
  exists a : 'I_nF -> C, (forall f, 0 < a f) /\ spread (rescale a (above_dc Y)) <= spread (above_dc Yp).
Proof. exact: descent_lemma. Qed.
Print Assumptions c80_rescaled.
(* with one frequency above DC the cost itself never increases *)
Theorem c80_one_frequency (C : numClosedFieldType) (eighO : forall n, eigh_oracle C n) k nN
    (X : sig C 2 nN k.+1) (mic : 'I_k.+1) (em : C) n Yp mp Y m :
  (forall n, eigensolver (eighO n)) -> (0 < nN)%N ->
  full_power (X (lift ord0 0)) -> real_if_two (sample_cov (X (lift ord0 0))) -> 0 < em ->
  five_forward eighO (lap em) X mic None n tt = Ok (Yp, mp) -> five_forward eighO (lap em) X mic None n.+1 tt = Ok (Y, m) ->
  (forall j, em <= 2%:R * frame (above_dc Yp) j) ->
  row 0 (above_dc Yp) != 0 -> row 0 (above_dc Y) != 0 -> spread (above_dc Y) <= spread (above_dc Yp).
Proof. exact: one_lemma. Qed.
Print Assumptions c80_one_frequency.
(* with two frequencies an iteration can increase it, for every correct eigensolver: the factors of
   the projection back are not those of the minimum.  The iteration starts from the signal of the
   reference microphone, a filtered input with optimal scale as in c27_output_scale *)
Theorem c80_descent_refuted (C : numClosedFieldType) (em : C) : 0 < em -> em <= 8%:R ->
  exists (X : sig C 3 2 2) (Y Y' : 'M[C]_2),
  [/\ forall f, full_power (X (lift ord0 f)), forall f, real_if_two (k := 1) (sample_cov (X (lift ord0 f))),
      forall f, row f Y = row ord0 (X (lift ord0 f)), forall j, em <= 2%:R * frame Y j &
  [/\ forall f, row f Y != 0, forall f, row f Y' != 0,
      (forall eighO : (forall n, eigh_oracle C n), (forall n, eigensolver (eighO n)) ->
         five_loop eighO (lap em) X ord0 None 1 Y tt = Ok (Y', tt)) &
      spread Y < spread Y']].
Proof. exact: bad_lemma. Qed.
Print Assumptions c80_descent_refuted.

(* the hypotheses of c80_one_frequency and c80_rescaled at the start of forward *)
Example c80_example (C : numClosedFieldType) : exists (eighO : forall n, eigh_oracle C n) Yp mp Y m,
  let X : sig C 2 2 1 := [ffun=> \row_n (n.+1)%:R] in
  [/\ forall n, eigensolver (eighO n), full_power (X (lift ord0 0)), real_if_two (k := 0) (sample_cov (X (lift ord0 0))),
      five_forward eighO (lap 1) X 0 None 1 tt = Ok (Yp, mp) &
  [/\ five_forward eighO (lap 1) X 0 None 2 tt = Ok (Y, m), forall j, 1 <= 2%:R * frame (above_dc Yp) j,
      row 0 (above_dc Yp) != 0 & row 0 (above_dc Y) != 0]].
Proof. exact: one_ex. Qed.
