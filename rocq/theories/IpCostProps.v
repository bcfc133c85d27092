(* Theorems for C76: AuxIVA_IP without regularisation decreases the cost; the
   regularisation can make it rise.  lg as in C19 (see CostProps.v); lnC is one. *)
From mathcomp Require Import all_ssreflect all_algebra.
From Verif Require Import CAlg Py LinalgModel TissModel TissSpec SrcSpec CostModel CostSpec IvaModel IpCostModel IpCostProofs IpCostRefute IpCostPrint.
Set Implicit Arguments. Unset Strict Implicit. Unset Printing Implicit Defensive.
Import GRing.Theory Num.Theory Order.TTheory.
Local Open Scope ring_scope.

(* one source, any positive weights: the new row has weighted power 1 and, among all values
   of that row, the largest |det|^2 per weighted power *)
Theorem c76_source (C : numClosedFieldType) nS nF nN (X : sig C nF nN (nS + 0)) (w : sig C nF nN nS)
    (W : filt C nF nS (nS + 0)) (J : filt C nF 0 nS) (k : 'I_nS) :
  (forall f, row_free (X f)) -> (forall f s n, 0 < w f s n) ->
  (forall f, \det (full_demix (W f) (J f)) != 0) ->
  exists (W' : filt C nF nS (nS + 0)) (J' : filt C nF 0 nS), ip_source X w 0 (W, J) k = Ok (W', J') /\ forall f,
   [/\ forall i, i != k -> row i (W' f) = row i (W f), \det (full_demix (W' f) (J' f)) != 0,
       wpower (w f k) ((W' f *m X f) k) = 1 &
       forall U : 'M[C]_(nS, nS + 0), (forall i, i != k -> row i U = row i (W f)) ->
       `|\det (full_demix U (J f))| ^+ 2
       <= `|\det (full_demix (W' f) (J' f))| ^+ 2 * wpower (w f k) ((U *m X f) k)].
Proof. exact: (fun fX wp => @c76_source_lemma C nS nF nN X w fX wp W J k). Qed.
Print Assumptions c76_source.

(* one iteration with the Laplace model *)
Theorem c76_iteration (C : numClosedFieldType) (lg : C -> C) nS nF nN (X : sig C nF nN (nS + 0)) em
    (Y : sig C nF nN nS) (W : filt C nF nS (nS + 0)) (J : filt C nF 0 nS) :
  log_like lg -> log_mul lg -> (0 < nF)%N -> (0 < nN)%N -> 0 < em -> (forall f, row_free (X f)) ->
  (forall f, \det (full_demix (W f) (J f)) != 0) -> (forall f, Y f = W f *m X f) ->
  (forall s n, em <= 2%:R * frame_norm Y s n) ->
  exists (Y' : sig C nF nN nS) (W' : filt C nF nS (nS + 0)) (J' : filt C nF 0 nS),
   ip_iter (laplace_model em) X 0 (Y, W, J, tt) = Ok (Y', W', J', tt) /\
   [/\ forall f, \det (full_demix (W' f) (J' f)) != 0, forall f, Y' f = W' f *m X f &
       laplace_cost_si lg Y' (fun f => full_demix (W' f) (J' f))
       <= laplace_cost_si lg Y (fun f => full_demix (W f) (J f))].
Proof. exact: (fun ll lm f0 n0 m0 fX => @c76_iteration_lemma C lg nS nF nN ll lm f0 n0 X em m0 fX Y W J). Qed.
Print Assumptions c76_iteration.
(* any number of iterations from the start of forward *)
Theorem c76_run (C : numClosedFieldType) (lg : C -> C) nS nF nN (X : sig C nF nN (nS + 0)) em k :
  log_like lg -> log_mul lg -> (0 < nF)%N -> (0 < nN)%N -> 0 < em -> (forall f, row_free (X f)) ->
  (forall i z, (i < k)%N -> ip_raw (laplace_model em) X 0 i tt = Ok z ->
     forall s n, em <= 2%:R * frame_norm z.1.1.1 s n) ->
  exists (Y : sig C nF nN nS) (W : filt C nF nS (nS + 0)) (J : filt C nF 0 nS),
   ip_raw (laplace_model em) X 0 k tt = Ok (Y, W, J, tt) /\
   [/\ forall f, \det (full_demix (W f) (J f)) != 0, forall f, Y f = W f *m X f &
       laplace_cost_si lg Y (fun f => full_demix (W f) (J f))
       <= laplace_cost_si lg (fun f => usubmx (X f)) (fun=> 1%:M : 'M[C]_(nS + 0))].
Proof. exact: (fun ll lm f0 n0 m0 fX => @c76_run_lemma C lg nS nF nN ll lm f0 n0 X em m0 fX k). Qed.
Print Assumptions c76_run.
(* with any regularisation up to 0.1 (the default is 1e-5) an iteration can increase the cost,
   from a state that meets every hypothesis of c76_iteration *)
Theorem c76_regularised_refuted (C : numClosedFieldType) (lg : C -> C) (eps em : C) :
  log_like lg -> log_mul lg -> 0 < eps -> eps <= 10%:R^-1 -> 0 < em -> em <= 2%:R ->
  exists (X : sig C 1 2 (2 + 0)) (Y : sig C 1 2 2) (W : filt C 1 2 (2 + 0)) (J : filt C 1 0 2)
    (Y' : sig C 1 2 2) (W' : filt C 1 2 (2 + 0)) (J' : filt C 1 0 2),
  [/\ forall f, row_free (X f), forall f, \det (full_demix (W f) (J f)) != 0, forall f, Y f = W f *m X f,
      forall s n, em <= 2%:R * frame_norm Y s n &
  [/\ ip_iter (laplace_model em) X eps (Y, W, J, tt) = Ok (Y', W', J', tt),
      forall f, \det (full_demix (W' f) (J' f)) != 0 &
      laplace_cost_si lg Y (fun f => full_demix (W f) (J f)) < laplace_cost_si lg Y' (fun f => full_demix (W' f) (J' f))]].
Proof. exact: (fun ll lm e0 e1 _ m2 => @ip_wit C lg eps em ll lm e0 e1 m2). Qed.
Print Assumptions c76_regularised_refuted.

(* the cost printed with verbose=True is the cost of C19 times the number of frames *)
Theorem c76_printed (C : numClosedFieldType) (lg : C -> C) nS nB nF nN em
    (Y : sig C nF nN nS) (W : filt C nF nS (nS + nB)) (J : filt C nF nB nS) :
  log_mul lg -> (0 < nN)%N -> (forall s n, em <= 2%:R * frame_norm Y s n) ->
  (forall f, \det (full_demix (W f) (J f)) != 0) ->
  ip_cost lg Y W J = nN%:R * laplace_cost lg em Y (fun f => full_demix (W f) (J f)).
Proof. exact: (fun lm => @ip_cost_lemma C lg lm nS nB nF nN em Y W J). Qed.
Print Assumptions c76_printed.
(* it can increase in the first iteration, even for one source, because the update scales the
   demixing rows with covariances that are not divided by the number of frames *)
Theorem c76_printed_refuted (C : numClosedFieldType) (lg : C -> C) (eps em : C) :
  log_like lg -> log_mul lg -> 0 < eps -> eps <= 10%:R^-1 -> em <= 2%:R ->
  exists (X : sig C 1 8 (1 + 0)) (Y' : sig C 1 8 1) (W' : filt C 1 1 (1 + 0)) (J' : filt C 1 0 1),
  let Y : sig C 1 8 1 := [ffun f => usubmx (X f)] in
  [/\ forall s n, em <= 2%:R * frame_norm Y s n,
      ip_raw (laplace_model em) X eps 1 tt = Ok (Y', W', J', tt) &
      ip_cost lg Y ([ffun=> row_mx 1%:M 0] : filt C 1 1 (1 + 0)) ([ffun=> 0] : filt C 1 0 1) < ip_cost lg Y' W' J'].
Proof. exact: (fun ll lm => @printed C lg ll lm eps em). Qed.
Print Assumptions c76_printed_refuted.
(* verbose=True works without batch dimensions only: the demixing matrices have shape
   batch + (n_freq, n_src, n_chan) *)
Theorem c76_printed_batch (batch : seq nat) f s c : (0 < size batch)%N ->
  cost_unpack (batch ++ [:: f; s; c]) = Err ValueError.
Proof. exact: unpack_batch. Qed.
Print Assumptions c76_printed_batch.

(* a recording of two microphones and two frames that meets the hypotheses of c76_iteration
   (demixed by [[1 0] [i 1]]) and of c76_run for one iteration *)
Example c76_example (C : numClosedFieldType) : let X : sig C 1 2 (2 + 0) := [ffun=> mx22 1 1 (1 - 'i) (- 1 - 'i)] in
  [/\ forall f, row_free (X f),
   (forall s n, 1 <= 2%:R * frame_norm (fun f => (mx22 1 0 'i 1 : 'M[C]_(2, 2 + 0)) *m X f) s n) &
   forall i z, (i < 1)%N -> ip_raw (laplace_model 1) X 0 i tt = Ok z ->
     forall s n, 1 <= 2%:R * frame_norm z.1.1.1 s n].
Proof. exact: ip_ex. Qed.

(* one batch dimension of size 1, and none *)
Example c76_example_batch : cost_unpack [:: 1; 257; 2; 3]%N = Err ValueError /\ cost_unpack [:: 257; 2; 3]%N = Ok (257, 2, 3)%N.
Proof. by []. Qed.
