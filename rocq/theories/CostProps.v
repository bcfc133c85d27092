(* Theorems for C19: T-ISS decreases the cost.  lg is any function with
   lg y - lg x <= y / x - 1 for positive x, y (log_like) and, where stated,
   lg (x y) = lg x + lg y (log_mul); lnC, the natural logarithm, is one. *)
From mathcomp Require Import all_ssreflect all_algebra complex.
From Verif Require Import CAlg Py LinalgModel TissModel TissSpec SrcSpec CostModel CostSpec CostProofs CostBridge RField RLog.
Set Implicit Arguments. Unset Strict Implicit. Unset Printing Implicit Defensive.
Import GRing.Theory Num.Theory Order.TTheory.
Local Open Scope ring_scope.
Local Open Scope py_scope.

(* one sweep over sources, background and taps, at one frequency; clamps may be active *)
Theorem c19_sweep (C : numClosedFieldType) (lg : C -> C) nS nB nT nN (w Y : 'M[C]_(nS, nN))
    (W : 'M[C]_(nS, nS + nB)) (H : taps C nT nS (nS + nB)) Z J Xb eps :
  log_like lg -> (0 < nN)%N -> 0 < eps -> eps <= 1 -> (forall s n, 0 <= w s n) -> \det (full_demix W J) != 0 ->
  let: (Y', W', _) := iss_updates w eps Z J Xb (Y, W, H) in
  surrogate lg w Y' (full_demix W' J) <= surrogate lg w Y (full_demix W J).
Proof. exact: (fun ll => @c19_sweep_lemma C lg ll nS nB nT nN w Y W H Z J Xb eps). Qed.
Print Assumptions c19_sweep.
(* the bound on eps is needed *)
Theorem c19_large_eps_refuted (C : numClosedFieldType) (lg : C -> C) : log_like lg ->
  exists (w Y : 'M[C]_(1, 1)) (W : 'M[C]_(1, 1 + 0)) (H : taps C 0 1 (1 + 0)) Z J Xb eps,
  [/\ 0 < eps, (forall s n, 0 <= w s n), \det (full_demix W J) != 0 &
  let: (Y', W', _) := iss_updates w eps Z J Xb (Y, W, H) in
  is_true (surrogate lg w Y (full_demix W J) < surrogate lg w Y' (full_demix W' J))].
Proof.
move=> ll; exists (const_mx 1), (const_mx 1), (row_mx 1%:M 0), [ffun=> 0], 0, 0, [ffun=> 0], 4%:R.
split; [by rewrite ltr0n | by move=> s n; rewrite mxE ler01 | exact: large_det | exact: (large_eps ll)].
Qed.
Print Assumptions c19_large_eps_refuted.

(* one iteration with the Laplace model, measured at the scale the sources had before it
   (the iteration divides source s by a s, see c19_scale_free for the scale) *)
Theorem c19_iteration (C : numClosedFieldType) (lg : C -> C) nS nB nF nT dl nN (X : sig C nF nN (nS + nB)) em eps
    (x y : @st C nS nB nF nT nN unit) :
  log_like lg -> log_mul lg -> (0 < nN)%N -> 0 < eps -> eps <= 1 -> 0 < em ->
  one_iter dl (laplace_model em) X eps x = Ok y ->
  (forall f, \det (full_demix (stW x f) (stJ y f)) != 0) ->
  let a s := sqrtC (Num.max (mean_power (stY x) s) eps) in
  is_true (laplace_cost lg em (fun f => scale_rows a (stY y f)) (fun f => full_demix (scale_rows a (stW y f)) (stJ y f))
  <= laplace_cost lg em (stY x) (fun f => full_demix (stW x f) (stJ y f))).
Proof. exact: (fun ll lm => @c19_iteration_lemma C lg ll lm nS nB nF nT dl nN X em eps x y). Qed.
Print Assumptions c19_iteration.
(* the cost minimised over the scales of the sources, when no clamp is active *)
Theorem c19_scale_free (C : numClosedFieldType) (lg : C -> C) nS nB nF nT dl nN (X : sig C nF nN (nS + nB)) em eps
    (x y : @st C nS nB nF nT nN unit) :
  log_like lg -> log_mul lg -> (0 < nN)%N -> (0 < nF)%N -> 0 < eps -> eps <= 1 -> 0 < em ->
  one_iter dl (laplace_model em) X eps x = Ok y ->
  (forall f, \det (full_demix (stW x f) (stJ y f)) != 0) ->
  unclamped em eps x -> (forall s, 0 < \sum_n frame_norm (stY y) s n) ->
  laplace_cost_si lg (stY y) (fun f => full_demix (stW y f) (stJ y f))
  <= laplace_cost_si lg (stY x) (fun f => full_demix (stW x f) (stJ y f)).
Proof. exact: (fun ll lm => @c19_si_lemma C lg ll lm nS nB nF nT dl nN X em eps x y). Qed.
Print Assumptions c19_scale_free.
(* any number of iterations from the start of forward, as many microphones as sources *)
Theorem c19_run (C : numClosedFieldType) (lg : C -> C) nS nF nT dl nN (X : sig C nF nN (nS + 0)) em eps n
    (x y : @st C nS 0 nF nT nN unit) :
  log_like lg -> log_mul lg -> (0 < nN)%N -> (0 < nF)%N -> 0 < eps -> eps <= 1 -> 0 < em ->
  init nT dl X eps tt = Ok x -> iterate (one_iter dl (laplace_model em) X eps) n x = Ok y ->
  (forall k z, (k < n)%N -> iterate (one_iter dl (laplace_model em) X eps) k x = Ok z -> unclamped em eps z) ->
  (forall s, 0 < \sum_n frame_norm (stY y) s n) ->
  laplace_cost_si lg (stY y) (fun f => full_demix (stW y f) (stJ y f))
  <= laplace_cost_si lg (stY x) (fun f => full_demix (stW x f) (stJ x f)).
Proof. exact: (fun ll lm n0 f0 e0 e1 m0 => @run_init C lg ll lm nS nF nT dl nN X em eps n0 f0 e0 e1 m0 n x y). Qed.
Print Assumptions c19_run.
(* the natural logarithm meets both hypotheses *)
Theorem c19_ln : log_like lnC /\ log_mul lnC.
Proof. exact: (conj lnC_log_like lnC_log_mul). Qed.
Print Assumptions c19_ln.

(* two sources with frames [1 1] and [1 -1], at the start: no clamp is active *)
Example c19_example (C : numClosedFieldType) (eps : C) : 0 < eps -> eps <= 2%:R^-1 ->
  unclamped 1 eps (mkst (nB := 0) (nT := 0) ([ffun=> \matrix_(s, n) (if (s == 1) && (n == 1) then -1 else 1)] : sig C 1 2 2)
     [ffun=> row_mx 1%:M 0] [ffun=> [ffun=> 0]] [ffun=> 0] tt).
Proof. exact: ex_unclamped. Qed.
