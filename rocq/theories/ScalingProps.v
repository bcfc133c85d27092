(* Properties C36-C38 and C60 (torchiva/scaling.py). *)
From mathcomp Require Import all_ssreflect all_algebra all_fingroup.
From mathcomp Require Import complex.
From Verif Require Import CAlg Py Batch LinalgModel PowSpec RField RLog RPow ScalingModel ScalingSpec ScalingProofs ScalingBridge ScalingCouple ScalingLp.
Set Implicit Arguments. Unset Strict Implicit. Unset Printing Implicit Defensive.
Import GRing.Theory Num.Theory Order.TTheory.
Local Open Scope ring_scope.

(* ------------------------------------------------------------------- C36 *)
(* for every batch element, channel and frequency; never worse than silence,
   and the unique optimum when the mean power reaches 1e-7 *)
Theorem c36_optimal (C : numClosedFieldType) (B : finType) nC nF nN
    (Y : spec C B nC nF nN) (ref : refs C B nF nN) b c f :
  let y := Y b c f in let r := ref b f in
  exists a, [/\ minimum_distortion_l2 Y ref b c f = a *: y, sqerr r (a *: y) <= sqerr r 0 &
   (10%:R ^- 7 <= mean_power y -> forall z, z != a -> sqerr r (a *: y) < sqerr r (z *: y))].
Proof. exact: c36_lemma. Qed.
Print Assumptions c36_optimal.

Theorem c36_scale_invariant (C : numClosedFieldType) (B : finType) nC nF nN
    (Y Y' : spec C B nC nF nN) (ref : refs C B nF nN) b c f (s : C) :
  Y' b c f = s *: Y b c f ->
  10%:R ^- 7 <= mean_power (Y b c f) -> 10%:R ^- 7 <= mean_power (Y' b c f) ->
  minimum_distortion_l2 Y' ref b c f = minimum_distortion_l2 Y ref b c f.
Proof. exact: c36_scale. Qed.
Print Assumptions c36_scale_invariant.

Theorem c36_idempotent (C : numClosedFieldType) (B : finType) nC nF nN
    (Y : spec C B nC nF nN) (ref : refs C B nF nN) b c f :
  10%:R ^- 7 <= mean_power (Y b c f) -> 10%:R ^- 7 <= mean_power (minimum_distortion_l2 Y ref b c f) ->
  minimum_distortion_l2 (minimum_distortion_l2 Y ref) ref b c f = minimum_distortion_l2 Y ref b c f.
Proof. exact: c36_idem. Qed.
Print Assumptions c36_idempotent.

(* p = None, or p = 2 with q = None or 2 *)
Theorem c36_dispatch (C : numClosedFieldType) (B : finType) nC nF nN pw
    (Y : spec C B nC nF nN) (ref : refs C B nF nN) p q rtol n :
  p = None \/ (p = Some 2%:R /\ (q = None \/ q = Some 2%:R)) ->
  minimum_distortion pw Y ref p q rtol n = Ok (minimum_distortion_l2 Y ref).
Proof. exact: md_dispatch_l2. Qed.
Print Assumptions c36_dispatch.

Example c36_example (C : numClosedFieldType) : (10%:R ^- 7 : C) <= mean_power (const_mx 1 : 'rV[C]_4).
Proof.
rewrite /mean_power (eq_bigr (fun=> 1)) => [|n _]; last by rewrite mxE normr1 expr1n.
rewrite sumr_const card_ord mulfV ?pnatr_eq0 //.
by rewrite invf_le1 ?exprn_gt0 ?ltr0n // exprn_ege1 // ler1n.
Qed.

(* ------------------------------------------------------------------- C37 *)
Theorem c37_phase (C : numClosedFieldType) (B : finType) nC nF nN
    (Y : spec C B nC nF nN) (ref : refs C B nF nN) b c f :
  let y := Y b c f in let r := ref b f in
  exists u, [/\ minimum_distortion_l2_phase Y ref b c f = u *: y, `|u| <= 1,
   (10%:R ^- 5 <= `|corr r y| -> `|u| = 1) &
   (10%:R ^- 5 <= `|corr r y| -> forall v, `|v| = 1 -> sqerr r (u *: y) <= sqerr r (v *: y))].
Proof. exact: c37_lemma. Qed.
Print Assumptions c37_phase.

Example c37_example (C : numClosedFieldType) :
  (10%:R ^- 5 : C) <= `|corr (const_mx 'i : 'rV[C]_1) (const_mx 1)|.
Proof.
rewrite /corr big_ord1 !mxE rmorph1 mulr1 divr1 normCi.
by rewrite invf_le1 ?exprn_gt0 ?ltr0n // exprn_ege1 // ler1n.
Qed.

(* ------------------------------------------------------------------- C38 *)
(* a run with 0 < p < 2: at least min(2, max_iter) and at most max_iter updates,
   each the minimiser of the reweighted error, stopping at the first relative
   change (over the whole batch) below rtol.  pw is torch.pow. *)
Theorem c38_iterations (C : numClosedFieldType) (B : finType) nC nF nN (pw : C -> C -> C)
    (Y : spec C B nC nF nN) (ref : refs C B nF nN) p q rtol n :
  (forall x t, 0 <= x -> 0 <= pw x t) ->
  0 < p -> p < 2%:R -> q = None \/ q = Some p -> 0 <= rtol ->
  exists (cs : nat -> B * 'I_nF * 'I_nC -> C) k out,
   [/\ minimum_distortion pw Y ref (Some p) q rtol n = Ok out /\
       (forall b c f, out b c f = cs k (b, f, c) *: Y b c f),
     (minn 2 n <= k <= n)%N, (forall i, cs 0%N i = 1),
     (forall j b f c, irls_step (lp_weights pw p (ref b f) (Y b c f) (cs j (b, f, c)))
                        (ref b f) (Y b c f) (cs j.+1 (b, f, c))) &
     ((k < n)%N -> rel_small (cs k) (cs k.-1) rtol) /\
     (forall j, (1 < j < k)%N -> ~~ rel_small (cs j) (cs j.-1) rtol)].
Proof. exact: c38_run. Qed.
Print Assumptions c38_iterations.

(* invalid exponents raise as soon as there is one iteration *)
Theorem c38_bad_exponents (C : numClosedFieldType) (B : finType) nC nF nN (pw : C -> C -> C)
    (Y : spec C B nC nF nN) (ref : refs C B nF nN) p q rtol n :
  match q with
  | None => ~~ ((0 < p) && (p <= 2%:R))
  | Some q => ~~ [&& 0 < p, p <= q & q <= 2%:R]
  end -> minimum_distortion pw Y ref (Some p) q rtol n.+1 = Err AssertionError.
Proof. exact: md_bad. Qed.
Print Assumptions c38_bad_exponents.

(* p = 1: every update decreases the (smoothed) l1 error *)
Theorem c38_l1_descent (C : numClosedFieldType) nN (pw : C -> C -> C) (r y : 'rV[C]_nN) z z' :
  (forall x, 0 <= x -> pw x 1 = x) ->
  let w := lp_weights pw 1 r y z in
  10%:R ^- 5 <= weighted_power w y -> irls_step w r y z' ->
  l1_error (10%:R ^- 5) r y z' <= l1_error (10%:R ^- 5) r y z.
Proof. exact: l1_descent. Qed.
Print Assumptions c38_l1_descent.
(* the smoothing is at most eps/4 *)
Theorem c38_l1_smoothing (C : numClosedFieldType) (eps r : C) : 0 < eps -> 0 <= r ->
  r <= soft_abs eps r <= r + eps / 4%:R.
Proof. exact: soft_abs_bounds. Qed.
Print Assumptions c38_l1_smoothing.

(* every exponent 0 < p < 2: no update increases the (smoothed) error *)
Theorem c38_lp_descent (C : numClosedFieldType) nN (pw : C -> C -> C) p (r y : 'rV[C]_nN) z z' :
  pow_like pw -> 0 < p -> p < 2%:R ->
  let w := lp_weights pw p r y z in
  10%:R ^- 5 <= weighted_power w y -> irls_step w r y z' ->
  lp_error pw p (10%:R ^- 5) r y z' <= lp_error pw p (10%:R ^- 5) r y z.
Proof. move=> hpw p0 p2; exact: lp_descent. Qed.
Print Assumptions c38_lp_descent.
(* ... so that the result is no further from the reference than the input *)
Theorem c38_lp_run (C : numClosedFieldType) (B : finType) nC nF nN (pw : C -> C -> C)
    (Y : spec C B nC nF nN) (ref : refs C B nF nN) p q rtol n :
  pow_like pw -> (forall x t, 0 <= x -> 0 <= pw x t) ->
  0 < p -> p < 2%:R -> q = None \/ q = Some p -> 0 <= rtol ->
  exists (cs : nat -> B * 'I_nF * 'I_nC -> C) k out,
   [/\ minimum_distortion pw Y ref (Some p) q rtol n = Ok out,
     forall b c f, out b c f = cs k (b, f, c) *: Y b c f,
     forall i, cs 0%N i = 1 &
     forall b c f, let e := lp_error pw p (10%:R ^- 5) (ref b f) (Y b c f) in
       (forall j, (j < k)%N ->
          10%:R ^- 5 <= weighted_power (lp_weights pw p (ref b f) (Y b c f) (cs j (b, f, c))) (Y b c f)) ->
       e (cs k (b, f, c)) <= e 1].
Proof. exact: lp_run. Qed.
Print Assumptions c38_lp_run.
Theorem c38_lp_smoothing (C : numClosedFieldType) (pw : C -> C -> C) p (eps r : C) :
  pow_like pw -> 0 < p -> p < 2%:R -> 0 < eps -> 0 <= r ->
  pw r p <= soft_pow pw p eps r <= pw r p + (1 - p / 2%:R) * pw (pw (eps / 2%:R) (2%:R - p)^-1) p.
Proof. move=> hpw p0 p2; exact: soft_pow_bounds. Qed.
Print Assumptions c38_lp_smoothing.
(* the power of the real numbers is such a pw *)
Theorem c38_power : pow_like powC /\ (forall x t, 0 <= x -> 0 <= powC x t).
Proof. exact: (conj powC_like powC_ge0). Qed.
Print Assumptions c38_power.
Example c38_lp_example : let w := lp_weights powC 1 (const_mx 2%:R : 'rV[CR]_1) (const_mx 1) 0 in
  (10%:R ^- 5 : CR) <= weighted_power w (const_mx 1) /\ irls_step w (const_mx 2%:R) (const_mx 1) 2%:R.
Proof. exact: lp_example. Qed.

(* the elements of a batch share nothing but the number of iterations ... *)
Theorem c38_batch (C : numClosedFieldType) (B : finType) nC nF nN (pw : C -> C -> C)
    (Y : spec C B nC nF nN) (ref : refs C B nF nN) p q rtol n :
  0 < p -> p < 2%:R -> q = None \/ q = Some p ->
  exists k, (k <= n)%N /\ forall b, exists out out1,
    [/\ minimum_distortion pw Y ref (Some p) q rtol n = Ok out,
        minimum_distortion pw (fun _ : unit => Y b) (fun _ => ref b) (Some p) q 0 k = Ok out1 &
        forall c f, out b c f = out1 tt c f].
Proof. exact: slice_lemma. Qed.
Print Assumptions c38_batch.
(* ... which depends on all of them: batch independence is false *)
Theorem c38_batch_independence_refuted (C : numClosedFieldType) (pw : C -> C -> C) :
  (forall x, 0 <= x -> pw x 1 = x) ->
  exists (Y : spec C bool_finType 1 1 2) (ref : refs C bool_finType 1 2) rtol n out out1,
  [/\ minimum_distortion pw Y ref (Some 1) None rtol n = Ok out,
      minimum_distortion pw (fun _ : unit => Y true) (fun _ => ref true) (Some 1) None rtol n = Ok out1 &
      out true 0 0 != out1 tt 0 0].
Proof. by move=> h; have [o [o1 h']] := couple h; exists (@Yb C), (@refb C), (20%:R^-1), 3%N, o, o1. Qed.
Print Assumptions c38_batch_independence_refuted.

(* a power function on the non-negative reals with the assumed properties *)
Example c38_example (C : numClosedFieldType) : let pw (x t : C) := if t == 1 then x else 1 in
  (forall x t : C, 0 <= x -> 0 <= pw x t) /\ (forall x, 0 <= x -> pw x 1 = x).
Proof. by split=> [x t|x] x0 /=; [case: ifP; rewrite ?ler01|rewrite eqxx]. Qed.

(* ------------------------------------------------------------------- C60 *)
Theorem c60_projection_back (C : numClosedFieldType) (B : finType) nC nF nN
    (argsort : ('I_nN -> C) -> {perm 'I_nN}) (Y : spec C B nC nF nN) (ref : refs C B nF nN) :
  (nC <= nN)%N -> sorts argsort ->
  exists sel : B -> 'I_nC -> 'I_nN,
  [/\ forall b, injective (sel b),
      forall b n j, (forall j', sel b j' != n) ->
        \sum_f \sum_c mag (Y b c f 0 n) <= \sum_f \sum_c mag (Y b c f 0 (sel b j)),
      ((forall b f, (\matrix_(j, c) Y b c f 0 (sel b j) + (10%:R ^- 5)%:M : 'M[C]_nC) \in unitmx) ->
       exists out (a : B -> 'I_nF -> 'I_nC -> C), [/\ projection_back argsort Y ref = Ok out,
          forall b c f, out b c f = a b f c *: Y b c f &
          forall b f j, \sum_c out b c f 0 (sel b j) = ref b f 0 (sel b j) - 10%:R ^- 5 * a b f j]) &
      forall b f, (\matrix_(j, c) Y b c f 0 (sel b j) + (10%:R ^- 5)%:M : 'M[C]_nC) \notin unitmx ->
       projection_back argsort Y ref = Err LinAlgError].
Proof. exact: pb_lemma. Qed.
Print Assumptions c60_projection_back.

Theorem c60_few_frames (C : numClosedFieldType) (B : finType) nC nF nN
    (argsort : ('I_nN -> C) -> {perm 'I_nN}) (Y : spec C B nC nF nN) (ref : refs C B nF nN) :
  (nN < nC)%N -> projection_back argsort Y ref = Err RuntimeError.
Proof. exact: pb_few. Qed.
Print Assumptions c60_few_frames.

(* for one frame the identity sorts *)
Example c60_example (C : numClosedFieldType) : sorts (fun _ : 'I_1 -> C => 1%g : {perm 'I_1}).
Proof. by move=> g _ i j _; rewrite !ord1. Qed.
