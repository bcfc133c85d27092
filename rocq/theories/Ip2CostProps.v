(* Theorems for C77: an iteration of AuxIVA_IP2 decreases the cost as long as no floor is
   active; for a quiet recording it can increase it.  lg as in C19 (see CostProps.v). *)
From mathcomp Require Import all_ssreflect all_algebra.
From Verif Require Import CAlg Py LinalgModel TissModel TissSpec SrcSpec CostModel CostSpec IvaModel Ip2CostSpec Ip2CostProofs Ip2CostEx Ip2CostQuiet.
Set Implicit Arguments. Unset Strict Implicit. Unset Printing Implicit Defensive.
Import GRing.Theory Num.Theory Order.TTheory.
Local Open Scope ring_scope.

(* one more iteration, from any number of iterations that ended with invertible demixing
   matrices *)
Theorem c77_iteration (C : numClosedFieldType) (lg : C -> C) nF nN (X : sig C nF nN 2) (eps em : C) n
    (Y : sig C nF nN 2) (U : 'I_nF -> 'M[C]_2) :
  log_like lg -> log_mul lg -> (0 < nF)%N -> (0 < nN)%N -> 0 < eps -> 0 < em -> (forall f, row_free (X f)) ->
  ip2_forward (laplace_model em) X eps n None tt = (Y, tt) ->
  (forall f, Y f = U f *m X f) -> (forall f, \det (U f) != 0) -> ip2_unclamped eps em X Y ->
  exists (Y' : sig C nF nN 2) (W : 'I_nF -> 'M[C]_2),
  [/\ ip2_forward (laplace_model em) X eps n.+1 None tt = (Y', tt), forall f, Y' f = W f *m X f,
      forall f, \det (W f) != 0 &
      laplace_cost_si lg Y' (fun f => W f : 'M[C]_(2 + 0)) <= laplace_cost_si lg Y (fun f => U f : 'M[C]_(2 + 0))].
Proof. exact: (fun ll lm f0 n0 e0 m0 fX => @ip2_iter_cost C lg nF nN ll lm f0 n0 X eps em e0 m0 fX n Y U). Qed.
Print Assumptions c77_iteration.
(* any number of iterations: invertible demixing matrices, and a cost that is at most the one
   of the recording itself *)
Theorem c77_run (C : numClosedFieldType) (lg : C -> C) nF nN (X : sig C nF nN 2) (eps em : C) n :
  log_like lg -> log_mul lg -> (0 < nF)%N -> (0 < nN)%N -> 0 < eps -> 0 < em -> (forall f, row_free (X f)) ->
  (forall i Y, (i < n)%N -> ip2_forward (laplace_model em) X eps i None tt = (Y, tt) -> ip2_unclamped eps em X Y) ->
  exists (Y : sig C nF nN 2) (W : 'I_nF -> 'M[C]_2),
  [/\ ip2_forward (laplace_model em) X eps n None tt = (Y, tt), forall f, Y f = W f *m X f,
      forall f, \det (W f) != 0 &
      laplace_cost_si lg Y (fun f => W f : 'M[C]_(2 + 0)) <= laplace_cost_si lg X (fun=> 1%:M : 'M[C]_(2 + 0))].
Proof. exact: (fun ll lm f0 n0 e0 m0 fX => @c77_run_lemma C lg nF nN ll lm f0 n0 X eps em e0 m0 fX n). Qed.
Print Assumptions c77_run.

(* the recording [[1 2] [1 -1]] meets the hypotheses of c77_run for one iteration *)
Example c77_example (C : numClosedFieldType) (eps em : C) : 0 < eps -> eps <= 10%:R^-1 -> em <= 2%:R ->
  let X : sig C 1 2 2 := [ffun=> mx22 1 2%:R 1 (- 1)] in (forall f, row_free (X f)) /\ ip2_unclamped eps em X X.
Proof. exact: ip2_ex77. Qed.

(* the same recording multiplied by a small a: the floors eps under the determinant and the
   discriminant are active and the first iteration increases the cost, although the weights
   of the source model and the mean powers are above their floors *)
Theorem c77_quiet_refuted (C : numClosedFieldType) (lg : C -> C) (a eps em : C) :
  log_like lg -> log_mul lg -> 0 < a -> 0 < eps -> eps <= 10%:R^-1 -> 0 < em -> em <= 2%:R * a ->
  10%:R ^- 5 <= a ^+ 2 -> 225%:R * a ^+ 6 <= 128%:R * eps ->
  let X : sig C 1 2 2 := [ffun=> a *: mx22 1 2%:R 1 (- 1)] in
  exists (Y : sig C 1 2 2) (W : 'I_1 -> 'M[C]_2),
  [/\ ip2_forward (laplace_model em) X eps 1 None tt = (Y, tt), forall f, Y f = W f *m X f,
      forall f, \det (W f) != 0 &
      laplace_cost_si lg X (fun=> 1%:M : 'M[C]_(2 + 0)) < laplace_cost_si lg Y (fun f => W f : 'M[C]_(2 + 0))].
Proof. exact: (fun ll lm a0 e0 e1 m0 ma pa qa => @quiet_cost C a eps em a0 e0 e1 ma pa qa lg ll lm m0). Qed.
Print Assumptions c77_quiet_refuted.
(* the default eps = 1e-5 (and the floor 1e-10 of the Laplace model) at a = 0.1 *)
Example c77_example_quiet (C : numClosedFieldType) : let a : C := 10%:R^-1 in let eps : C := 10%:R ^- 5 in
  [/\ eps <= 10%:R^-1, 10%:R ^- 10 <= 2%:R * a, 10%:R ^- 5 <= a ^+ 2 & 225%:R * a ^+ 6 <= 128%:R * eps].
Proof.
have t0 : 0 <= 10%:R^-1 :> C by rewrite invr_ge0 ler0n.
have t1 : 10%:R^-1 <= 1 :> C by rewrite invf_le1 ?ltr0n // ler1n.
have t5 : 10%:R^-1 ^+ 5 <= 10%:R^-1 :> C by rewrite exprS ger_pmulr ?invr_gt0 ?ltr0n // exprn_ile1.
have t2 k m : (m <= k)%N -> 10%:R^-1 ^+ k <= 10%:R^-1 ^+ m :> C by move=> h; exact: ler_wiexpn2l.
rewrite -!exprVn; split=> //; last 1 first.
- rewrite exprS mulrA ler_pmul2r ?exprn_gt0 ?invr_gt0 ?ltr0n //.
  by rewrite ler_pdivr_mulr ?ltr0n // -natrM ler_nat.
- apply: (@le_trans _ _ (10%:R^-1)); first by rewrite -[X in _ <= X]expr1; exact: t2.
  by rewrite mulr2n mulrDl mul1r ler_addl.
exact: t2.
Qed.
