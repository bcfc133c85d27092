(* Properties C22 (AuxIVA_IP2), C23-C25 (torchiva/auxiva_ip.py, torchiva/auxiva_ip2.py). *)
From Coq Require Import Ring Field.
From mathcomp Require Import all_ssreflect all_algebra.
From Verif Require Import CAlg Py Batch LinalgModel LinalgSpec LinalgProofs LinalgBridge.
From Verif Require Import TissModel TissSpec IvaModel IvaSpec IvaProofs IvaOpt IvaIp2 IvaBridge.
Set Implicit Arguments. Unset Strict Implicit. Unset Printing Implicit Defensive.
Import GRing.Theory Num.Theory Order.TTheory.
Local Open Scope ring_scope.

(* ------------------------------------------------------------------- C23 *)
(* AuxIVA_IP never raises for eps > 0, performs exactly the epochs of ip_run, and
   returns the current signals, scaled by the regularised projection back *)
Theorem c23_forward (C : numClosedFieldType) nS nB nF nN (St : Type)
    (model : St -> sig C nF nN nS -> sig C nF nN nS * St) (X : sig C nF nN (nS + nB)) (eps : C) n pb m0 :
  (0 < nF)%N -> (0 < nN)%N -> 0 < eps ->
  exists out Y (W : filt C nF nS (nS + nB)) (J : filt C nF nB nS) m, [/\ ip_forward model X eps n pb m0 = Ok (out, m),
    ip_run model X eps m0 n Y W J m &
    match pb with
    | None => forall f, out f = Y f
    | Some ref => exists a : 'I_nF -> 'cV[C]_nS,
       (forall f s k, out f s k = a f s 0 * Y f s k) /\
       (forall f, rls_argmin (pb_matrix (W f) (J f)) (pb_target (J f) ref) (10%:R ^- 5) (10%:R ^- 5) (a f))
    end].
Proof. by move=> _ _; exact: c23_lemma. Qed.
Print Assumptions c23_forward.

(* along a run the signals are the current demixing matrices applied to the input *)
Theorem c23_demixing (C : numClosedFieldType) nS nB nF nN (St : Type)
    (model : St -> sig C nF nN nS -> sig C nF nN nS * St) (X : 'I_nF -> 'M[C]_(nS + nB, nN)) (eps : C) m0 n Y W J m :
  ip_run model X eps m0 n Y W J m -> forall f, Y f = W f *m X f.
Proof. exact: run_demix. Qed.
Print Assumptions c23_demixing.

(* weighted covariances are positive semidefinite for non-negative weights *)
Theorem c23_covariance (C : numClosedFieldType) n nN (w : 'I_nN -> C) (X : 'M[C]_(n, nN)) :
  (forall k, 0 <= w k) -> psd (wcov w X).
Proof. exact: wcov_psd. Qed.
Print Assumptions c23_covariance.

(* every updated filter satisfies w^H V w <= 1, with equality unless the scale is clamped *)
Theorem c23_normalised (C : numClosedFieldType) nS nB (V : 'M[C]_(nS + nB)) W (J : 'M[C]_(nB, nS)) eps k W' :
  psd V -> 0 < eps -> ip_row V W J eps k W' ->
  let w := ctr (row k W') in 0 <= form V w w <= 1 /\
  forall x, rls_argmin (full_demix W J *m V) (delta_mx (lshift nB k) 0) eps eps x ->
    eps <= form V x x -> form V w w = 1.
Proof. exact: ip_row_norm. Qed.
Print Assumptions c23_normalised.

(* without the regularisation the new filter would maximise |det|^2 / (w^H V w) *)
Theorem c23_exact_update_optimal (C : numClosedFieldType) nS nB (V : 'M[C]_(nS + nB)) W
    (J : 'M[C]_(nB, nS)) k (x : 'cV[C]_(nS + nB)) (a : C) W' U : psd V ->
  full_demix W J *m V *m x = delta_mx (lshift nB k) 0 ->
  (forall i, i != k -> row i W' = row i W) -> row k W' = a *: ctr x ->
  (forall i, i != k -> row i U = row i W) ->
  let w := ctr (row k W') in let u := ctr (row k U) in
  `|\det (full_demix U J)| ^+ 2 * form V w w <= `|\det (full_demix W' J)| ^+ 2 * form V u u.
Proof. exact: ip_exact_opt. Qed.
Print Assumptions c23_exact_update_optimal.

(* one channel, V = W = 1, eps = 1/10: the scale is not clamped *)
Example c23_example (C : numClosedFieldType) :
  let V := 1%:M : 'M[C]_(1 + 0) in let W := 1%:M : 'M[C]_(1, 1 + 0) in let J := 0 : 'M[C]_(0, 1) in
  let e := 10%:R^-1 : C in
  exists x, [/\ psd V, rls_argmin (full_demix W J *m V) (delta_mx (lshift 0 0) 0) e e x & e <= form V x x].
Proof.
cbv zeta; set e : C := 10%:R^-1; set V := 1%:M : 'M[C]_(1 + 0).
have e0 : 0 < e by rewrite invr_gt0 ltr0n.
have er : e \is Num.real by exact: gtr0_real.
have e1 : 0 < 1 + e by rewrite addr_gt0 ?ltr01.
have hV : psd V by split=> [|v]; [exact: ctr1|rewrite /qf mulmx1 -nrm2_ctr nrm2_ge0].
have DE : full_demix 1%:M (0 : 'M[C]_(0, 1)) *m V = 1%:M.
  rewrite mulmx1; apply/matrixP=> i j; rewrite [LHS]mxE; case: splitP => [k e'|[]//].
  by rewrite [RHS]mxE [LHS]mxE; congr (_ == _)%:R; apply/val_inj.
pose x : 'cV[C]_(1 + 0) := const_mx (1 + e)^-1; exists x.
have xr : (1 + e)^-1 \is Num.real by rewrite rpredV gtr0_real.
have qx : form V x x = (1 + e)^-1 ^+ 2.
  by rewrite /form mulmx1 mxE big_ord1 ctrE !mxE (CrealP xr).
have rn : row_norm (1%:M : 'M[C]_(1 + 0)) 0 = 1.
  by rewrite /row_norm big_ord1 !mxE normr1 expr1n sqrtC1.
have mx : Num.max (1 : C) e = 1.
  by apply: clamp_id; rewrite /e invf_le1 ?ltr0n // ler1n.
have oE y : rls_objective (1%:M : 'M[C]_(1 + 0)) (delta_mx (lshift 0 0) 0) e e y
    = `|y 0 0 - 1| ^+ 2 + e * `|y 0 0| ^+ 2.
  by rewrite /rls_objective !big_ord1 mul1mx rn mx divr1 !mxE.
split=> //; last first.
  rewrite qx exprVn lef_pinv ?posrE ?exprn_gt0 ?ltr0n //.
  apply: (@le_trans _ _ (2%:R ^+ 2)); last by rewrite -natrX ler_nat.
  rewrite ler_expn2r ?nnegrE ?ler0n ?(ltW e1) // [2%:R]mulr2n ler_add2l.
  by rewrite /e invf_le1 ?ltr0n // ler1n.
rewrite DE => y ne; rewrite !oE -subr_gt0.
have -> : `|y 0 0 - 1| ^+ 2 + e * `|y 0 0| ^+ 2 - (`|x 0 0 - 1| ^+ 2 + e * `|x 0 0| ^+ 2)
    = (1 + e) * `|y 0 0 - x 0 0| ^+ 2.
  rewrite !normCK !rmorphB rmorph1 !mxE (CrealP xr).
  have h : (1 + e) * (1 + e)^-1 = 1 by rewrite mulfV // gt_eqF.
  exact: rls1_alg.
rewrite mulr_gt0 // exprn_gt0 // normr_gt0 subr_eq0; apply: contra_neq ne => E0.
by apply/matrixP=> i j; rewrite !ord1.
Qed.

(* ------------------------------------------------------------------- C24 *)
(* one IP2 update: generalised eigenvectors, normalised, decorrelated for both
   covariances, and optimal *)
Theorem c24_update (C : numClosedFieldType) (V : 'I_2 -> 'M[C]_2) (eps : C) :
  pd (V 0) -> psd (V 1) -> 0 < eps -> eps <= \det (V 0) -> eps <= pencil_disc (V 1) (V 0) ->
  ip2_solution V eps (hermite (ip2_eigvec (V 0) (V 1) eps)).
Proof. exact: ip2_sol. Qed.
Print Assumptions c24_update.

(* every iteration of AuxIVA_IP2 applies that update to the weighted covariances of the
   input, with the weights of the source model scaled by the mean power of the source *)
Theorem c24_iteration (C : numClosedFieldType) nF nN (St : Type)
    (model : St -> sig C nF nN 2 -> sig C nF nN 2 * St) (Xo : sig C nF nN 2) (eps : C) n m0 Y m :
  0 < eps -> (0 < nN)%N -> ip2_forward model Xo eps n None m0 = (Y, m) ->
  let wt := (model m Y).1 in
  exists Y' W, [/\ ip2_forward model Xo eps n.+1 None m0 = (Y', (model m Y).2),
    forall f, Y' f = W f *m Xo f &
    forall f, let V s := nN%:R^-1 *: wcov (fun k => wt f s k * Num.max (mean_pow Y s) (10%:R ^- 5)) (Xo f) in
       (forall s k, 0 <= wt f s k) -> pd (V 0) -> eps <= \det (V 0) -> eps <= pencil_disc (V 1) (V 0) ->
       ip2_solution V eps (W f)].
Proof.
move=> e0 n0 h wt; have [Y' [W [_ [h1 _ h3 h4 _]]]] := c24_lemma 0 e0 n0 h.
by exists Y', W; split.
Qed.
Print Assumptions c24_iteration.

(* V0 = I, V1 = [[2, 1], [1, 2]]: no clamp is active and W is a rotation *)
Example c24_example (C : numClosedFieldType) (eps : C) : 0 < eps -> eps <= 1 ->
  let V (k : 'I_2) : 'M[C]_2 := if k == 0 then 1%:M else mx22 2%:R 1 1 2%:R in
  [/\ pd (V 0), psd (V 1), eps <= \det (V 0), eps <= pencil_disc (V 1) (V 0) &
   ip2_eigvec (V 0) (V 1) eps = (sqrtC 2%:R)^-1 *: mx22 (-1) (-1) (-1) 1].
Proof.
move=> e0 e1 V.
have V0 : V 0 = 1%:M by rewrite /V eqxx.
have V1 : V 1 = mx22 2%:R 1 1 2%:R by [].
have p1 : pd (1%:M : 'M[C]_2) by split=> [|v v0]; [exact: ctr1|rewrite qf1 nrm2_gt0].
rewrite V0 V1; split=> //; last exact: ip2_ex.
- have -> : mx22 2%:R 1 1 2%:R = 1%:M + const_mx 1 *m ctr (const_mx 1 : 'cV[C]_2).
    apply/matrixP; apply: ord2P; apply: ord2P; rewrite !mxE /= big_ord1 ctrE !mxE conjC1 mulr1 ?add0r //;
      by rewrite mulr1n -mulr2n.
  by apply: psdD (psd_outer _); exact: pd_psd.
- by rewrite det1.
- rewrite c12_disc /edelta !mxE /= subrr expr0n add0r ?mulr1.
  by apply: le_trans e1 _; rewrite ?mul1r ?mulr1 ?addr0 ?mulr0 ler1n.
Qed.

(* ------------------------------------------------------------------- C25 *)
(* with a reference microphone the two outputs sum to that microphone wherever
   |det W| >= 1e-6, and to det W / 1e-6 times it elsewhere *)
Theorem c25_outputs_sum (C : numClosedFieldType) nF nN (St : Type)
    (model : St -> sig C nF nN 2 -> sig C nF nN 2 * St) (Xo : sig C nF nN 2) (eps : C) n (mic : 'I_2) m0 Y m :
  0 < eps -> (0 < nN)%N -> ip2_forward model Xo eps n None m0 = (Y, m) ->
  let wt := (model m Y).1 in
  exists Y' W out, [/\ ip2_forward model Xo eps n.+1 None m0 = (Y', (model m Y).2),
    ip2_forward model Xo eps n.+1 (Some mic) m0 = (out, (model m Y).2),
    forall f, Y' f = W f *m Xo f,
    (forall f, let V s := nN%:R^-1 *: wcov (fun k => wt f s k * Num.max (mean_pow Y s) (10%:R ^- 5)) (Xo f) in
       (forall s k, 0 <= wt f s k) -> pd (V 0) -> eps <= \det (V 0) -> eps <= pencil_disc (V 1) (V 0) ->
       ip2_solution V eps (W f)) &
    forall f k, \sum_s out f s k
      = (if 10%:R ^- 6 <= `|\det (W f)| then Xo f mic k else \det (W f) / 10%:R ^- 6 * Xo f mic k)].
Proof. exact: c24_lemma. Qed.
Print Assumptions c25_outputs_sum.

(* each output is a multiple of the corresponding demixed signal *)
Theorem c25_scaling (C : numClosedFieldType) nF nN (St : Type)
    (model : St -> sig C nF nN 2 -> sig C nF nN 2 * St) (Xo : sig C nF nN 2) (eps : C) n (mic : 'I_2) m0 :
  exists (a : 'I_nF -> 'I_2 -> C), forall f s k,
    (ip2_forward model Xo eps n (Some mic) m0).1 f s k = a f s * (ip2_forward model Xo eps n None m0).1 f s k.
Proof. exact: c25_lemma. Qed.
Print Assumptions c25_scaling.

(* ------------------------------------------------------------------- C22 *)
Theorem c22_ip2_zero_iterations (C : numClosedFieldType) nF nN (St : Type)
    (model : St -> sig C nF nN 2 -> sig C nF nN 2 * St) (Xo : sig C nF nN 2) (eps : C) mic m0 :
  ip2_forward model Xo eps 0 mic m0 = (Xo, m0).
Proof. by case: mic. Qed.
Print Assumptions c22_ip2_zero_iterations.
