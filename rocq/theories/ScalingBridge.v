(* The scaling functions against their specification. *)
From Coq Require Import Ring Field.
From mathcomp Require Import all_ssreflect all_algebra all_fingroup.
From Verif Require Import CAlg Py Batch LinalgModel LinalgProofs ScalingModel ScalingSpec ScalingProofs.
Set Implicit Arguments. Unset Strict Implicit. Unset Printing Implicit Defensive.
Import GRing.Theory Num.Theory Order.TTheory.
Local Open Scope ring_scope.
Local Open Scope py_scope.

Section L2.
Variable C : numClosedFieldType.
Add Field CfieldSB : (f_ft C).
Ltac cring := fpre; fnorm C; fatoms; ring.
Ltac cfield := fpre; fnorm C; fatoms; field.
Variable B : finType.
Variables (nC nF nN : nat).
Implicit Types (Y : spec C B nC nF nN) (ref : refs C B nF nN).
Implicit Types (r y : 'rV[C]_nN).

Lemma tenV_gt0 k : 0 < (10%:R ^- k : C).
Proof. by rewrite invr_gt0 exprn_gt0 ?ltr0n. Qed.
Lemma mean_power_ge0 y : 0 <= mean_power y.
Proof. by rewrite divr_ge0 ?ler0n // sumr_ge0 // => n _; rewrite exprn_ge0. Qed.
Definition l2_coef r y : C := corr r y / clamp (mean_power y) (10%:R ^- 7).
Lemma md_l2E Y ref b c f :
  minimum_distortion_l2 Y ref b c f = l2_coef (ref b f) (Y b c f) *: Y b c f.
Proof.
apply/rowP=> n; rewrite !mxE ReIm_div mulrC; congr (_ * _).
have -> : (\sum_n mag_sq (Y b c f 0 n)) / nN%:R = mean_power (Y b c f).
  by congr (_ / _); apply: eq_bigr => m _; rewrite mag_sqE.
have d0 : 0 < clamp (mean_power (Y b c f)) (eps_mdp C).
  by rewrite clamp_gt0 ?tenV_gt0 // ger0_real // mean_power_ge0.
rewrite rmorphM fmorphV (conj_Creal (gtr0_real d0)).
congr (_ / _); rewrite rmorphM fmorphV rmorph_nat rmorph_sum; congr (_ / _).
by apply: eq_bigr => m _; rewrite rmorphM conjCK.
Qed.
Lemma powE y : \sum_n `|y 0 n| ^+ 2 * (const_mx 1 : 'rV[C]_nN) 0 n = \sum_n `|y 0 n| ^+ 2.
Proof. by apply: eq_bigr => n _; rewrite mxE mulr1. Qed.
Lemma corE r y : \sum_n r 0 n * (y 0 n)^* * (const_mx 1 : 'rV[C]_nN) 0 n = \sum_n r 0 n * (y 0 n)^*.
Proof. by apply: eq_bigr => n _; rewrite mxE mulr1. Qed.
Lemma nN_gt0 y : 10%:R ^- 7 <= mean_power y -> (0 < nN)%N.
Proof.
rewrite /mean_power lt0n; apply: contraTneq => z.
have -> : nN%:R = 0 :> C by rewrite z.
by rewrite invr0 mulr0 lt_geF ?tenV_gt0.
Qed.
Lemma l2_coefE r y : 10%:R ^- 7 <= mean_power y ->
  l2_coef r y = (\sum_n r 0 n * (y 0 n)^*) / \sum_n `|y 0 n| ^+ 2.
Proof.
move=> h; have n0 : nN%:R != 0 :> C by rewrite pnatr_eq0 -lt0n (nN_gt0 h).
rewrite /l2_coef clamp_id // /corr /mean_power invf_div mulrA mulfVK //.
Qed.
Lemma pow_gt0 y : 10%:R ^- 7 <= mean_power y -> 0 < \sum_n `|y 0 n| ^+ 2.
Proof.
move=> h; have n0 : 0 < nN%:R :> C by rewrite ltr0n (nN_gt0 h).
have := lt_le_trans (tenV_gt0 7) h; by rewrite /mean_power pmulr_lgt0 ?invr_gt0.
Qed.
Lemma one_ge0 (n : 'I_nN) : 0 <= (const_mx 1 : 'rV[C]_nN) 0 n.
Proof. by rewrite mxE ler01. Qed.
Lemma sqerr0 r y : sqerr r 0 = sqerr r (0 *: y). Proof. by rewrite scale0r. Qed.

Lemma c36_lemma Y ref b c f : let y := Y b c f in let r := ref b f in
  exists a, [/\ minimum_distortion_l2 Y ref b c f = a *: y, sqerr r (a *: y) <= sqerr r 0 &
   (10%:R ^- 7 <= mean_power y -> forall z, z != a -> sqerr r (a *: y) < sqerr r (z *: y))].
Proof.
move=> y r; exists (l2_coef r y); rewrite md_l2E; split=> //.
  rewrite (sqerr0 _ y) !sqerrE.
  pose t : C := (nN%:R * clamp (mean_power y) (10%:R ^- 7))^-1.
  have c0 : 0 < clamp (mean_power y) (10%:R ^- 7) by rewrite clamp_gt0 ?tenV_gt0 ?ger0_real ?mean_power_ge0.
  have -> : l2_coef r y = t * \sum_n r 0 n * (y 0 n)^* * (const_mx 1 : 'rV[C]_nN) 0 n.
    by rewrite corE /l2_coef /corr /t; move: (clamp _ _) (\sum_n _) => d S; rewrite invfM; cring.
  apply: werr_shrunk; [exact: one_ge0|by rewrite invr_ge0 mulr_ge0 ?ler0n // ltW|].
  rewrite powE (_ : t * _ = mean_power y / clamp (mean_power y) (10%:R ^- 7)); last first.
    rewrite /t; move: (clamp _ _) => d; rewrite /mean_power; move: (\sum_n _) => S; rewrite invfM; cring.
  apply: (@le_trans _ _ 1); last by rewrite ler1n.
  by rewrite ler_pdivr_mulr // mul1r clamp_geR ?ger0_real ?mean_power_ge0 // ltW ?tenV_gt0.
move=> h z ne; have D0 := pow_gt0 h; rewrite !sqerrE l2_coefE //.
have D0' : 0 < \sum_n `|y 0 n| ^+ 2 * (const_mx 1 : 'rV[C]_nN) 0 n by rewrite powE.
rewrite (@werr_min _ _ (const_mx 1) r y z one_ge0 D0') corE powE -l2_coefE // ltr_addl.
by rewrite mulr_gt0 // exprn_gt0 // normr_gt0 subr_eq0.
Qed.

Lemma c36_scale Y Y' ref b c f (s : C) : Y' b c f = s *: Y b c f ->
  10%:R ^- 7 <= mean_power (Y b c f) -> 10%:R ^- 7 <= mean_power (Y' b c f) ->
  minimum_distortion_l2 Y' ref b c f = minimum_distortion_l2 Y ref b c f.
Proof.
move=> e h h'; rewrite !md_l2E !l2_coefE // e scalerA; congr (_ *: _).
have D0 := pow_gt0 h; have := pow_gt0 h'; rewrite e => D0'.
have s0 : s != 0.
  apply: contraTneq D0' => ->; rewrite big1 ?ltxx // => n _; by rewrite !mxE mul0r normr0 expr0n.
have -> : \sum_n `|(s *: Y b c f) 0 n| ^+ 2 = s * s^* * \sum_n `|Y b c f 0 n| ^+ 2.
  by rewrite mulr_sumr; apply: eq_bigr => n _; rewrite !mxE normrM exprMn [`|s| ^+ 2]normCK.
have -> : \sum_n ref b f 0 n * ((s *: Y b c f) 0 n)^* = s^* * \sum_n ref b f 0 n * (Y b c f 0 n)^*.
  by rewrite mulr_sumr; apply: eq_bigr => n _; rewrite !mxE rmorphM /=; cring.
have s1 : s^* <> 0 by apply/eqP; rewrite conjC_eq0.
have s2 : s <> 0 by apply/eqP.
have dn : \sum_n `|Y b c f 0 n| ^+ 2 <> 0 by apply/eqP; rewrite gt_eqF.
by cfield.
Qed.
Lemma c36_idem Y ref b c f :
  10%:R ^- 7 <= mean_power (Y b c f) -> 10%:R ^- 7 <= mean_power (minimum_distortion_l2 Y ref b c f) ->
  minimum_distortion_l2 (minimum_distortion_l2 Y ref) ref b c f = minimum_distortion_l2 Y ref b c f.
Proof. by move=> h h'; apply: c36_scale h h'; exact: md_l2E. Qed.

(* ---- phase only *)
Lemma c37_lemma Y ref b c f : let y := Y b c f in let r := ref b f in
  exists u, [/\ minimum_distortion_l2_phase Y ref b c f = u *: y, `|u| <= 1,
   (10%:R ^- 5 <= `|corr r y| -> `|u| = 1) &
   (10%:R ^- 5 <= `|corr r y| -> forall v, `|v| = 1 -> sqerr r (u *: y) <= sqerr r (v *: y))].
Proof.
move=> y r; pose k := corr r y; pose d := clamp `|k| (10%:R ^- 5).
have d0 : 0 < d by rewrite clamp_gt0 ?tenV_gt0 ?ger0_real.
have kr : `|k| \is Num.real by rewrite ger0_real.
have kd : `|k| <= d by rewrite clamp_geR // ger0_real // ltW ?tenV_gt0.
have E : minimum_distortion_l2_phase Y ref b c f = (k / d) *: y.
  apply/rowP=> n; rewrite !mxE ReIm_div mulrC; congr (_ * _).
  have -> : (\sum_n (ref b f 0 n)^* * Y b c f 0 n) / nN%:R = k^*.
    rewrite rmorphM fmorphV rmorph_nat rmorph_sum; congr (_ / _).
    by apply: eq_bigr => m _; rewrite rmorphM conjCK.
  by rewrite -normC2_Re_Im sqrCK // norm_conjC -/d rmorphM fmorphV conjCK (conj_Creal (gtr0_real d0)).
have Un : `|k / d| = `|k| / d by rewrite normf_div (gtr0_norm d0).
exists (k / d); split=> //.
- by rewrite Un ler_pdivr_mulr // mul1r.
- by move=> h; rewrite Un /d clamp_id // mulfV // gt_eqF // (lt_le_trans (tenV_gt0 5)).
- move=> h v v1; have dE : d = `|k| by rewrite /d clamp_id.
  have u1 : `|k / d| = 1 by rewrite Un dE mulfV // gt_eqF // (lt_le_trans (tenV_gt0 5)).
  have kn0 : `|k| != 0 by rewrite gt_eqF // (lt_le_trans (tenV_gt0 5)).
  have n0 : nN%:R != 0 :> C.
    apply: contraNneq kn0 => z; by rewrite /k /corr z invr0 mulr0 normr0.
  have wr (n : 'I_nN) : (const_mx 1 : 'rV[C]_nN) 0 n \is Num.real by rewrite mxE real1.
  rewrite !sqerrE !werrE // u1 v1 ler_add2r -!addrA ler_add2l -!opprD ler_opp2.
  have -> : \sum_n r 0 n * (y 0 n)^* * (const_mx 1 : 'rV[C]_nN) 0 n = nN%:R * k.
    by rewrite corE /k /corr mulrC mulfVK.
  rewrite dE; clearbody k => {E Un u1}; rewrite !rmorphM /= rmorph_nat fmorphV (conj_Creal kr).
  have -> : k^* / `|k| * (nN%:R * k) + k / `|k| * (nN%:R * k^*) = nN%:R * (`|k| *+ 2).
    have kk : k * k^* = `|k| ^+ 2 by rewrite normCK.
    have -> : k^* / `|k| * (nN%:R * k) + k / `|k| * (nN%:R * k^*) = nN%:R * (k * k^* / `|k| *+ 2) by cring.
    by rewrite kk expr2 mulfK.
  have -> : v^* * (nN%:R * k) + v * (nN%:R * k^*) = nN%:R * ('Re (v^* * k) *+ 2).
    have /eqP e2 : 'Re (v^* * k) *+ 2 == v^* * k + (v^* * k)^*.
      by rewrite -mulr_natr ReE mulfVK ?pnatr_eq0.
    by rewrite e2 rmorphM /= conjCK; cring.
  rewrite ler_wpmul2l ?ler0n // ler_muln2r /=.
  rewrite (le_trans (leif_Re_Creal _)) //.
  by rewrite normrM norm_conjC v1 mul1r.
Qed.
End L2.

(* ---- iterative version *)
Section Iter.
Variable C : numClosedFieldType.
Add Field CfieldSBI : (f_ft C).
Ltac cring := fpre; fnorm C; fatoms; ring.
Variable B : finType.
Variables (nC nF nN : nat).
Implicit Types (Y : spec C B nC nF nN) (ref : refs C B nF nN).
Variable pw : C -> C -> C.

Section Run.
Variables (Y : spec C B nC nF nN) (ref : refs C B nF nN).
Variable (W : err_t C B nC nF nN -> err_t C B nC nF nN) (rtol : C).
Definition update (cc : coef C B nC nF) : coef C B nC nF := md_min Y ref (W (md_error Y ref cc)).
Let run := md_loop Y ref (fun E => Ok (W E)) rtol.
Lemma run_some n cc : exists k, [/\ run n (update cc) (Some (update cc)) = Ok (iter k.+1 update cc),
   (k <= n)%N,
   (k < n)%N -> (0 < k)%N /\ small_step (iter k.+1 update cc) (iter k update cc) rtol &
   forall j, (0 < j < k)%N -> ~~ small_step (iter j.+1 update cc) (iter j update cc) rtol].
Proof.
elim: n cc => [|n IH] cc; first by exists 0%N; split=> // j /andP[] _.
rewrite /run /= -/(update (update cc)).
case: ifP => st.
  exists 1%N; split=> // j; case: j => [|j] //.
have [k [h1 h2 h3 h4]] := IH (update cc).
have e j : iter j update (update cc) = update (iter j update cc) by rewrite -iterSr.
exists k.+1; split=> [||kn|[|[|j]]] //.
- by rewrite -/run h1 /= e.
- by have [k0] := h3 kn; rewrite /= !e.
- by rewrite /= st.
- by move=> jk; have := h4 j.+1 jk; rewrite /= !e.
Qed.
Lemma run_lemma n : exists k, [/\ run n [ffun=> 1] None = Ok (iter k update [ffun=> 1]),
   (k <= n)%N, (minn 2 n <= k)%N,
   (k < n)%N -> small_step (iter k update [ffun=> 1]) (iter k.-1 update [ffun=> 1]) rtol &
   forall j, (1 < j < k)%N -> ~~ small_step (iter j update [ffun=> 1]) (iter j.-1 update [ffun=> 1]) rtol].
Proof.
case: n => [|n]; first by exists 0%N; split=> // j; rewrite ltn0 andbF.
rewrite /run /= -/(update _); have [k [h1 h2 h3 h4]] := run_some n [ffun=> 1].
exists k.+1; split=> //.
- case: n h1 h2 h3 => [|n] h1 h2 h3 //.
  have k0 : (0 < k)%N by have [nk|kn] := leqP n.+1 k; [exact: leq_trans nk|have [] := h3 kn].
  exact: leq_trans (geq_minl _ _) _.
- by move=> kn; have [_ ] := h3 kn.
- by move=> [|[|j]] // jk; apply: h4.
Qed.
End Run.

(* the weights for 0 < p < 2 *)
Definition lpw (p : C) (E : err_t C B nC nF nN) : err_t C B nC nF nN :=
  fun b f c => \row_n (p / clamp (2%:R * pw `|E b f c 0 n| (2%:R - p)) (10%:R ^- 5)).
Lemma lpE E p : 0 < p -> p < 2%:R -> lp_norm pw E p = Ok (lpw p E).
Proof. by rewrite /lp_norm => -> ->. Qed.
Lemma md_loop_ext Y ref wf wf' rtol n cc pr : (forall E, wf E = wf' E) ->
  md_loop Y ref wf rtol n cc pr = md_loop Y ref wf' rtol n cc pr.
Proof.
move=> h; elim: n cc pr => [|n IH] cc pr //=; rewrite h; case: (wf' _) => //= w.
by case: pr => [a|] //; case: ifP.
Qed.
Lemma md_dispatch_l2 Y ref p q rtol n :
  p = None \/ (p = Some 2%:R /\ (q = None \/ q = Some 2%:R)) ->
  minimum_distortion pw Y ref p q rtol n = Ok (minimum_distortion_l2 Y ref).
Proof. by rewrite /minimum_distortion; case=> [->|[-> [->|->]]] //; rewrite !eqxx. Qed.
Lemma md_bad Y ref p q rtol n :
  match q with
  | None => ~~ ((0 < p) && (p <= 2%:R))
  | Some q => ~~ [&& 0 < p, p <= q & q <= 2%:R]
  end -> minimum_distortion pw Y ref (Some p) q rtol n.+1 = Err AssertionError.
Proof.
rewrite /minimum_distortion /lp_norm /lpq_norm.
case: q => [q|] bad.
  case: ifP => [/andP[/eqP p2 /eqP pq]|_] /=.
    by move: bad; rewrite -pq p2 lexx ltr0n.
  case: eqP => [pq|_]; last by rewrite (negbTE bad).
  by case: ifP => // /andP[h1 h2]; move: bad; rewrite -pq h1 lexx (ltW h2).
case: ifP => [|_] /=; first by rewrite andbT => /eqP p2; move: bad; rewrite p2 ltr0n lexx.
by case: ifP => // /andP[h1 h2]; move: bad; rewrite h1 (ltW h2).
Qed.
Lemma md_lp Y ref p q rtol n : 0 < p -> p < 2%:R -> q = None \/ q = Some p ->
  let U := update Y ref (lpw p) in
  exists k out, [/\ minimum_distortion pw Y ref (Some p) q rtol n = Ok out /\
     (forall b c f, out b c f = iter k U [ffun=> 1] (b, f, c) *: Y b c f),
   (k <= n)%N, (minn 2 n <= k)%N,
   (k < n)%N -> small_step (iter k U [ffun=> 1]) (iter k.-1 U [ffun=> 1]) rtol &
   forall j, (1 < j < k)%N -> ~~ small_step (iter j U [ffun=> 1]) (iter j.-1 U [ffun=> 1]) rtol].
Proof.
move=> p0 p2 hq U; rewrite /minimum_distortion (lt_eqF p2) /=.
set wf := (X in md_loop _ _ X); have wE E : wf E = Ok (lpw p E).
  by rewrite /wf; case: hq => ->; rewrite ?eqxx lpE.
rewrite (md_loop_ext _ _ _ _ _ _ wE).
have [k [-> h2 h3 h4 h5]] := run_lemma Y ref (lpw p) rtol n.
exists k; eexists; split=> //=; split=> // b c f.
by apply/rowP=> m; rewrite !mxE mulrC.
Qed.

Lemma fro_ge0 (x : coef C B nC nF) : 0 <= fro x.
Proof. by rewrite sqrtC_ge0 sumr_ge0 // => i _; rewrite exprn_ge0. Qed.
Lemma fro2 (x : coef C B nC nF) : fro x ^+ 2 = \sum_i `|x i| ^+ 2. Proof. by rewrite sqrtCK. Qed.
Lemma small_stepE (x pr : coef C B nC nF) rtol : 0 <= rtol ->
  small_step x pr rtol = rel_small x pr rtol.
Proof.
move=> t0; rewrite /small_step /rel_small -fro2.
have -> : \sum_i `|x i - pr i| ^+ 2 = fro [ffun i => x i - pr i] ^+ 2.
  by rewrite fro2; apply: eq_bigr => i _; rewrite ffunE.
case: eqP => [->|/eqP n0] /=.
  by rewrite expr0n mulr0 real_exprn_even_lt0 // ger0_real // fro_ge0.
have p0 : 0 < fro pr by rewrite lt_def n0 fro_ge0.
rewrite ltr_pdivr_mulr // -exprMn ltr_pexpn2r // ?nnegrE ?fro_ge0 // mulr_ge0 // ltW //.
Qed.

Lemma lpw_weights p Y ref (cc : coef C B nC nF) b f c :
  lpw p (md_error Y ref cc) b f c = lp_weights pw p (ref b f) (Y b c f) (cc (b, f, c)).
Proof. by apply/rowP=> n; rewrite !mxE. Qed.
Lemma updE p Y ref (cc : coef C B nC nF) b f c : let r := ref b f in let y := Y b c f in
  let w := lp_weights pw p r y (cc (b, f, c)) in
  update Y ref (lpw p) cc (b, f, c) = (\sum_n r 0 n * (y 0 n)^* * w 0 n) / clamp (weighted_power w y) (10%:R ^- 5).
Proof. by rewrite /update ffunE lpw_weights. Qed.
Lemma lp_weights_gt0 p r y z n : (forall x t, 0 <= x -> 0 <= pw x t) -> 0 < p -> 0 < lp_weights pw p (r : 'rV[C]_nN) y z 0 n.
Proof.
move=> pw0 p0; rewrite mxE divr_gt0 // -[X in 0 < X]/(clamp _ _) clamp_gt0 ?tenV_gt0 //.
by rewrite ger0_real // mulr_ge0 ?ler0n // pw0.
Qed.
Lemma irls_stepE (w r y : 'rV[C]_nN) : (forall n, 0 < w 0 n) ->
  irls_step w r y ((\sum_n r 0 n * (y 0 n)^* * w 0 n) / clamp (weighted_power w y) (10%:R ^- 5)).
Proof.
move=> w0; have w1 n : 0 <= w 0 n by apply: ltW.
split=> h.
  move=> z; rewrite clamp_id // => ne.
  have D0 : 0 < weighted_power w y by apply: lt_le_trans (tenV_gt0 C 5) h.
  rewrite (@werr_min _ _ w r y z w1 D0) ltr_addl mulr_gt0 // exprn_gt0 // normr_gt0 subr_eq0 //.
by rewrite /clamp h mulfVK // gt_eqF // tenV_gt0.
Qed.

(* everything about a run with 0 < p < 2 *)
Lemma c38_run Y ref p q rtol n : (forall x t, 0 <= x -> 0 <= pw x t) ->
  0 < p -> p < 2%:R -> q = None \/ q = Some p -> 0 <= rtol ->
  exists (cs : nat -> B * 'I_nF * 'I_nC -> C) k out,
   [/\ minimum_distortion pw Y ref (Some p) q rtol n = Ok out /\
       (forall b c f, out b c f = cs k (b, f, c) *: Y b c f),
     (minn 2 n <= k <= n)%N, (forall i, cs 0%N i = 1),
     (forall j b f c, irls_step (lp_weights pw p (ref b f) (Y b c f) (cs j (b, f, c))) (ref b f) (Y b c f) (cs j.+1 (b, f, c))) &
     ((k < n)%N -> rel_small (cs k) (cs k.-1) rtol) /\
     (forall j, (1 < j < k)%N -> ~~ rel_small (cs j) (cs j.-1) rtol)].
Proof.
move=> pw0 p0 p2 hq t0; have [k [out [h1 h2 h3 h4 h5]]] := md_lp Y ref rtol n p0 p2 hq.
exists (fun j i => iter j (update Y ref (lpw p)) [ffun=> 1] i), k, out; split=> //.
- by rewrite h3.
- by move=> i; rewrite ffunE.
- move=> j b f c; rewrite iterS updE; apply: irls_stepE => m; exact: lp_weights_gt0.
- by split=> [kn|j jk]; rewrite -small_stepE //; [apply: h4|apply: h5].
Qed.

(* descent for p = 1 *)
Lemma l1_descent (r y : 'rV[C]_nN) z z' : (forall x, 0 <= x -> pw x 1 = x) ->
  let w := lp_weights pw 1 r y z in
  10%:R ^- 5 <= weighted_power w y -> irls_step w r y z' ->
  l1_error (10%:R ^- 5) r y z' <= l1_error (10%:R ^- 5) r y z.
Proof.
move=> pw1 w h [/(_ h) st _]; have e0 := tenV_gt0 C 5.
have wE n : w 0 n = (clamp (2%:R * `|r 0 n - z * y 0 n|) (10%:R ^- 5))^-1.
  have t1 : 2%:R - 1 = 1 :> C by rewrite mulr2n addrK.
  by rewrite mxE; cbv zeta; rewrite t1 pw1 // div1r.
have le : werr w r y z' <= werr w r y z.
  by have [->|ne] := eqVneq z z' => //; apply: ltW; exact: st.
apply: (@le_trans _ _ (l1_error (10%:R ^- 5) r y z + (werr w r y z' - werr w r y z))).
  rewrite /l1_error /werr -sumrB -big_split; apply: ler_sum => n _ /=.
  rewrite -mulrBr wE; apply: soft_abs_mm => //.
by rewrite ger_addl subr_le0.
Qed.
End Iter.

(* ---- elements of a batch share only the number of iterations *)
Section Slice.
Variable C : numClosedFieldType.
Variable B : finType.
Variables (nC nF nN : nat) (pw : C -> C -> C).
Variables (Y : spec C B nC nF nN) (ref : refs C B nF nN) (p : C).
Lemma slice_iter b k f c : iter k (update Y ref (lpw pw p)) [ffun=> 1] (b, f, c) =
  iter k (update (fun _ : unit => Y b) (fun _ => ref b) (lpw pw p)) [ffun=> 1] (tt, f, c).
Proof. by elim: k => [|k IH]; [rewrite !ffunE|rewrite !iterS !updE IH]. Qed.
Lemma slice_lemma q rtol n : 0 < p -> p < 2%:R -> q = None \/ q = Some p ->
  exists k, (k <= n)%N /\ forall b, exists out out1,
    [/\ minimum_distortion pw Y ref (Some p) q rtol n = Ok out,
        minimum_distortion pw (fun _ : unit => Y b) (fun _ => ref b) (Some p) q 0 k = Ok out1 &
        forall c f, out b c f = out1 tt c f].
Proof.
move=> p0 p2 hq; have [k [out [[h1 h1'] h2 h3 h4 h5]]] := md_lp pw Y ref rtol n p0 p2 hq.
exists k; split=> // b.
have [k' [out1 [[e1 e1'] e2 e3 e4 e5]]] := md_lp pw (fun _ : unit => Y b) (fun _ => ref b) 0 k p0 p2 hq.
exists out, out1; split=> // c f; rewrite h1' e1' slice_iter.
suff -> : k' = k by [].
apply/eqP; rewrite eqn_leq e2 /= leqNgt; apply/negP => /e4.
rewrite small_stepE // /rel_small expr0n mul0r => /lt_geF; rewrite sumr_ge0 // => i _; exact: exprn_ge0.
Qed.
End Slice.

(* ---- projection back *)
Section PB.
Variable C : numClosedFieldType.
Variable B : finType.
Variables (nC nF nN : nat).
Variable argsort : ('I_nN -> C) -> {perm 'I_nN}.
Variables (Y : spec C B nC nF nN) (ref : refs C B nF nN).
Lemma pb_few : (nN < nC)%N -> projection_back argsort Y ref = Err RuntimeError.
Proof.
move=> h; rewrite /projection_back.
move: (erefl (nC <= nN)%N); case: {2 3}(nC <= nN)%N => // e; have := e; by rewrite leqNgt h.
Qed.
Lemma pb_open (h : (nC <= nN)%N) : projection_back argsort Y ref =
  (let sel b := last_frames h (argsort (frame_mag Y b)) in
      let* cc := gather (0 : 'cV[C]_nC) (fun bf : B * 'I_nF => let: (b, f) := bf in
         torch_solve (pb_system Y (sel b) b f + (10%:R ^- 5) *: 1%:M)
                     (\col_j ref b f 0 (sel b j))) in
      Ok (fun b c f => \row_n (Y b c f 0 n * cc (b, f) c 0))).
Proof.
rewrite /projection_back; move: (erefl (nC <= nN)%N).
case: {2 3}(nC <= nN)%N => [e|e]; last by have := e; rewrite h.
by rewrite (bool_irrelevance e h).
Qed.
Lemma frame_mag_real b n : frame_mag Y b n \is Num.real.
Proof.
rewrite rpred_sum // => f _; rewrite rpred_sum // => c _; by rewrite magE ger0_real.
Qed.
Lemma pb_lemma : (nC <= nN)%N -> sorts argsort ->
  exists sel : B -> 'I_nC -> 'I_nN,
  [/\ forall b, injective (sel b),
      forall b n j, (forall j', sel b j' != n) -> frame_mag Y b n <= frame_mag Y b (sel b j),
      ((forall b f, (\matrix_(j, c) Y b c f 0 (sel b j) + (10%:R ^- 5)%:M : 'M[C]_nC) \in unitmx) ->
       exists out (a : B -> 'I_nF -> 'I_nC -> C), [/\ projection_back argsort Y ref = Ok out,
          forall b c f, out b c f = a b f c *: Y b c f &
          forall b f j, \sum_c out b c f 0 (sel b j) = ref b f 0 (sel b j) - 10%:R ^- 5 * a b f j]) &
      forall b f, (\matrix_(j, c) Y b c f 0 (sel b j) + (10%:R ^- 5)%:M : 'M[C]_nC) \notin unitmx ->
       projection_back argsort Y ref = Err LinAlgError].
Proof.
move=> h so; pose sel b := last_frames h (argsort (frame_mag Y b)); exists sel.
split.
- by move=> b j j' /perm_inj /cast_ord_inj /rshift_inj.
- move=> b n j hn.
  pose i : 'I_nN := (argsort (frame_mag Y b))^-1%g n.
  have iE : argsort (frame_mag Y b) i = n by rewrite permKV.
  rewrite -iE /sel /last_frames; apply: so; first exact: frame_mag_real.
  rewrite /= leqNgt; apply/negP => lt.
  have i1 : (i - (nN - nC) < nC)%N by rewrite ltn_subLR ?subnK // (leq_trans _ (ltnW lt)) // leq_addr.
  case/eqP: (hn (Ordinal i1)); rewrite -iE /sel /last_frames; congr (_ _).
  by apply: val_inj => /=; rewrite subnKC // (leq_trans _ (ltnW lt)) // leq_addr.
- move=> uA; rewrite (pb_open h) -/sel; cbv zeta.
  set g := (X in gather _ X).
  have gE b f : g (b, f) = Ok (invmx (pb_system Y (sel b) b f + (10%:R ^- 5)%:M) *m (\col_j ref b f 0 (sel b j))).
    by rewrite /g scalemx1 torch_solveE //; exact: uA.
  have ok i : is_ok (g i) by case: i => b f; rewrite gE.
  case E: (gather 0 g) => [r|e]; last by move: (gather_total 0 ok); rewrite E.
  eexists; exists (fun b f c => r (b, f) c 0); split=> // [b c f|b f j].
    by apply/rowP=> n; rewrite !mxE mulrC.
  have := gather_inv E (b, f); rewrite gE => -[rE].
  have /matrixP /(_ j 0) : (pb_system Y (sel b) b f + (10%:R ^- 5)%:M) *m r (b, f) = \col_j ref b f 0 (sel b j).
    by rewrite -rE mulKVmx //; exact: uA.
  rewrite mulmxDl mxDE mul_scalar_mx mxZE [X in _ = X]mxE => <-; rewrite addrK [RHS]mxE.
  by apply: eq_bigr => c _; rewrite !mxE.
- move=> b f sg; rewrite (pb_open h) -/sel; cbv zeta.
  set g := (X in gather _ X).
  have hg : g (b, f) = Err LinAlgError by rewrite /g scalemx1 /torch_solve (negbTE sg).
  have [[b' f'] [e [-> ]]] := gather_err 0 hg.
  by rewrite /g /torch_solve; case: ifP => // _ [<-].
Qed.
End PB.
