(* A quiet recording on which an iteration of AuxIVA_IP2 increases the cost (C77). *)
From Coq Require Import Ring Field.
From mathcomp Require Import all_ssreflect all_algebra.
From Verif Require Import CAlg Py Batch LinalgModel LinalgSpec LinalgProofs LinalgBridge.
From Verif Require Import TissModel TissSpec TissProofs2 SrcModel SrcSpec CostModel CostSpec CostProofs IvaModel IvaSpec IvaProofs IvaOpt IvaBridge IpCostRefute Ip2CostSpec Ip2CostEx.
Set Implicit Arguments. Unset Strict Implicit. Unset Printing Implicit Defensive.
Import GRing.Theory Num.Theory Order.TTheory.
Local Open Scope ring_scope.

Section Q.
Variable C : numClosedFieldType.
Add Field Cfield_ip2q : (f_ft C).
Ltac cring := fpre; fnorm C; fatoms; ring.
Ltac cfield := fpre; fnorm C; fatoms; field.
Ltac cf := cfield; repeat split; first [exact (@t1 C) | exact (@t2 C) | exact (@t3 C) | exact (@t4 C)].
Lemma clamp_lo (x lo : C) : x <= lo -> clamp x lo = lo.
Proof. by rewrite /clamp le_eqVlt => /orP[/eqP ->|->]; rewrite ?ltxx. Qed.
Section Rows.
Variables (a11 a12 a22 b11 b22 eps : C).
Hypotheses (ra : a11 \is Num.real) (rb : a12 \is Num.real) (rc : a22 \is Num.real)
  (rd : b11 \is Num.real) (re : b22 \is Num.real) (e0 : 0 < eps).
Let b := a11 * b22 + a22 * b11.
Hypothesis dB : b11 * b22 <= eps.
Hypothesis dd : b ^+ 2 - 4%:R * ((a11 * a22 - a12 ^+ 2) * (b11 * b22)) <= eps.
Let l (k : 'I_2) := (b + (-1) ^+ k * sqrtC eps) / (2%:R * eps).
Lemma ip2_rows : exists c : 'I_2 -> C, (forall k, 0 < c k) /\
  hermite (ip2_eigvec (mx22 b11 0 0 b22) (mx22 a11 a12 a12 a22) eps)
  = \matrix_(k, i) (c k * if i == i0 then - a12 else a11 - l k * b11).
Proof.
have er : eps \is Num.real by rewrite gtr0_real.
have sr : sqrtC eps \is Num.real by rewrite ger0_real // sqrtC_ge0 ltW.
have lr k : l k \is Num.real.
  by rewrite /l /b !(rpredM, rpredD, rpredV, rpredX, rpredN, rpred1, rpred_nat).
have gE : geigh_2x2 (mx22 a11 a12 a12 a22) (mx22 b11 0 0 b22) eps
  = ((fun k => if k == i0 then l i1 else l i0),
     normalize_cols (mx22 (- a12) (- a12) (a11 - l i1 * b11) (a11 - l i0 * b11)) eps).
  rewrite /geigh_2x2 !mx22_00 !mx22_01 !mx22_11 !mag_sqE normr0 expr0n /= subr0.
  rewrite !(Creal_ReP _ ra) !(Creal_ReP _ rc) !(Creal_ReP _ rd) !(Creal_ReP _ re) !(Creal_ReP _ rb).
  rewrite !(Creal_ReP _ (rpred0 _)) !(Creal_ImP _ (rpred0 _)) !(Creal_ImP _ rb) !mulr0 addr0 mulr0 subr0 -/b.
  rewrite real_normK // (clamp_lo dd) (clamp_lo dB) !sub0r.
  have h1 : 1 / 2%:R * (b - sqrtC eps) / eps = l i1.
    by rewrite /l expr1 mulN1r invfM div1r [RHS]mulrCA mulrA.
  have h0 : 1 / 2%:R * (b + sqrtC eps) / eps = l i0.
    by rewrite /l expr0 !mul1r invfM [RHS]mulrCA mulrA.
  by rewrite h0 h1.
pose g (k i : 'I_2) := if i == i0 then - a12 else a11 - l k * b11.
have gr k i : g k i \is Num.real by rewrite /g; case: ifP => _; rewrite ?rpredN // rpredB // rpredM.
pose nk k := clamp (sqrtC (mag_sq (g k i0) + mag_sq (g k i1))) eps.
have np k : 0 < nk k.
  by apply: clamp_gt0 => //; rewrite ger0_real // sqrtC_ge0 addr_ge0 // mag_sqE exprn_ge0.
rewrite /ip2_eigvec gE /=.
set F : 'M[C]_2 := \matrix_(i, k) normalize_cols _ _ i (rev_ord k).
have FE i k : F i k = g k i / nk k.
  by move: i k; apply: ord2P; apply: ord2P; rewrite !mxE /divide.
pose s (k : 'I_2) := `|\sum_i (F i k)^* * (\sum_j (if k == i0 then mx22 b11 0 0 b22 else mx22 a11 a12 a12 a22) i j * F j k)|.
have sE k : s k \is Num.real by rewrite normr_real.
pose d k := clamp (sqrtC (clamp (s k) (10%:R ^- 7))) eps.
have dp k : 0 < d k.
  apply: clamp_gt0 => //; rewrite ger0_real // sqrtC_ge0 ltW // clamp_gt0 //.
  by rewrite invr_gt0 exprn_gt0 // ltr0n.
exists (fun k => (nk k)^-1 / d k); split=> [k|]; first by rewrite divr_gt0 ?invr_gt0.
apply/matrixP => k i; rewrite [LHS]mxE [RHS]mxE [X in X^* = _]mxE [X in X^* = _]mxE -/(s k) -/(d k) FE -/(g k i).
have r : g k i / nk k / d k \is Num.real.
  by apply: rpredM; [apply: rpredM => //|]; rewrite rpredV gtr0_real.
by rewrite (CrealP r) mulrC mulrCA mulrA mulrAC [RHS]mulrC mulrA mulrAC.
Qed.
End Rows.

Section Wit.
Variables (a eps em : C).
Hypotheses (a0 : 0 < a) (e0 : 0 < eps) (e1 : eps <= 10%:R^-1) (ma : em <= 2%:R * a)
  (pa : 10%:R ^- 5 <= a ^+ 2) (qa : 225%:R * a ^+ 6 <= 128%:R * eps).
Let X : sig C 1 2 2 := [ffun=> eX C].
Let Z : sig C 1 2 2 := [ffun=> a *: eX C].
Lemma fnZ s n : frame_norm Z s n = a * frame_norm X s n.
Proof.
rewrite /frame_norm !big_ord1 !ffunE mxZE normrM (gtr0_norm a0).
by rewrite !sqrCK ?normr_ge0 // mulr_ge0 // ltW.
Qed.
Lemma mpZ s : mean_pow Z s = a ^+ 2 * mean_pow X s.
Proof.
rewrite /mean_pow !big_ord1 mulrA mulr_sumr; congr (_ / _); apply: eq_bigr => n _.
by rewrite !ffunE mxZE normrM (gtr0_norm a0) exprMn.
Qed.
Lemma covZ f s : ip2_cov Z Z f s = a ^+ 3 *: ip2_cov X X f s.
Proof.
have mp1' : 1 <= mean_pow X s.
  move: s; apply: ord2P; rewrite /mean_pow big_ord1 sum2 !ffunE !norm_eX /= expr1n ler_pdivl_mulr ?ltr0n // mul1r ?lexx //.
  by rewrite -natrX -(natrD _ 1) ler_nat.
have h1 : Num.max (mean_pow X s) (10%:R ^- 5) = mean_pow X s by apply: clamp_id; exact: le_trans (c5_le1 C) mp1'.
have h2 : Num.max (mean_pow Z s) (10%:R ^- 5) = a ^+ 2 * mean_pow X s.
  rewrite mpZ; apply: clamp_id; apply: (le_trans pa); rewrite -[X in X <= _]mulr1 ler_pmul2l ?exprn_gt0 //.
rewrite /ip2_cov h1 h2 [RHS]scalerA [X in _ = X *: _]mulrC -[RHS]scalerA; congr (_ *: _); apply/matrixP => i j.
rewrite !mxE mulr_sumr; apply: eq_bigr => n _; rewrite !ffunE !mxE fnZ rmorphM /= (CrealP (gtr0_real a0)).
have an := lt0r_neq0 a0.
have fn : frame_norm X s n != 0 by rewrite fn_eX; case: ifP => _; rewrite ?nz ?oner_eq0.
move: (frame_norm X s n) fn (mean_pow X s) (eX C i n) ((eX C j n)^*) => r rn m x y.
cfield; repeat split; [exact/eqP|exact (@t1 C)|exact/eqP].
Qed.
Let t := a ^+ 3.
Let e := sqrtC eps.
Let b := 135%:R / 64%:R * t ^+ 2.
Let y (k : 'I_2) := 5%:R - 15%:R / 4%:R * ((b + (-1) ^+ k * e) / eps).
Lemma tp : 0 < t. Proof. by rewrite exprn_gt0. Qed.
Lemma dBle : 225%:R / 128%:R * t ^+ 2 <= eps.
Proof. by rewrite mulrAC ler_pdivr_mulr ?ltr0n // [eps * _]mulrC -exprM. Qed.
Lemma ble : b <= 6%:R / 5%:R * eps.
Proof.
have -> : b = 6%:R / 5%:R * (225%:R / 128%:R * t ^+ 2).
  rewrite /b mulrA; congr (_ * _); rewrite mulf_div -!natrM.
  by apply: (canRL (mulfK (nz C _))); rewrite mulrAC -natrM; apply: (canLR (mulfK (nz C _))); rewrite -natrM.
by rewrite ler_pmul2l ?dBle // divr_gt0 ?ltr0n.
Qed.
Lemma quiet_W : exists c : 'I_2 -> C, (forall k, 0 < c k) /\
  forall f, hermite (ip2_eigvec (ip2_cov Z Z f i0) (ip2_cov Z Z f i1) eps)
  = \matrix_(k, i) (c k * if i == i0 then 1 else y k).
Proof.
have tr : t \is Num.real := gtr0_real tp.
have E0 f : ip2_cov Z Z f i0 = mx22 (15%:R / 8%:R * t) 0 0 (15%:R / 16%:R * t).
  rewrite covZ cov0 -/t; apply/matrixP; apply: ord2P; apply: ord2P; by rewrite !mxE /= ?mulr0 // mulrC.
have E1 f : ip2_cov Z Z f i1 = mx22 (5%:R / 4%:R * t) (- (4%:R^-1 * t)) (- (4%:R^-1 * t)) (2%:R^-1 * t).
  rewrite covZ cov1 -/t; apply/matrixP; apply: ord2P; apply: ord2P; by rewrite !mxE /= ?mulrN // mulrC.
have s128 : 128%:R^-1 = 16%:R^-1 * 8%:R^-1 :> C by rewrite -invfM -natrM.
have s64 : 64%:R^-1 = 16%:R^-1 * 4%:R^-1 :> C by rewrite -invfM -natrM.
have bE : 5%:R / 4%:R * t * (15%:R / 16%:R * t) + 2%:R^-1 * t * (15%:R / 8%:R * t) = b.
  by rewrite /b s64; move: (t) => z; cf.
have b0 : 0 <= b by rewrite mulr_ge0 ?divr_ge0 ?ler0n // exprn_ge0 // ltW ?tp.
have rl x : 0 <= x -> x * t \is Num.real by move=> h; rewrite ger0_real // mulr_ge0 // ltW ?tp.
have [||||||||c [cp cE]] := @ip2_rows (5%:R / 4%:R * t) (- (4%:R^-1 * t)) (2%:R^-1 * t) (15%:R / 8%:R * t) (15%:R / 16%:R * t) eps.
- by apply: rl; rewrite ?divr_ge0 ?invr_ge0 ?ler0n.
- by rewrite rpredN; apply: rl; rewrite ?divr_ge0 ?invr_ge0 ?ler0n.
- by apply: rl; rewrite ?divr_ge0 ?invr_ge0 ?ler0n.
- by apply: rl; rewrite ?divr_ge0 ?invr_ge0 ?ler0n.
- by apply: rl; rewrite ?divr_ge0 ?invr_ge0 ?ler0n.
- exact: e0.
- have -> : 15%:R / 8%:R * t * (15%:R / 16%:R * t) = 225%:R / 128%:R * t ^+ 2; last exact: dBle.
  have -> : 225%:R = 15%:R * 15%:R :> C by rewrite -natrM.
  by rewrite s128; move: (t) (15%:R : C) => z w; cf.
- rewrite bE; apply: (@le_trans _ _ (b ^+ 2)).
    rewrite ler_subl_addr ler_addl; apply: mulr_ge0; first exact: ler0n.
    have -> : 5%:R / 4%:R * t * (2%:R^-1 * t) - (- (4%:R^-1 * t)) ^+ 2 = 9%:R / 16%:R * t ^+ 2.
      by move: (t) => z; cf.
    have t0 : 0 <= t := ltW tp.
    apply: mulr_ge0; apply: mulr_ge0; try exact: exprn_ge0.
    - by rewrite divr_ge0 ?ler0n.
    - by apply: mulr_ge0 => //; rewrite divr_ge0 ?ler0n.
    - by apply: mulr_ge0 => //; rewrite divr_ge0 ?ler0n.
  have h2 : b <= 2%:R * eps.
    apply: (le_trans ble); rewrite ler_pmul2r //; have := @fr C 6 5 2 1; rewrite divr1; exact.
  have h1 : b <= 2%:R^-1.
    apply: (le_trans h2); apply: (@le_trans _ _ (2%:R * 10%:R^-1)); first by rewrite ler_pmul2l ?ltr0n.
    by rewrite -[X in _ <= X]div1r; exact: (@fr C 2 10 1 2).
  have := ler_pmul b0 b0 h1 h2; by rewrite mulKf ?nz // -expr2.
exists (fun k => c k * (4%:R^-1 * t)); split=> [k|f]; first by rewrite mulr_gt0 // mulr_gt0 ?tp // invr_gt0 ltr0n.
rewrite E0 E1 cE bE; apply/matrixP => k i; rewrite !mxE -[RHS]mulrA; congr (_ * _); rewrite opprK; case: ifP => _; first by rewrite mulr1.
have en := lt0r_neq0 e0.
rewrite /y /e invfM; move: (b + _ * _) (t) (eps^-1) => z w v; by cf.
Qed.
Lemma e_le : e <= 5%:R / 12%:R.
Proof.
have ep : 0 <= e by rewrite sqrtC_ge0 ltW.
rewrite -(@ler_pexpn2r _ 2) ?nnegrE ?divr_ge0 ?ler0n // sqrtCK; apply: (le_trans e1).
by rewrite expr_div_n -!natrX -[X in X <= _]div1r; exact: (@fr C 1 10).
Qed.
Lemma e_gt0 : 0 < e. Proof. by rewrite sqrtC_gt0. Qed.
Lemma u_ge : 12%:R / 5%:R <= e^-1.
Proof. by rewrite -[X in X <= _]invrK lef_pinv ?posrE ?e_gt0 ?invr_gt0 ?divr_gt0 ?ltr0n // invf_div e_le. Qed.
Lemma y0_le : 4%:R <= - y i0.
Proof.
have b0 : 0 <= b by rewrite mulr_ge0 ?divr_ge0 ?ler0n // exprn_ge0 // ltW ?tp.
rewrite /y expr0 mul1r opprB ler_subr_addr -natrD mulrDl.
have -> : e / eps = e^-1 by rewrite -[eps]sqrtCK -/e expr2 invfM mulrA mulfV ?mul1r // gt_eqF ?e_gt0.
apply: (@le_trans _ _ (15%:R / 4%:R * (12%:R / 5%:R))).
  by rewrite mulf_div -!natrM ler_pdivl_mulr ?ltr0n // -natrM ler_nat.
rewrite ler_pmul2l ?divr_gt0 ?ltr0n //; apply: (le_trans u_ge); rewrite ler_addr divr_ge0 // ltW //.
Qed.
Lemma y1_ge : 4%:R <= y i1.
Proof.
rewrite /y expr1 mulN1r mulrBl mulrBr opprB addrCA.
have -> : e / eps = e^-1 by rewrite -[eps]sqrtCK -/e expr2 invfM mulrA mulfV ?mul1r // gt_eqF ?e_gt0.
have h1 : 15%:R / 4%:R * (b / eps) <= 5%:R.
  apply: (@le_trans _ _ (15%:R / 4%:R * (6%:R / 5%:R))).
    by rewrite ler_pmul2l ?divr_gt0 ?ltr0n // ler_pdivr_mulr // ble.
  by rewrite mulf_div -!natrM ler_pdivr_mulr ?ltr0n // -natrM ler_nat.
have h2 : 4%:R <= 15%:R / 4%:R * e^-1.
  apply: (@le_trans _ _ (15%:R / 4%:R * (12%:R / 5%:R))).
    by rewrite mulf_div -!natrM ler_pdivl_mulr ?ltr0n // -natrM ler_nat.
  by rewrite ler_pmul2l ?divr_gt0 ?ltr0n ?u_ge.
by apply: (le_trans h2); rewrite ler_addl subr_ge0.
Qed.
Lemma key : 6%:R * (y i1 - y i0) < (1 - y i0 - y i0) * (y i1 + y i1 - 1).
Proof.
have h0 := y0_le; have h1 := y1_ge; move: (y i0) (y i1) h0 h1 => p q h0 h1.
rewrite -subr_gt0.
have -> : (1 - p - p) * (q + q - 1) - 6%:R * (q - p) = 4%:R * ((- p - 1) * (q - 2%:R)) - 9%:R.
  by cring.
have g0 : 3%:R <= - p - 1 by rewrite ler_subr_addr -(natrD _ 3 1).
have g1 : 2%:R <= q - 2%:R by rewrite ler_subr_addr -natrD.
have := ler_pmul (ler0n C 3) (ler0n C 2) g0 g1; rewrite -natrM => g2.
rewrite subr_gt0; apply: (@lt_le_trans _ _ (4%:R * 6%:R)); last by rewrite ler_pmul2l ?ltr0n.
by rewrite -natrM ltr_nat.
Qed.
Lemma absums : `|1 + y i0| + `|2%:R - y i0| = 1 - y i0 - y i0 /\ `|1 + y i1| + `|2%:R - y i1| = y i1 + y i1 - 1.
Proof.
have h0 := y0_le; have h1 := y1_ge; move: (y i0) (y i1) h0 h1 => p q h0 h1; split.
  rewrite ler0_norm; last by rewrite -oppr_ge0 opprD addrC subr_ge0; apply: le_trans h0; rewrite ler1n.
  rewrite ger0_norm; last by rewrite addr_ge0 ?ler0n //; apply: le_trans h0; exact: ler0n.
  by cring.
rewrite ger0_norm; last by rewrite addr_ge0 ?ler01 //; apply: le_trans h1; exact: ler0n.
rewrite ler0_norm; last by rewrite subr_le0; apply: le_trans h1; rewrite ler_nat.
by cring.
Qed.
Variable lg : C -> C.
Hypothesis ll : log_like lg.
Hypothesis lm : log_mul lg.
Hypothesis m0 : 0 < em.
Local Notation cost Y W := (laplace_cost_si lg Y (fun f => W f : 'M[C]_(2 + 0))).
Lemma quiet_cost : exists (Y' : sig C 1 2 2) (W : 'I_1 -> 'M[C]_2),
  [/\ ip2_forward (laplace_model em) Z eps 1 None tt = (Y', tt), forall f, Y' f = W f *m Z f,
      forall f, \det (W f) != 0 & cost Z (fun=> 1%:M) < cost Y' W].
Proof.
have hu s n : em <= 2%:R * frame_norm Z s n.
  rewrite fnZ fn_eX; apply: (le_trans ma); case: ifP => _; rewrite ?mulr1 // ler_pmul2l ?ltr0n // ler_pemulr ?ler1n // ltW //.
have [Y' [W [out [h1 _ h3 h4 _]]]] := @ip2_step C 1 2 _ (laplace_model em) Z eps 0 (0 : 'I_2) tt Z tt erefl.
exists Y', W.
have wE f s k : (laplace_model em tt Z).1 f s k = (2%:R * frame_norm Z s k)^-1.
  rewrite /= ffunE mxE -(clamp_id (hu s k)) /laplace !mxE div1r.
  by congr (clamp (_ * sqrtC _) _)^-1; apply: eq_bigr => g _; rewrite mag_sqE mxE.
have rp s k : 0 < 2%:R * frame_norm Z s k := lt_le_trans m0 (hu s k).
have mx s : 0 <= Num.max (mean_pow Z s) (10%:R ^- 5).
  have mp : mean_pow Z s \is Num.real.
    apply/ger0_real; apply: divr_ge0; last exact: ler0n.
    by apply: sumr_ge0 => h _; apply: sumr_ge0 => j _; apply: exprn_ge0.
  by apply/ltW; apply: (clamp_gt0 mp); rewrite invr_gt0 exprn_gt0 // ltr0n.
have VE f s : ip2_V (Z f) (ip2_w (laplace_model em tt Z).1 Z f) s = ip2_cov Z Z f s.
  rewrite ip2_VE => [|k n]; last by rewrite mxE wE mulr_ge0 // invr_ge0 ltW.
  by congr (_ *: _); apply/matrixP => c d; rewrite !mxE; apply: eq_bigr => k _; rewrite mxE wE.
have [c [cp cE]] := quiet_W.
have WE f : W f = \matrix_(k, i) (c k * if i == i0 then 1 else y k) by rewrite h4 !VE cE.
have dW f : \det (W f) = c i0 * c i1 * (y i1 - y i0).
  by rewrite WE detE /det2 !mxE /=; move: (y i0) (y i1) => p q; cring.
have dy : 0 < y i1 - y i0.
  by rewrite addr_gt0 //; [apply: lt_le_trans y1_ge|apply: lt_le_trans y0_le]; rewrite ltr0n.
have dp : 0 < c i0 * c i1 * (y i1 - y i0) by rewrite !mulr_gt0.
have fE k n : frame_norm Y' k n = c k * a * `|eX C i0 n + y k * eX C i1 n|.
  rewrite /frame_norm big_ord1 sqrCK ?normr_ge0 // h3 WE mul2E !mxE /= !ffunE !mxZE.
  have -> : c k * 1 * (a * eX C i0 n) + c k * y k * (a * eX C i1 n) = c k * a * (eX C i0 n + y k * eX C i1 n).
    by move: (y k) (eX C i0 n) (eX C i1 n) => *; cring.
  have ca : 0 < c k * a by exact: mulr_gt0.
  by rewrite normrM (gtr0_norm ca) !mxE.
have sE k : \sum_n frame_norm Y' k n = c k * a * (`|1 + y k| + `|2%:R - y k|).
  by rewrite sum2 !fE -mulrDr; rewrite !mxE /= mulr1 mulrN1.
have sZ0 : \sum_n frame_norm Z i0 n = 3%:R * a.
  by rewrite sum2 !fnZ !fn_eX /= -mulrDr mulrC -(natrD _ 1).
have sZ1 : \sum_n frame_norm Z i1 n = 2%:R * a.
  by rewrite sum2 !fnZ !fn_eX /= -mulrDr mulrC -(natrD _ 1 1).
split=> // [f|]; first by rewrite dW gt_eqF.
have [a1 a2] := absums.
rewrite /laplace_cost_si !big_ord1 !mul1r (sum2 (fun s => lg ((\sum_n frame_norm Z s n) ^+ 2))) (sum2 (fun s => lg ((\sum_n frame_norm Y' s n) ^+ 2))) !sE sZ0 sZ1 a1 a2 dW det1.
have k0 := key; move: (y i0) (y i1) y0_le y1_ge dy dp k0 {a1 a2 sE fE dW WE cE} => p q hp hq dy dp k0.
have p4 : 0 < - p by apply: lt_le_trans hp; rewrite ltr0n.
have s0 : 0 < 1 - p - p by rewrite -addrA addr_gt0 ?ltr01 // addr_gt0.
have s1 : 0 < q + q - 1.
  have q1 : 1 < q by apply: lt_le_trans hq; rewrite ltr1n.
  by rewrite -addrA addr_gt0 ?subr_gt0 //; exact: lt_trans ltr01 q1.
have D1 : 0 < `|c i0 * c i1 * (q - p)| ^+ 2 by rewrite exprn_gt0 // normr_gt0 gt_eqF.
have A3 : 0 < (3%:R * a) ^+ 2 by rewrite exprn_gt0 // mulr_gt0 ?ltr0n.
have A2 : 0 < (2%:R * a) ^+ 2 by rewrite exprn_gt0 // mulr_gt0 ?ltr0n.
have B0 : 0 < (c i0 * a * (1 - p - p)) ^+ 2 by rewrite exprn_gt0 // !mulr_gt0.
have B1 : 0 < (c i1 * a * (q + q - 1)) ^+ 2 by rewrite exprn_gt0 // !mulr_gt0.
have lg1 : lg 1 = 0 by apply: (@addrI _ (lg 1)); rewrite addr0 -lm ?ltr01 // mulr1.
rewrite normr1 expr1n lg1 subr0 ltr_subr_addr.
rewrite -(lm A3 A2) -(lm B0 B1) -(lm (mulr_gt0 A3 A2) D1); apply: (lg_lt ll).
  by apply: mulr_gt0 => //; exact: mulr_gt0.
rewrite (gtr0_norm dp) -!exprMn ltr_pexpn2r // ?nnegrE ?ltW ?mulr_gt0 ?ltr0n //.
have -> : 3%:R * a * (2%:R * a) * (c i0 * c i1 * (q - p)) = c i0 * c i1 * a ^+ 2 * (6%:R * (q - p)) by cring.
have -> : c i0 * a * (1 - p - p) * (c i1 * a * (q + q - 1)) = c i0 * c i1 * a ^+ 2 * ((1 - p - p) * (q + q - 1)) by cring.
by rewrite ltr_pmul2l // !mulr_gt0 // exprn_gt0.
Qed.
End Wit.
End Q.
