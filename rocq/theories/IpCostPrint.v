(* The cost printed by AuxIVA_IP (C76). *)
From Coq Require Import Ring Field.
From mathcomp Require Import all_ssreflect all_algebra.
From Verif Require Import CAlg Py Batch LinalgModel LinalgSpec LinalgProofs LinalgBridge.
From Verif Require Import TissModel TissSpec TissProofs2 SrcModel SrcSpec CostModel CostSpec CostProofs IvaModel IvaSpec IvaProofs IvaOpt IvaBridge IpCostModel IpCostProofs IpCostRefute.
Set Implicit Arguments. Unset Strict Implicit. Unset Printing Implicit Defensive.
Import GRing.Theory Num.Theory Order.TTheory.
Local Open Scope ring_scope.
Local Open Scope py_scope.

Section Print.
Variable C : numClosedFieldType.
Add Field Cfield_ipp : (f_ft C).
Ltac cring := fpre; fnorm C; fatoms; ring.
Variable lg : C -> C.
Hypothesis ll : log_like lg.
Hypothesis lm : log_mul lg.
Lemma sum1 (F : 'I_1 -> C) : \sum_i F i = F ord0. Proof. exact: big_ord1. Qed.
Lemma cost_WE nS nB (W : 'M[C]_(nS, nS + nB)) J : cost_W W J = full_demix W J.
Proof.
apply/matrixP => i j; rewrite mxE /full_demix mxE; case: (split i) => // b.
by rewrite mxE; case: (split j) => // c; rewrite !mxE.
Qed.
Lemma ip_cost_lemma nS nB nF nN em (Y : sig C nF nN nS) (W : filt C nF nS (nS + nB)) (J : filt C nF nB nS) :
  (0 < nN)%N -> (forall s n, em <= 2%:R * frame_norm Y s n) -> (forall f, \det (full_demix (W f) (J f)) != 0) ->
  ip_cost lg Y W J = nN%:R * laplace_cost lg em Y (fun f => full_demix (W f) (J f)).
Proof.
move=> n0 hu hd; have nn : nN%:R != 0 :> C by rewrite pnatr_eq0 -lt0n.
rewrite /ip_cost /laplace_cost mulrBr; congr (_ - _).
  rewrite mulr_sumr; apply: eq_bigr => s _; rewrite mulrCA mulfV // mulr1; apply: eq_bigr => n _.
  by rewrite /contrast hu.
rewrite [2%:R * _]mulrC -mulrA; congr (_ * _); rewrite mulr_sumr; apply: eq_bigr => f _.
by rewrite cost_WE expr2 lm ?normr_gt0 // mulr2n mulrDl !mul1r.
Qed.

Variables (e em : C).
Hypothesis e0 : 0 < e.
Hypothesis e1 : e <= 10%:R^-1.
Hypothesis m2 : em <= 2%:R.
Definition pX : sig C 1 8 (1 + 0) := [ffun=> const_mx 1].
Definition pY (c : C) : sig C 1 8 1 := [ffun=> const_mx c].
Definition pW (c : C) : filt C 1 1 (1 + 0) := [ffun=> const_mx c].
Definition pJ : filt C 1 0 1 := [ffun=> 0].
Definition pw : sig C 1 8 1 := [ffun=> const_mx 2%:R^-1].
Lemma two : 2%:R != 0 :> C. Proof. by rewrite pnatr_eq0. Qed.
Lemma pfn c s n : 0 <= c -> frame_norm (pY c) s n = c.
Proof. by move=> c0; rewrite /frame_norm big_ord1 ffunE mxE ger0_norm // sqrCK. Qed.
Lemma full1 (W : 'M[C]_1) : @full_demix C 1 0 W 0 = W.
Proof.
apply/matrixP => i j; rewrite /full_demix mxE; case: splitP => [k h|[]//].
by congr (W _ j); apply: val_inj.
Qed.
Lemma pV k : wcov (pw ord0 k) (pX ord0) = const_mx 4%:R.
Proof.
apply/matrixP => i j; rewrite !mxE (eq_bigr (fun=> 2%:R^-1)) => [|n _]; last first.
  by rewrite !ffunE !mxE rmorph1 !mulr1.
rewrite sumr_const card_ord -[_ *+ 8]mulr_natl (natrM C 4 2) -mulrA mulfV ?mulr1 //; exact: two.
Qed.
Lemma psource J : ip_source pX pw e (pW 1, J) ord0 = Ok (pW 2%:R^-1, [ffun=> 0]).
Proof.
have four : 4%:R != 0 :> C by rewrite pnatr_eq0.
have e4 : e <= 4%:R^-1 by apply: (le_trans e1); rewrite lef_pinv ?posrE ?ltr0n // ler_nat.
have e_4 : e <= 4%:R by apply: (le_trans e4); apply: (@le_trans _ _ 1); rewrite ?ler1n // invf_le1 ?ltr0n // ler1n.
have n1 : 0 < 1 + e by rewrite addr_gt0 ?ltr01.
set x : C := (4%:R * (1 + e))^-1.
have x0 : 0 < x by rewrite invr_gt0 mulr_gt0 ?ltr0n.
have wA : full_demix (pW 1 ord0) 0 *m wcov (pw ord0 ord0) (pX ord0) = const_mx 4%:R.
  by rewrite full1 pV; apply/matrixP => i j; rewrite mxE big_ord1 ffunE !mxE mul1r.
have rw i : row_weight (const_mx 4%:R : 'M[C]_1) e i = 4%:R^-1.
  by rewrite /row_weight big_ord1 mxE ger0_norm ?ler0n // sqrCK ?ler0n // clamp_id // div1r.
rewrite (@ip_source_val C 1 8 pX pw e (pW 1) J ord0 (const_mx x)) //; last first.
  rewrite wA => l.
  rewrite sum1 !rw [(_ *m _) _ _]mxE sum1 !mxE conj_Creal ?realn //.
  have -> : 4%:R^-1 ^+ 2 * 4%:R = 4%:R^-1 :> C by rewrite expr2 mulfVK.
  rewrite mulrA mulVf // -mulrDl /x invfM mulrCA mulfV ?mulr1 //; exact: lt0r_neq0.
have fE : form (wcov (pw ord0 ord0) (pX ord0)) (const_mx x : 'cV_(1 + 0)) (const_mx x) = 4%:R * x ^+ 2.
  rewrite pV /form mxE big_ord1 mxE big_ord1 ctrE !mxE conj_Creal ?gtr0_real //; cring.
have f0 : 0 < 4%:R * x ^+ 2 by rewrite mulr_gt0 ?ltr0n // exprn_gt0.
have s4 : 4%:R * x ^+ 2 = (2%:R * x) ^+ 2 by rewrite exprMn -natrX.
rewrite fE; congr (Ok (_, _)); apply/ffunP => f; rewrite !ffunE; apply/matrixP => i j; rewrite !mxE ord1 eqxx.
rewrite (Creal_ReP _ (gtr0_real f0)) clamp_id.
  rewrite s4 sqrCK ?mulr_ge0 ?ler0n ?(ltW x0) // conj_Creal ?gtr0_real //.
  by rewrite invfM mulrCA mulfV ?mulr1 // gt_eqF.
rewrite s4 /x invfM mulrA (_ : 2%:R * 4%:R^-1 = 2%:R^-1); last first.
  by rewrite (natrM C 2 2) invfM mulVKf // two.
rewrite exprMn exprVn -natrX exprVn; apply: (@le_trans _ _ (10%:R^-1)) => //.
rewrite -invfM lef_pinv ?posrE ?ltr0n ?mulr_gt0 ?ltr0n ?exprn_gt0 //.
apply: (@le_trans _ _ (4%:R * 2%:R)); last by rewrite -natrM ler_nat.
rewrite ler_pmul2l ?ltr0n //.
have t10 : e *+ 10 <= 1 by rewrite -[e *+ 10]mulr_natr -ler_pdivl_mulr ?ltr0n // div1r.
have ee : e ^+ 2 <= e.
  rewrite expr2 -{3}[e]mulr1 ler_pmul2l //; apply: (le_trans e1); by rewrite invf_le1 ?ltr0n // ler1n.
have -> : (1 + e) ^+ 2 = 1 + (e + e + e ^+ 2) by cring.
rewrite mulrSr [1%:R]mulr1n ler_add2l; apply: le_trans t10.
apply: (@le_trans _ _ (e + e + e)); first by rewrite ler_add2l.
by rewrite -mulr2n -mulrSr; apply: ler_wpmuln2l => //; exact: ltW.
Qed.

Lemma piter : ip_iter (laplace_model em) pX e (pY 1, pW 1, pJ, tt) = Ok (pY 2%:R^-1, pW 2%:R^-1, [ffun=> 0], tt).
Proof.
have e_1 : e <= 1 by apply: (le_trans e1); rewrite invf_le1 ?ltr0n // ler1n.
have wE : (laplace_model em tt (pY 1)).1 = pw.
  apply/ffunP => f; rewrite !ffunE; apply/matrixP => s n; rewrite mxE /laplace !mxE div1r.
  have -> : \sum_i mag_sq ((\matrix_(g, l) pY 1 g s l) i n) = \sum_g `|pY 1 g s n| ^+ 2.
    by apply: eq_bigr => g _; rewrite mag_sqE mxE.
  by rewrite -[sqrtC _]/(frame_norm (pY 1) s n) pfn ?ler01 // mulr1 clamp_id.
have gE s : ip_gain e (pY 1) s = 1.
  rewrite /ip_gain mean_powE; have -> : mean_pow (pY 1) s = 1.
    rewrite /mean_pow big_ord1 (eq_bigr (fun=> 1)) => [|n _]; last by rewrite ffunE mxE normr1 expr1n.
    by rewrite sumr_const card_ord mul1n divff // pnatr_eq0.
  by rewrite clamp_id.
rewrite /ip_iter.
have -> : laplace_model em tt (pY 1) = (pw, tt) by rewrite -wE.
set W1 := (V in (V, pJ)); set w1 := (V in ip_source _ V _).
have -> : W1 = pW 1.
  by apply/ffunP => f; apply/matrixP => s c; rewrite /W1 !ffunE !mxE gE sqrtC1 clamp_id // divr1.
have -> : w1 = pw.
  by apply/ffunP => f; apply/matrixP => s c; rewrite /w1 !ffunE !mxE gE mulr1.
have -> : enum 'I_1 = [:: ord0] by apply: (inj_map val_inj); rewrite val_enum_ord.
cbn [foldM]; rewrite psource; cbn [bind]; congr (Ok (_, _, _, _)).
by apply/ffunP => f; rewrite !ffunE; apply/matrixP => s n; rewrite mxE big_ord1 !mxE mulr1.
Qed.

Lemma pcost (c : C) (J : filt C 1 0 1) : 0 < c -> ip_cost lg (pY c) (pW c) J = 8%:R * c - 2%:R * 8%:R * lg c.
Proof.
move=> c0; rewrite /ip_cost !big_ord1 (eq_bigr (fun=> c)) => [|n _]; last first.
  by have := pfn ord0 n (ltW c0); rewrite /frame_norm !big_ord1.
rewrite sumr_const card_ord -[c *+ 8]mulr_natl; congr (_ - _ * lg _).
by rewrite cost_WE (flatmx0 (J _)) full1 det_mx11 !ffunE mxE gtr0_norm.
Qed.
Lemma printed : exists (X : sig C 1 8 (1 + 0)) (Y' : sig C 1 8 1) (W' : filt C 1 1 (1 + 0)) (J' : filt C 1 0 1),
  let Y : sig C 1 8 1 := [ffun f => usubmx (X f)] in
  [/\ forall s n, em <= 2%:R * frame_norm Y s n,
      ip_raw (laplace_model em) X e 1 tt = Ok (Y', W', J', tt) &
      ip_cost lg Y ([ffun=> row_mx 1%:M 0] : filt C 1 1 (1 + 0)) ([ffun=> 0] : filt C 1 0 1) < ip_cost lg Y' W' J'].
Proof.
have YE : [ffun f => usubmx (pX f)] = pY 1 by apply/ffunP => f; rewrite !ffunE; apply/matrixP => s n; rewrite !mxE.
have WE : ([ffun=> row_mx 1%:M 0] : filt C 1 1 (1 + 0)) = pW 1.
  apply/ffunP => f; rewrite !ffunE; apply/matrixP => i j; rewrite !mxE.
  case: splitP => [k h|[]//]; rewrite mxE ord1; suff -> : k = 0 by []; exact: ord1.
exists pX, (pY 2%:R^-1), (pW 2%:R^-1), [ffun=> 0]; cbv zeta; rewrite YE; split.
- by move=> s n; rewrite pfn ?ler01 // mulr1.
- rewrite /ip_raw /orthogonal_constraint ltnn; cbn [bind ip_loop].
  have := piter; rewrite /pJ -YE -WE => ->; by [].
have l1 : lg 1 = 0.
  have := lm ltr01 ltr01; rewrite mulr1 => /eqP; rewrite eq_sym -subr_eq0 addrK => /eqP //.
have h0 : 0 < 2%:R^-1 :> C by rewrite invr_gt0 ltr0n.
rewrite WE !pcost ?ltr01 // l1 mulr0 subr0 mulr1.
have := ll ltr01 h0; rewrite l1 subr0 divr1 => h.
have hl : lg 2%:R^-1 <= - 2%:R^-1.
  apply: (le_trans h); rewrite -subr_ge0; have e2 : 2%:R^-1 + 2%:R^-1 = 1 :> C by exact: hh.
  have -> : - 2%:R^-1 - (2%:R^-1 - 1) = 1 - (2%:R^-1 + 2%:R^-1) :> C by move: (2%:R^-1) => t; cring.
  by rewrite e2 subrr.
apply: (@lt_le_trans _ _ (8%:R / 2%:R + 2%:R * 8%:R / 2%:R)).
  by rewrite [2%:R * 8%:R]mulrC mulfK ?two // ltr_addr divr_gt0 ?ltr0n.
rewrite ler_add2l -mulrN ler_pmul2l ?mulr_gt0 ?ltr0n //; by rewrite ler_oppr.
Qed.
End Print.

Lemma unpack_batch (batch : seq nat) f s c : (0 < size batch)%N -> cost_unpack (batch ++ [:: f; s; c]) = Err ValueError.
Proof. by case: batch => [|a [|b [|d [|g l]]]]. Qed.
