(* C66: the level of the input. *)
From mathcomp Require Import all_ssreflect all_algebra.
From Verif Require Import CAlg Py Batch LinalgModel TissModel BeamModel WpeModel LinalgSpec BeamSpec WpeSpec TissSpec LevelSpec LevelProofs LevelBridge.
Set Implicit Arguments. Unset Strict Implicit. Unset Printing Implicit Defensive.
Import GRing.Theory Num.Theory Order.TTheory.
Local Open Scope ring_scope.

Section Beam.
Variable C : numClosedFieldType.
Variables (eighO : forall n, eigh_oracle C n) (k nS nF nN : nat).
Variables (model : mask_model C nS nF nN) (X : sig C nF nN k.+1) (ref : 'I_k.+1) (a : C).
Let same_masks : Prop := model (ref_channel (amplify a X) ref) = model (ref_channel X ref).
(* MVDR with covariance matrices: the output follows the level, however loud or quiet *)
Theorem c66_mvdr_scm eps pw mt mn : a != 0 -> same_masks -> model (ref_channel X ref) = [:: mt; mn] ->
  mvdr_forward eighO (amplify a X) model ref eps Scm pw = rmap (fun Y => amplify a Y) (mvdr_forward eighO X model ref eps Scm pw).
Proof. exact (fun a0 hM h => mvdr_scm_level eighO a0 eps pw h hM). Qed.
Print Assumptions c66_mvdr_scm.
(* MVDR with steering vectors: when the noise covariance has an entry of at least one
   and the output power d^H (R + l)^-1 d is above its floor, at both levels *)
Theorem c66_mvdr eps p mt mn : a != 0 -> 0 < eps -> same_masks -> model (ref_channel X ref) = [:: mt; mn] -> nonneg mn ->
  (forall s f, loud_both a (weighted_cov (mn s f 0) (X f))) ->
  (forall s f d l b, compute_mvdr_rtf_eigh eighO (weighted_cov (mt s f 0) (X f)) (weighted_cov (mn s f 0) (X f)) ref (Some p) = Ok d ->
     is_load (weighted_cov (mn s f 0) (X f)) eps l -> (weighted_cov (mn s f 0) (X f) + l%:M) *m b = d ->
     eps <= response d b /\ `|a| ^+ 2 * eps <= response d b) ->
  mvdr_forward eighO (amplify a X) model ref eps Rtf (Some p) =
  rmap (fun Y => amplify a Y) (mvdr_forward eighO X model ref eps Rtf (Some p)).
Proof. exact (fun a0 e0 hM h h0 => @mvdr_level C eighO k nS nF nN a a0 model X ref eps p mt mn e0 h h0 hM). Qed.
Print Assumptions c66_mvdr.
(* MWF, time invariant: when the mixture covariance has an entry of at least one *)
Theorem c66_mwf eps mt mn rest : a != 0 -> same_masks -> model (ref_channel X ref) = [:: mt, mn & rest] ->
  (forall s f, loud_both a (weighted_cov (mt s f 0) (X f) + weighted_cov (mn s f 0) (X f))) ->
  mwf_forward (amplify a X) model ref eps true = rmap (fun Y => amplify a Y) (mwf_forward X model ref eps true).
Proof. exact (fun a0 hM h => @mwf_ti_level C k nS nF nN a a0 model X ref eps mt mn rest h hM). Qed.
Print Assumptions c66_mwf.
(* MWF, one filter per frame *)
Theorem c66_mwf_frames eps mt mn vt vn : a != 0 -> same_masks -> model (ref_channel X ref) = [:: mt; mn; vt; vn] ->
  (forall s f n, loud_both a (vt s f 0 n *: weighted_cov (mt s f 0) (X f) + vn s f 0 n *: weighted_cov (mn s f 0) (X f))) ->
  mwf_forward (amplify a X) model ref eps false = rmap (fun Y => amplify a Y) (mwf_forward X model ref eps false).
Proof. exact (fun a0 hM h => @mwf_tv_level C k nS nF nN a a0 model X ref eps mt mn vt vn h hM). Qed.
Print Assumptions c66_mwf_frames.
End Beam.

(* WPE with its default weights, any number of iterations *)
Theorem c66_wpe (C : numClosedFieldType) nC nF nT dl nN (X : sig C nF nN nC) (a eps : C) n : a != 0 -> 0 < eps ->
  (forall k Z, (k < n)%N -> wpe_forward nT dl None X eps k tt = Ok (Z, tt) -> above_floors nT dl a eps X Z) ->
  wpe_forward nT dl None (amplify a X) eps n tt =
  rmap (fun r => (amplify a r.1, r.2)) (wpe_forward nT dl None X eps n tt).
Proof. exact (fun a0 e0 h => @wpe_level C nC nF nT dl nN a eps X a0 e0 unit n tt (fun k Z m => match m with tt => h k Z end)). Qed.
Print Assumptions c66_wpe.

(* without the lower bounds the output does not follow the level.  One microphone whose
   every frame is called target, so that the output should be the input: *)
Theorem c66_quiet (C : numClosedFieldType) nF nN (X : sig C nF nN 1) eps : (forall f, energy X f <= 1) ->
  mwf_forward X (@all_target C nF nN) 0 eps true = Ok [ffun f => (energy X f / (energy X f + 10%:R ^- 6)) *: X f].
Proof. exact (@quiet C nF nN X eps). Qed.
Print Assumptions c66_quiet.
Theorem c66_loud (C : numClosedFieldType) (eighO : forall n, eigh_oracle C n) nF nN (X : sig C nF nN 1) eps p :
  0 < eps -> (forall f, 1 <= energy X f) -> (forall f, 1 < eps * ((1 + eps) * energy X f)) ->
  mvdr_forward eighO X (@all_both C nF nN) 0 eps Rtf (Some p) = Ok [ffun f => (eps * ((1 + eps) * energy X f))^-1 *: X f].
Proof. exact (@loud_out C eighO nF nN X eps p). Qed.
Print Assumptions c66_loud.
Theorem c66_mwf_refuted (C : numClosedFieldType) : exists (X : sig C 1 1 1) (a : C), a != 0 /\
  mwf_forward (amplify a X) (@all_target C 1 1) 0 (10%:R ^- 5) true <>
  rmap (fun Y => amplify a Y) (mwf_forward X (@all_target C 1 1) 0 (10%:R ^- 5) true).
Proof. exact (@mwf_refuted C). Qed.
Print Assumptions c66_mwf_refuted.
Theorem c66_mvdr_refuted (C : numClosedFieldType) (eighO : forall n, eigh_oracle C n) p : exists (X : sig C 1 1 1) (a : C), a != 0 /\
  mvdr_forward eighO (amplify a X) (@all_both C 1 1) 0 (10%:R ^- 5) Rtf (Some p) <>
  rmap (fun Y => amplify a Y) (mvdr_forward eighO X (@all_both C 1 1) 0 (10%:R ^- 5) Rtf (Some p)).
Proof. exact (@mvdr_refuted C eighO p). Qed.
Print Assumptions c66_mvdr_refuted.

(* an input meeting the conditions of c66_mwf and c66_mvdr, made twice as loud *)
Example c66_beam_example (C : numClosedFieldType) (eighO : forall n, eigh_oracle C n) p :
  let X : sig C 1 1 1 := [ffun=> 1%:M] in let eps : C := 8%:R^-1 in
  mwf_forward (amplify 2%:R X) (@all_target C 1 1) 0 eps true =
    rmap (fun Y => amplify 2%:R Y) (mwf_forward X (@all_target C 1 1) 0 eps true) /\
  mvdr_forward eighO (amplify 2%:R X) (@all_both C 1 1) 0 eps Rtf (Some p) =
    rmap (fun Y => amplify 2%:R Y) (mvdr_forward eighO X (@all_both C 1 1) 0 eps Rtf (Some p)).
Proof.
move=> X eps; have n2 : 2%:R != 0 :> C by rewrite pnatr_eq0.
have n4 : `|2%:R : C| ^+ 2 = 4%:R by rewrite normr_nat -natrX.
have xE f i j : X f i j = 1 by rewrite ffunE mxE !ord1.
have w1 f : weighted_cov ((\row_n 1 : 'rV[C]_1) 0) (X f) = 1%:M.
  by apply/matrixP=> i j; rewrite mxE big_ord_recl big_ord0 addr0 !xE [(\row_n 1) _ _]mxE [RHS]mxE !ord1 conjC1 !mulr1.
have w0 f : weighted_cov ((\row_n 0 : 'rV[C]_1) 0) (X f) = 0.
  by apply/matrixP=> i j; rewrite mxE big_ord_recl big_ord0 addr0 !mxE !mul0r.
have l1 : loud_both (2%:R : C) (1%:M : 'M_1).
  by split; exists 0, 0; rewrite !mxE ?n4 ?mulr1 ?normr1 // normr_nat ler1n.
split.
  by apply: (@c66_mwf C 0 1 1 1 (@all_target C 1 1) X 0 2%:R eps (fun _ _ => \row_n 1) (fun _ _ => \row_n 0) [::] n2 erefl erefl) => s f; rewrite w1 w0 addr0.
have e0 : 0 < eps by rewrite invr_gt0 ltr0n.
apply: (@c66_mvdr C eighO 0 1 1 1 (@all_both C 1 1) X 0 2%:R eps p (fun _ _ => \row_n 1) (fun _ _ => \row_n 1) n2 e0 erefl erefl).
- by move=> s f j; rewrite mxE ler01.
- by move=> s f; rewrite w1.
move=> s f d l b; rewrite w1 rtf1 // => -[<-] [_ _ hl] hb.
have {hl} le : l = eps by case: hl => [//|[i [j ->]]]; rewrite mxE !ord1 normr1 mulr1.
have {hb} : (1 + eps) * b 0 0 = 1.
  by move/matrixP/(_ 0 0): hb; rewrite mxE big_ord_recl big_ord0 addr0 !mxE !mulr1n le.
rewrite /response big_ord_recl big_ord0 addr0 mxE mulr1n conjC1 mul1r n4 => hb.
have q0 : 0 < 1 + eps by rewrite addr_gt0 ?ltr01.
have -> : b 0 0 = (1 + eps)^-1 by apply: (mulfI (lt0r_neq0 q0)); rewrite hb divff // lt0r_neq0.
have h4 : 4%:R * eps <= (1 + eps)^-1.
  rewrite -[_^-1]div1r ler_pdivl_mulr //; have e1 : 4%:R * eps * 2%:R = 1 :> C.
    by rewrite mulrAC -natrM divff // pnatr_eq0.
  rewrite -[X in _ <= X]e1; apply: ler_wpmul2l; first by rewrite mulr_ge0 ?ler0n // ltW.
  by rewrite -[2%:R]/(1 + 1) ler_add2l /eps invf_le1 ?ltr0n // ler1n.
split=> //; apply: le_trans h4; by rewrite ler_pmull ?ler1n.
Qed.
(* ... and of c66_wpe *)
Example c66_wpe_example (C : numClosedFieldType) :
  let X : sig C 1 2 1 := [ffun=> \matrix_(c, n) 2%:R] in
  wpe_forward 1 0 None (amplify 3%:R X) 1 1 tt = rmap (fun r => (amplify 3%:R r.1, r.2)) (wpe_forward 1 0 None X 1 1 tt).
Proof.
move=> X; apply: c66_wpe; rewrite ?pnatr_eq0 ?ltr01 //.
case=> // Z _ [<-] f; have mp n : mean_power X f n = 4%:R.
  by rewrite /mean_power big_ord_recl big_ord0 addr0 ffunE mxE normr_nat -natrX divr1.
have ip n : inverse_power X f n = 2%:R^-1.
  have q0 : 4%:R^-1 != 0 :> C by rewrite invr_eq0 pnatr_eq0.
  rewrite /inverse_power mp !big_ord_recl big_ord0 !mp addr0; move: q0; set q := 4%:R^-1; clearbody q => q0.
  by rewrite -[q + q]mulr2n -[q *+ 2]mulr_natl (invfM 2%:R q) mulrCA divff // mulr1.
have pc : past_corr 0 (inverse_power X f) (X f) 0 (0 : 'I_1) 0 (0 : 'I_1) = 2%:R.
  rewrite /past_corr !big_ord_recl big_ord0 addr0 !ip.
  have a0 : ago (X f) 0 ord0 (1 + 0 - 0) = 0.
    by rewrite /ago big_pred0 // => q; rewrite addn1.
  have a1 : ago (X f) 0 (lift ord0 ord0) (1 + 0 - 0) = 2%:R.
    by rewrite /ago big_mkcond !big_ord_recl big_ord0 /= !addr0 ffunE mxE.
  by rewrite a0 a1 mulr0 mul0r add0r conjC_nat -mulrA mulKf ?pnatr_eq0.
split.
- by move=> n; rewrite mp ler1n.
- by move=> n; rewrite mp normr_nat -natrX -natrM ler1n.
by exists 0, 0, 0, 0; rewrite pc !normr_nat -natrX -natrM !ler1n.
Qed.
