From Coq Require Import Reals Lra Lia Psatz.
From Verif Require Import MaskModel MaskSpec.
Local Open Scope R_scope.

Lemma sigmoid_range x : 0 < sigmoid x < 1.
Proof.
  unfold sigmoid. pose proof (exp_pos (- x)) as E. split; [apply Rinv_0_lt_compat; lra|].
  rewrite <- Rinv_1. apply Rinv_lt_contravar; lra.
Qed.
Lemma offset_range e s : 0 <= e < 1 -> 0 < s < 1 -> e < s * (1 - e) + e < 1.
Proof. intros; nra. Qed.
Lemma glu_range nF nN ms ls layers X b f n : / 10 ^ 5 < glu_mask nF nN ms ls layers X b f n < 1.
Proof. apply offset_range; [split; [lra|lra]|apply sigmoid_range]. Qed.
Lemma blstm_range nm ms ls mel layers X b f n : / 10 ^ 5 < blstm_mask nm ms ls mel layers X b f n < 1.
Proof. apply offset_range; [split; lra|apply sigmoid_range]. Qed.
Lemma mvdr_range nm ni eps layers X b s m f n : 0 <= eps < 1 -> eps < mvdr_masks nm ni eps layers X b s m f n < 1.
Proof. intros H; unfold mvdr_masks; rewrite (Rmult_comm (1 - eps)). apply offset_range; auto; apply sigmoid_range. Qed.
Lemma mvdr_above nm ni eps layers X b s m f n : 1 < eps -> 1 < mvdr_masks nm ni eps layers X b s m f n < eps.
Proof. intros H; unfold mvdr_masks; cbv zeta. match goal with |- context [sigmoid ?x] => pose proof (sigmoid_range x) end. nra. Qed.
Lemma simple_range eps mel layers X b f n : 0 < simple_mask eps mel layers X b f n < 1.
Proof. apply sigmoid_range. Qed.
(* the offset of SimpleModel is inside the sigmoid: no positive lower bound *)
Lemma simple_low eps mel d X b f n : 0 <= eps < 1 -> 0 < d -> exists layers, network layers /\ simple_mask eps mel layers X b f n < d.
Proof.
  intros E D. exists (fun _ _ _ _ => (ln d - eps) / (1 - eps)). split; [red; auto|]. unfold simple_mask; cbv zeta.
  replace (eps + (1 - eps) * ((ln d - eps) / (1 - eps))) with (ln d) by (field; lra).
  unfold sigmoid. rewrite exp_Ropp, exp_ln by auto.
  replace (/ (1 + / d)) with (d / (d + 1)) by (field; lra).
  apply Rmult_lt_reg_r with (d + 1); [lra|]. unfold Rdiv; rewrite Rmult_assoc, Rinv_l by lra. nra.
Qed.

Lemma sum_ext n f g : (forall i, f i = g i) -> sum n f = sum n g.
Proof. intros H; induction n; simpl; congruence. Qed.
Lemma sum_scal n a f : sum n (fun i => a * f i) = a * sum n f.
Proof. induction n; simpl; [lra|]. rewrite IHn; lra. Qed.
Lemma mag_cmul c z : mag_sq (cmul c z) = mag_sq c * mag_sq z.
Proof. destruct c, z; unfold mag_sq, cmul; simpl; ring. Qed.
Lemma sum_nonneg n f : (forall i, 0 <= f i) -> 0 <= sum n f.
Proof. intros H; induction n; simpl; [lra|]. specialize (H n); lra. Qed.
Section Scale.
Variables (nF nN : nat) (ms ls : bool).
Hypothesis (HF : (0 < nF)%nat) (HN : (0 < nN)%nat).
Lemma cells : 0 < INR nF * INR nN.
Proof. apply Rmult_lt_0_compat; apply lt_0_INR; auto. Qed.
Lemma power_cmul c X b : power nF nN (rescaled c X) b = mag_sq (c b) * power nF nN X b.
Proof.
  unfold power, rescaled, Rdiv. rewrite <- Rmult_assoc; f_equal. rewrite <- sum_scal. apply sum_ext; intros f.
  rewrite <- sum_scal. apply sum_ext; intros n. apply mag_cmul.
Qed.
Lemma loud_scale X b : loud nF nN X b -> scale nF nN X b = power nF nN X b /\ / 10 ^ 5 <= power nF nN X b.
Proof.
  intros H. assert (L : / 10 ^ 5 <= power nF nN X b).
  { unfold power. pose proof cells as P. apply Rmult_le_reg_r with (INR nF * INR nN); auto.
    unfold Rdiv at 1; rewrite Rmult_assoc, Rinv_l, Rmult_1_r by lra.
    unfold loud in H. eapply Rle_trans; [|eapply Rle_trans; [exact H|]].
    - unfold Rdiv; rewrite Rmult_comm; apply Rle_refl.
    - apply Req_le, sum_ext; intros f; apply sum_ext; intros n; unfold mag_sq; ring. }
  split; auto. unfold scale, clamp. apply Rmax_right; auto.
Qed.
Lemma divide_big a b : / 10 ^ 7 <= b -> divide a b = a / b.
Proof. intros H; unfold divide, clamp. now rewrite Rmax_right. Qed.
Lemma small : / 10 ^ 7 <= / 10 ^ 5.
Proof. lra. Qed.
Lemma sqrt_big x : / 10 ^ 5 <= x -> / 10 ^ 7 <= sqrt x.
Proof.
  intros H. replace (/ 10 ^ 7) with (sqrt ((/ 10 ^ 7) * (/ 10 ^ 7))) by (apply sqrt_square; lra). apply sqrt_le_1; lra.
Qed.
(* scale factors: any complex number for the power spectrum, positive real ones otherwise *)
Definition factor (c : R * R) : Prop := if ms then c <> (0, 0) else 0 < fst c /\ snd c = 0.
Lemma factor_pos c : factor c -> 0 < mag_sq c.
Proof.
  unfold factor, mag_sq; destruct c as [x y]; destruct ms; simpl; intros H; [|destruct H; nra].
  destruct (Rtotal_order x 0) as [?|[->|?]]; [nra| |nra].
  destruct (Rtotal_order y 0) as [?|[->|?]]; [nra|tauto|nra].
Qed.
Lemma spec_rescaled c X b : factor (c b) -> loud nF nN X b -> loud nF nN (rescaled c X) b ->
  forall f n, spec nF nN ms (rescaled c X) b f n = spec nF nN ms X b f n.
Proof.
  intros Hc L L' f n. destruct (loud_scale X b L) as [E P]. destruct (loud_scale _ b L') as [E' P'].
  pose proof (factor_pos _ Hc) as C. unfold spec. rewrite E, E', power_cmul.
  assert (P0 : 0 < power nF nN X b) by (eapply Rlt_le_trans; [|exact P]; lra).
  rewrite power_cmul in P'. destruct ms eqn:Ems.
  - rewrite !divide_big by (eapply Rle_trans; [apply small|auto]). unfold rescaled; rewrite mag_cmul.
    field; split; lra.
  - unfold factor in Hc; rewrite Ems in Hc; destruct Hc as [c0 c1].
    assert (M : mag_sq (c b) = fst (c b) * fst (c b)) by (unfold mag_sq; rewrite c1; ring).
    rewrite M in *. rewrite !divide_big by (apply sqrt_big; auto).
    rewrite sqrt_mult, sqrt_square by nra.
    assert (S0 : 0 < sqrt (power nF nN X b)) by (apply sqrt_lt_R0; auto).
    unfold rescaled, cmul; simpl; rewrite c1.
    destruct (Nat.ltb f nF); field; split; lra.
Qed.
Lemma glu_rescaled layers c X : network layers ->
  (forall b, factor (c b) /\ loud nF nN X b /\ loud nF nN (rescaled c X) b) ->
  forall b f n, glu_mask nF nN ms ls layers (rescaled c X) b f n = glu_mask nF nN ms ls layers X b f n.
Proof.
  intros N H b f n. unfold glu_mask. do 3 f_equal. apply N; intros b' f' n'. destruct (H b') as (A & B & D).
  unfold features. now rewrite (spec_rescaled c X b' A B D).
Qed.
End Scale.
(* quiet input: the features follow the scale *)
Lemma quiet_witness : exists c X, 0 < c /\ 
  features 1 1 true true (rescaled (fun _ => (c, 0)) X) 0%nat 0%nat 0%nat <> features 1 1 true true X 0%nat 0%nat 0%nat.
Proof.
  exists 2, (fun _ _ _ => (/ 10 ^ 3, 0)). split; [lra|]. unfold features.
  assert (E : forall x, 0 <= x -> x * x <= / 10 ^ 5 -> spec 1 1 true (fun _ _ _ => (x, 0)) 0%nat 0%nat 0%nat = x * x * 10 ^ 5).
  { intros x Hx Hs. unfold spec, scale, power, divide, clamp, mag_sq; simpl sum; simpl INR; simpl fst; simpl snd.
    rewrite (Rmax_left (/ 10 ^ 5)) by lra. rewrite Rmax_right by lra. field. }
  assert (R2 : spec 1 1 true (rescaled (fun _ => (2, 0)) (fun _ _ _ => (/ 10 ^ 3, 0))) 0%nat 0%nat 0%nat
    = spec 1 1 true (fun _ _ _ => (2 * / 10 ^ 3, 0)) 0%nat 0%nat 0%nat).
  { unfold spec, scale, power, rescaled, cmul; cbn [fst snd].
    replace (2 * / 10 ^ 3 - 0 * 0) with (2 * / 10 ^ 3) by ring. replace (2 * 0 + 0 * / 10 ^ 3) with 0 by ring. reflexivity. }
  rewrite R2.
  rewrite !E by lra. unfold log10. intros H.
  assert (L10 : 0 < ln 10) by (rewrite <- ln_1; apply ln_increasing; lra).
  apply (f_equal (fun x => x * ln 10)) in H. unfold Rdiv in H. rewrite !Rmult_assoc, !Rinv_l, !Rmult_1_r in H by lra.
  apply ln_inv in H; rewrite ?Rabs_right in *; try lra.
Qed.

Lemma sigmoid_inj x y : sigmoid x = sigmoid y -> x = y.
Proof.
  unfold sigmoid; intros H. apply (f_equal Rinv) in H. rewrite !Rinv_inv in H. apply Rplus_eq_reg_l in H. apply exp_inv in H. lra.
Qed.
Lemma glu_quiet : exists layers c X, network layers /\ 0 < c /\
  glu_mask 1 1 true true layers (rescaled (fun _ => (c, 0)) X) 0%nat 0%nat 0%nat <> glu_mask 1 1 true true layers X 0%nat 0%nat 0%nat.
Proof.
  destruct quiet_witness as (c & X & C & D). exists (fun x => x), c, X. split; [intros x y H; exact H|]. split; auto.
  unfold glu_mask. intros H. apply D, sigmoid_inj. apply Rplus_eq_reg_r in H. apply Rmult_eq_reg_r in H; auto. lra.
Qed.
