(* C58 and C64: the neural masks. *)
From Coq Require Import Reals Lra.
From Verif Require Import MaskModel MaskSpec MaskProofs.
Local Open Scope R_scope.

Theorem c58_glu : forall nF nN mag_spec log_spec layers X b f n,
  / 10 ^ 5 < glu_mask nF nN mag_spec log_spec layers X b f n < 1.
Proof. exact glu_range. Qed.
Print Assumptions c58_glu.

Theorem c58_blstm : forall n_mels mag_spec log_spec mel layers X b f n,
  / 10 ^ 5 < blstm_mask n_mels mag_spec log_spec mel layers X b f n < 1.
Proof. exact blstm_range. Qed.
Print Assumptions c58_blstm.

(* MaskMVDRSupport for any offset in [0, 1) *)
Theorem c58_mvdr : forall n_masks n_input eps layers X b s m f n, 0 <= eps < 1 ->
  eps < mvdr_masks n_masks n_input eps layers X b s m f n < 1.
Proof. exact mvdr_range. Qed.
Print Assumptions c58_mvdr.

(* nothing checks the offset: beyond one every mask value exceeds one *)
Theorem c58_mvdr_any_offset_refuted : forall n_masks n_input eps layers X b s m f n, 1 < eps ->
  1 < mvdr_masks n_masks n_input eps layers X b s m f n < eps.
Proof. exact mvdr_above. Qed.
Print Assumptions c58_mvdr_any_offset_refuted.

(* SimpleModel: in (0, 1), but not bounded below by its offset (or by anything else) *)
Theorem c58_simple : forall eps mel layers X b f n, 0 < simple_mask eps mel layers X b f n < 1.
Proof. exact simple_range. Qed.
Print Assumptions c58_simple.
Theorem c58_simple_offset_refuted : forall eps mel d X b f n, 0 <= eps < 1 -> 0 < d ->
  exists layers, network layers /\ simple_mask eps mel layers X b f n < d.
Proof. exact simple_low. Qed.
Print Assumptions c58_simple_offset_refuted.

Example c58_example : glu_mask 1 1 true true (fun _ _ _ _ => 0) (fun _ _ _ => (1, 0)) 0%nat 0%nat 0%nat
  = / 2 * (1 - / 10 ^ 5) + / 10 ^ 5.
Proof. unfold glu_mask, sigmoid. rewrite Ropp_0, exp_0. do 2 f_equal. Qed.

Theorem c64_scale : forall nF nN (mag_spec log_spec : bool), (0 < nF)%nat -> (0 < nN)%nat ->
  forall layers c X, network layers ->
  (forall b, (if mag_spec then c b <> (0, 0) else 0 < fst (c b) /\ snd (c b) = 0)
     /\ loud nF nN X b /\ loud nF nN (rescaled c X) b) ->
  forall b f n, glu_mask nF nN mag_spec log_spec layers (rescaled c X) b f n
              = glu_mask nF nN mag_spec log_spec layers X b f n.
Proof. exact glu_rescaled. Qed.
Print Assumptions c64_scale.

Theorem c64_quiet_refuted : exists layers c X, network layers /\ 0 < c /\
  glu_mask 1 1 true true layers (rescaled (fun _ => (c, 0)) X) 0%nat 0%nat 0%nat
  <> glu_mask 1 1 true true layers X 0%nat 0%nat 0%nat.
Proof. exact glu_quiet. Qed.
Print Assumptions c64_quiet_refuted.

(* a factor -3i on one loud bin *)
Example c64_example : forall b, (0, -3) <> (0, 0) /\ loud 1 1 (fun _ _ _ => (1, 0)) b
  /\ loud 1 1 (rescaled (fun _ => (0, -3)) (fun _ _ _ => (1, 0))) b.
Proof.
  intros b; split; [intros H; inversion H; lra|]. unfold loud, rescaled, cmul; simpl; split; lra.
Qed.
