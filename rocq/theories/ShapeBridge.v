(* The contracts of ShapeProofs.v with shapes written as in Python. *)
From Coq Require Import String List ZArith Bool Arith Lia.
From Verif Require Import Py TorchShape ShapeModel ShapeSpec ShapeProofs.
Import ListNotations.
Local Open Scope string_scope.
Local Open Scope list_scope.
Set Implicit Arguments.

Lemma rev3 (b : list nat) c f n : rev (b ++ [c; f; n]) = n :: f :: c :: rev b.
Proof. now rewrite rev_app_distr. Qed.
Lemma rev4 (b : list nat) s m f n : rev (b ++ [s; m; f; n]) = n :: f :: m :: s :: rev b.
Proof. now rewrite rev_app_distr. Qed.
Lemma rev2 (b : list nat) f n : rev (b ++ [f; n]) = n :: f :: rev b.
Proof. now rewrite rev_app_distr. Qed.
Lemma rev_nil_iff (b : list nat) : rev b = [] <-> b = [].
Proof. split; intros H; [|now subst]. apply (f_equal (@rev nat)) in H. now rewrite rev_involutive in H. Qed.
Ltac py := repeat (rewrite ?rev3, ?rev4, ?rev2 in * ).

Section Tiss.
Variables (St : Type) (model : St -> shape -> result (shape * St)) (m0 : St).
Variables (batch : list nat) (C F N S T delay n_iter : nat) (dmc : bool).
Notation X := (rev (batch ++ [C; F; N])).
Notation Y := (rev (batch ++ [S; F; N])).
Notation run n_src mic := (tiss_forward model n_iter T delay n_src mic dmc m0 X).
Hypothesis HS : (S <= C)%nat.
Hypothesis Hk : keeps_shape model Y n_iter m0.
Lemma tiss_run mic : run (Some (Z.of_nat S)) mic = finish (rev batch) C F N S mic n_iter.
Proof. cbv beta. py. now apply tiss_forward_eq. Qed.
Lemma tiss_no_pb : run (Some (Z.of_nat S)) None = Ok Y.
Proof. rewrite tiss_run. py. now apply finish_ok. Qed.
Lemma tiss_no_iter mic : n_iter = 0%nat -> run (Some (Z.of_nat S)) mic = Ok Y.
Proof. intros H. rewrite tiss_run. py. apply finish_ok; [assumption|]. destruct mic; auto. Qed.
Lemma tiss_mic r : (0 <= r < Z.of_nat C)%Z -> batch = [] \/ S = C \/ (r < Z.of_nat S)%Z -> run (Some (Z.of_nat S)) (Some r) = Ok Y.
Proof.
  intros Hr H. rewrite tiss_run. py. apply finish_ok; [assumption|]. unfold index_of. right.
  destruct (Nat.eq_dec S C) as [E|E]; [left; split; [assumption|lia]|right].
  destruct (Z_lt_le_dec r (Z.of_nat S)) as [L|L]; [left; lia|right]. repeat split; try lia.
  destruct H as [->|[H|H]]; [reflexivity|lia|lia].
Qed.
Lemma tiss_batched r : (0 <= r < Z.of_nat C)%Z -> (0 < n_iter)%nat ->
  (exists e, run (Some (Z.of_nat S)) (Some r) = Err e) <-> batch <> [] /\ (S < C)%nat /\ (Z.of_nat S <= r)%Z.
Proof.
  intros Hr Hn. split.
  - intros (e & E). assert (D : ~ (batch = [] \/ S = C \/ (r < Z.of_nat S)%Z)) by (intros D; rewrite (tiss_mic Hr D) in E; discriminate).
    split; [intros B0; apply D; now left|]. split.
    + destruct (Nat.eq_dec S C) as [E2|E2]; [destruct D; right; now left|lia].
    + destruct (Z_lt_le_dec r (Z.of_nat S)) as [L|L]; [destruct D; right; now right|exact L].
  - intros (HB & L & Hs). exists RuntimeError. rewrite tiss_run. apply finish_mid; auto; [lia|]. intros E. apply HB. now apply rev_nil_iff.
Qed.
Lemma tiss_neg_mic r : (0 < n_iter)%nat -> (r < 0)%Z ->
  run (Some (Z.of_nat S)) (Some r) = if Z.leb (- Z.of_nat S) r then Ok Y else Err IndexError.
Proof.
  intros Hn Hr. rewrite tiss_run. destruct (Z.leb_spec (- Z.of_nat S) r) as [L|L].
  - py. apply finish_ok; [assumption|]. unfold index_of. right. destruct (Nat.eq_dec S C) as [E|E]; [left|right; left]; lia.
  - apply finish_bad; auto. unfold index_of. destruct (Nat.eq_dec S C) as [E|E]; [left|right]; lia.
Qed.
Lemma tiss_mic_high r : (0 < n_iter)%nat -> (Z.of_nat C <= r)%Z -> run (Some (Z.of_nat S)) (Some r) = Err IndexError.
Proof.
  intros Hn Hr. rewrite tiss_run. apply finish_bad; auto. unfold index_of. destruct (Nat.eq_dec S C) as [E|E]; [left|right]; lia.
Qed.
End Tiss.
Lemma tiss_default_py St (model : St -> shape -> result (shape * St)) m0 batch C F N T delay n_iter dmc mic :
  tiss_forward model n_iter T delay None mic dmc m0 (rev (batch ++ [C; F; N]))
  = tiss_forward model n_iter T delay (Some (Z.of_nat C)) mic dmc m0 (rev (batch ++ [C; F; N])).
Proof. py. apply tiss_default. Qed.
Lemma tiss_default_shape St (model : St -> shape -> result (shape * St)) m0 batch C F N T delay n_iter dmc mic :
  keeps_shape model (rev (batch ++ [C; F; N])) n_iter m0 -> match mic with Some r => (0 <= r < Z.of_nat C)%Z | None => True end ->
  tiss_forward model n_iter T delay None mic dmc m0 (rev (batch ++ [C; F; N])) = Ok (rev (batch ++ [C; F; N])).
Proof.
  intros Hk Hm. rewrite tiss_default_py. destruct mic as [r|]; [apply tiss_mic|apply tiss_no_pb]; auto.
Qed.
Lemma tiss_too_many_py St (model : St -> shape -> result (shape * St)) m0 batch C F N T delay n_iter dmc mic s :
  (Z.of_nat C < s)%Z -> tiss_forward model n_iter T delay (Some s) mic dmc m0 (rev (batch ++ [C; F; N])) = Err ValueError.
Proof. intros H. py. now apply tiss_too_many. Qed.
Lemma tiss_negative_py St (model : St -> shape -> result (shape * St)) m0 batch C F N T delay n_iter dmc mic s :
  (s < 0)%Z -> exists e, tiss_forward model n_iter T delay (Some s) mic dmc m0 (rev (batch ++ [C; F; N])) = Err e.
Proof. intros H. py. now apply tiss_negative. Qed.

Lemma ip_default St (model : St -> shape -> result (shape * St)) m0 n_iter mic X :
  exists e, ip_forward model n_iter None mic m0 X = Err e.
Proof. unfold ip_forward. destruct X as [|n [|f [|c X]]]; eexists; reflexivity. Qed.
Lemma ip_default_type St (model : St -> shape -> result (shape * St)) m0 n_iter mic batch C F N :
  ip_forward model n_iter None mic m0 (rev (batch ++ [C; F; N])) = Err TypeError.
Proof. py. reflexivity. Qed.
Section Ip.
Variables (St : Type) (model : St -> shape -> result (shape * St)) (m0 : St).
Variables (batch : list nat) (C F N S n_iter : nat).
Notation X := (rev (batch ++ [C; F; N])).
Notation Y := (rev (batch ++ [S; F; N])).
Notation run n_src mic := (ip_forward model n_iter n_src mic m0 X).
Lemma ip_many s mic : (Z.of_nat C < s)%Z -> run (Some s) mic = Err ValueError.
Proof. intros H. cbv beta. py. now apply ip_forward_many. Qed.
Hypothesis HS : (S <= C)%nat.
Hypothesis Hk : keeps_shape model Y n_iter m0.
Lemma ip_run mic : run (Some (Z.of_nat S)) mic = ip_finish (rev batch) C F N S mic.
Proof. cbv beta. py. now apply ip_forward_eq. Qed.
Lemma ip_ok mic : match mic with None => True | Some r => (0 <= r < Z.of_nat C)%Z /\ (S = C \/ (r < Z.of_nat S)%Z) end ->
  run (Some (Z.of_nat S)) mic = Ok Y.
Proof.
  intros H. rewrite ip_run. py. destruct mic as [r|]; [|reflexivity]. destruct H as [Hr H].
  destruct (Nat.eq_dec S C) as [E|E]; [apply ip_pb_det|apply ip_pb_over]; unfold index_of; lia.
Qed.
Lemma ip_over r : (S < C)%nat -> (Z.of_nat S <= r < Z.of_nat C)%Z ->
  run (Some (Z.of_nat S)) (Some r) = Ok (rev (batch ++ F :: batch ++ [S; F; N])).
Proof.
  intros L Hr. rewrite ip_run. rewrite ip_pb_mid by assumption. rewrite rev_app_distr. cbn [rev].
  py. cbn [rev]. f_equal. now rewrite <- !app_assoc.
Qed.
Lemma ip_neg_mic r : (r < 0)%Z -> run (Some (Z.of_nat S)) (Some r) = if Z.leb (- Z.of_nat S) r then Ok Y else Err IndexError.
Proof.
  intros Hr. rewrite ip_run. destruct (Z.leb_spec (- Z.of_nat S) r) as [L|L].
  - py. destruct (Nat.eq_dec S C) as [E|E]; [apply ip_pb_det|apply ip_pb_over]; unfold index_of; lia.
  - destruct (Nat.eq_dec S C) as [E|E]; [apply ip_pb_det_bad|apply ip_pb_low]; unfold index_of; lia.
Qed.
Lemma ip_mic_high r : (Z.of_nat C <= r)%Z -> run (Some (Z.of_nat S)) (Some r) = Err IndexError.
Proof. intros Hr. rewrite ip_run. destruct (Nat.eq_dec S C) as [E|E]; [apply ip_pb_det_bad|apply ip_pb_high]; unfold index_of; lia. Qed.
End Ip.
Section Rest.
Variables (St : Type) (model : St -> shape -> result (shape * St)) (m0 : St).
Variables (batch : list nat) (C F N T delay n_iter : nat).
Notation X := (rev (batch ++ [C; F; N])).
Lemma ip2_py mic : C = 2 -> keeps_shape model X n_iter m0 -> match mic with Some r => (0 <= r < 2)%Z | None => True end ->
  ip2_forward model n_iter mic m0 X = Ok X.
Proof. intros E Hk Hm. py. subst C. now apply ip2_ok. Qed.
Lemma ip2_channels_py mic : C <> 2 -> ip2_forward model n_iter mic m0 X = Err AssertionError.
Proof. intros E. py. now apply ip2_channels. Qed.
Lemma ip2_mic_py r : ~ (0 <= r < 2)%Z -> ip2_forward model n_iter (Some r) m0 X = Err AssertionError.
Proof. intros E. py. destruct (Nat.eq_dec C 2) as [->|H]; [now apply ip2_mic|now apply ip2_channels]. Qed.
Lemma wpe_py : (0 < C)%nat -> (0 < T)%nat -> wpe_forward model n_iter delay T false m0 X = Ok X.
Proof. intros HC HT. py. now apply wpe_ok. Qed.
Lemma wpe_no_taps_py : (0 < n_iter)%nat -> wpe_forward model n_iter delay 0 false m0 X = Err IndexError.
Proof. intros H. py. now apply wpe_no_taps. Qed.
Lemma wpe_model_py : (2 <= C)%nat -> (0 < F)%nat -> (forall n, In n batch -> (0 < n)%nat) ->
  (0 < n_iter)%nat -> keeps_shape model X n_iter m0 ->
  exists e, wpe_forward model n_iter delay T true m0 X = Err e.
Proof. intros HC HF HB Hn Hk. py. apply wpe_model_raises; auto. intros n Hi. apply HB. now apply in_rev. Qed.
Lemma five_py r np : (0 < F)%nat -> index_of C r ->
  match np with Some p => (2 <= p)%nat | None => True end \/ n_iter = 0%nat ->
  keeps_shape model (rev (batch ++ [F - 1; N])) n_iter m0 ->
  five_forward model n_iter (Some r) np m0 X = Ok (rev (batch ++ [1; F; N])).
Proof.
  intros HF Hr Hp Hk. assert (HC : (0 < C)%nat) by (unfold index_of in Hr; lia). py. destruct F as [|f]; [lia|]. replace (S f - 1)%nat with f in Hk by lia. now apply five_ok.
Qed.
Lemma five_power_py r p : (0 < F)%nat -> index_of C r -> (p <= 1)%nat -> (0 < n_iter)%nat ->
  keeps_shape model (rev (batch ++ [F - 1; N])) n_iter m0 ->
  five_forward model n_iter (Some r) (Some p) m0 X = Err UnboundLocalError.
Proof.
  intros HF Hr Hp Hn Hk. assert (HC : (0 < C)%nat) by (unfold index_of in Hr; lia). py. destruct F as [|f]; [lia|]. replace (S f - 1)%nat with f in Hk by lia. now apply five_power.
Qed.
Lemma five_none_zero_py np : (0 < C)%nat -> (0 < F)%nat ->
  five_forward model 0 None np m0 X = Ok (rev (batch ++ [1; F; N])).
Proof. intros HC HF. py. destruct F as [|f]; [lia|]. now apply five_none_zero. Qed.
Lemma five_none_py np Y : (0 < F)%nat -> (0 < n_iter)%nat -> five_forward model n_iter None np m0 X = Ok Y ->
  (List.length Y >= List.length (batch ++ [1; F; N]) + 2)%nat.
Proof.
  intros HF Hn H. py. destruct F as [|f]; [lia|]. apply five_none_rank in H; [|assumption].
  rewrite rev_length in H. rewrite app_length. cbn [List.length]. lia.
Qed.
End Rest.
Section Beam.
Variables (mask_model : shape -> result shape) (batch : list nat) (C F N M S : nat) (r : Z).
Notation X := (rev (batch ++ [C; F; N])).
Hypothesis Hr : index_of C r.
Lemma HC : (0 < C)%nat.
Proof. unfold index_of in Hr. lia. Qed.
Hypothesis Hm : mask_model (rev (batch ++ [F; N])) = Ok (rev (batch ++ [S; M; F; N])).
Notation Y := (rev (batch ++ [S; F; N])).
Lemma mvdr_py ty p : (M = 2 /\ ty <> OtherType) \/ M = 3 -> mvdr_forward mask_model ty r p X = Ok Y.
Proof. intros H. pose proof HC. py. now apply mvdr_ok with (M := M). Qed.
Lemma mvdr_unbound_py ty p : M <> 3 -> (M <> 2 \/ ty = OtherType) -> mvdr_forward mask_model ty r p X = Err UnboundLocalError.
Proof. intros H3 H. pose proof HC. py. now apply mvdr_unbound with (M := M) (S := S). Qed.
Lemma mwf_py : (2 <= M)%nat -> mwf_forward mask_model true r X = Ok Y.
Proof. intros H. pose proof HC. py. now apply mwf_ok with (M := M). Qed.
Lemma mwf_tv_py : M = 4 -> mwf_forward mask_model false r X = Ok Y.
Proof. intros H. pose proof HC. py. now apply mwf_tv_ok with (M := M). Qed.
Lemma mwf_tv_masks_py : (2 <= M)%nat -> M <> 4 -> mwf_forward mask_model false r X = Err AssertionError.
Proof. intros H. pose proof HC. py. now apply mwf_tv_masks with (M := M) (S := S). Qed.
Lemma gev_py : (2 <= M)%nat -> gev_forward mask_model r X = Ok Y.
Proof. intros H. pose proof HC. py. now apply gev_ok with (M := M). Qed.
Lemma few_masks_py : (M <= 1)%nat ->
  mwf_forward mask_model true r X = Err IndexError /\ mwf_forward mask_model false r X = Err IndexError
  /\ gev_forward mask_model r X = Err IndexError.
Proof. intros H. pose proof HC. py. now apply few_masks with (M := M) (S := S). Qed.
End Beam.
Lemma bad_ref mask_model batch C F N r : ~ index_of C r ->
  (forall ty p, mvdr_forward mask_model ty r p (rev (batch ++ [C; F; N])) = Err IndexError)
  /\ (forall ti, mwf_forward mask_model ti r (rev (batch ++ [C; F; N])) = Err IndexError)
  /\ gev_forward mask_model r (rev (batch ++ [C; F; N])) = Err IndexError.
Proof.
  intros H. py. unfold mvdr_forward, mwf_forward, gev_forward, select, size. cbn [nth_error bind].
  rewrite (valid_false H). cbn [bind]. repeat split; reflexivity.
Qed.
Lemma laplace_py s f n k : keeps_shape laplace_shape (rev (s ++ [f; n])) k tt.
Proof. py. apply laplace_keeps. Qed.
Lemma gauss_py s f n k : keeps_shape gauss_shape (rev (s ++ [f; n])) k tt.
Proof. py. apply gauss_keeps. Qed.
Lemma nmf_py n_basis s f n k : (0 < f)%nat -> (0 < n)%nat -> keeps_shape (nmf_shape n_basis) (rev (s ++ [f; n])) k None.
Proof. intros H1 H2. py. now apply nmf_keeps. Qed.
Lemma nmf_empty_py n_basis s f n m : (n * f = 0)%nat -> nmf_shape n_basis m (rev (s ++ [f; n])) = Err RuntimeError.
Proof. intros H. py. now apply nmf_empty. Qed.
