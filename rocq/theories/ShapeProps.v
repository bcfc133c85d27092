(* C02, C03, C04, C05: shapes of the results.  rev (batch ++ [...]) is the Python shape
   batch + (...) in the order used by the model.  *)
From Coq Require Import String List ZArith Bool Arith Lia.
From Verif Require Import Py TorchShape ShapeModel ShapeSpec ShapeProofs ShapeBridge.
Import ListNotations.
Local Open Scope list_scope.
Set Implicit Arguments.

(* ---- C02 *)
Theorem c02_default St (model : St -> shape -> result (shape * St)) m0 batch n_chan n_freq n_frames n_taps n_delay n_iter use_dmc mic :
  tiss_forward model n_iter n_taps n_delay None mic use_dmc m0 (rev (batch ++ [n_chan; n_freq; n_frames]))
  = tiss_forward model n_iter n_taps n_delay (Some (Z.of_nat n_chan)) mic use_dmc m0 (rev (batch ++ [n_chan; n_freq; n_frames])).
Proof. exact (tiss_default_py model m0 batch n_chan n_freq n_frames n_taps n_delay n_iter use_dmc mic). Qed.
Print Assumptions c02_default.
Theorem c02_default_sources St (model : St -> shape -> result (shape * St)) m0 batch n_chan n_freq n_frames n_taps n_delay n_iter use_dmc mic :
  keeps_shape model (rev (batch ++ [n_chan; n_freq; n_frames])) n_iter m0 ->
  match mic with Some r => (0 <= r < Z.of_nat n_chan)%Z | None => True end ->
  tiss_forward model n_iter n_taps n_delay None mic use_dmc m0 (rev (batch ++ [n_chan; n_freq; n_frames]))
  = Ok (rev (batch ++ [n_chan; n_freq; n_frames])).
Proof. exact (@tiss_default_shape St model m0 batch n_chan n_freq n_frames n_taps n_delay n_iter use_dmc mic). Qed.
Print Assumptions c02_default_sources.
Theorem c02_too_many St (model : St -> shape -> result (shape * St)) m0 batch n_chan n_freq n_frames n_taps n_delay n_iter use_dmc mic n_src :
  (Z.of_nat n_chan < n_src)%Z ->
  tiss_forward model n_iter n_taps n_delay (Some n_src) mic use_dmc m0 (rev (batch ++ [n_chan; n_freq; n_frames])) = Err ValueError.
Proof. exact (@tiss_too_many_py St model m0 batch n_chan n_freq n_frames n_taps n_delay n_iter use_dmc mic n_src). Qed.
Print Assumptions c02_too_many.
Theorem c02_negative St (model : St -> shape -> result (shape * St)) m0 batch n_chan n_freq n_frames n_taps n_delay n_iter use_dmc mic n_src :
  (n_src < 0)%Z -> exists e,
  tiss_forward model n_iter n_taps n_delay (Some n_src) mic use_dmc m0 (rev (batch ++ [n_chan; n_freq; n_frames])) = Err e.
Proof. exact (@tiss_negative_py St model m0 batch n_chan n_freq n_frames n_taps n_delay n_iter use_dmc mic n_src). Qed.
Print Assumptions c02_negative.
(* the documented default of AuxIVA_IP is not available *)
Theorem c02_ip_default_refuted St (model : St -> shape -> result (shape * St)) m0 n_iter mic X :
  exists e, ip_forward model n_iter None mic m0 X = Err e.
Proof. exact (ip_default model m0 n_iter mic X). Qed.
Print Assumptions c02_ip_default_refuted.
Theorem c02_ip_default_error St (model : St -> shape -> result (shape * St)) m0 n_iter mic batch n_chan n_freq n_frames :
  ip_forward model n_iter None mic m0 (rev (batch ++ [n_chan; n_freq; n_frames])) = Err TypeError.
Proof. exact (ip_default_type model m0 n_iter mic batch n_chan n_freq n_frames). Qed.
Print Assumptions c02_ip_default_error.
Theorem c02_ip_too_many St (model : St -> shape -> result (shape * St)) m0 batch n_chan n_freq n_frames n_iter n_src mic :
  (Z.of_nat n_chan < n_src)%Z ->
  ip_forward model n_iter (Some n_src) mic m0 (rev (batch ++ [n_chan; n_freq; n_frames])) = Err ValueError.
Proof. exact (@ip_many St model m0 batch n_chan n_freq n_frames n_iter n_src mic). Qed.
Print Assumptions c02_ip_too_many.
Example c02_example :
  tiss_forward laplace_shape 2 1 3 None (Some 0%Z) false tt (rev ([5] ++ [3; 9; 20])) = Ok (rev ([5] ++ [3; 9; 20]))
  /\ tiss_forward laplace_shape 2 1 3 (Some 4%Z) (Some 0%Z) false tt (rev ([5] ++ [3; 9; 20])) = Err ValueError
  /\ ip_forward laplace_shape 2 None (Some 0%Z) tt (rev ([5] ++ [3; 9; 20])) = Err TypeError
  /\ ip_forward laplace_shape 2 (Some 4%Z) (Some 0%Z) tt (rev ([5] ++ [3; 9; 20])) = Err ValueError.
Proof. repeat split; reflexivity. Qed.

(* ---- C03 *)
(* the models of torchiva/models/classic.py satisfy the hypothesis on the source model *)
Theorem c03_laplace s n_freq n_frames k : keeps_shape laplace_shape (rev (s ++ [n_freq; n_frames])) k tt.
Proof. exact (laplace_py s n_freq n_frames k). Qed.
Print Assumptions c03_laplace.
Theorem c03_gauss s n_freq n_frames k : keeps_shape gauss_shape (rev (s ++ [n_freq; n_frames])) k tt.
Proof. exact (gauss_py s n_freq n_frames k). Qed.
Print Assumptions c03_gauss.
Theorem c03_nmf n_basis s n_freq n_frames k : (0 < n_freq)%nat -> (0 < n_frames)%nat ->
  keeps_shape (nmf_shape n_basis) (rev (s ++ [n_freq; n_frames])) k None.
Proof. exact (@nmf_py n_basis s n_freq n_frames k). Qed.
Print Assumptions c03_nmf.
Theorem c03_nmf_empty n_basis s n_freq n_frames state : (n_frames * n_freq = 0)%nat ->
  nmf_shape n_basis state (rev (s ++ [n_freq; n_frames])) = Err RuntimeError.
Proof. exact (@nmf_empty_py n_basis s n_freq n_frames state). Qed.
Print Assumptions c03_nmf_empty.

(* T_ISS *)
Theorem c03_tiss_no_projection St (model : St -> shape -> result (shape * St)) m0 batch n_chan n_freq n_frames n_src n_taps n_delay n_iter use_dmc :
  (n_src <= n_chan)%nat -> keeps_shape model (rev (batch ++ [n_src; n_freq; n_frames])) n_iter m0 ->
  tiss_forward model n_iter n_taps n_delay (Some (Z.of_nat n_src)) None use_dmc m0 (rev (batch ++ [n_chan; n_freq; n_frames]))
  = Ok (rev (batch ++ [n_src; n_freq; n_frames])).
Proof. exact (@tiss_no_pb St model m0 batch n_chan n_freq n_frames n_src n_taps n_delay n_iter use_dmc). Qed.
Print Assumptions c03_tiss_no_projection.
Theorem c03_tiss St (model : St -> shape -> result (shape * St)) m0 batch n_chan n_freq n_frames n_src n_taps n_delay n_iter use_dmc :
  (n_src <= n_chan)%nat -> keeps_shape model (rev (batch ++ [n_src; n_freq; n_frames])) n_iter m0 -> forall mic : Z,
  (0 <= mic < Z.of_nat n_chan)%Z -> batch = [] \/ n_src = n_chan \/ (mic < Z.of_nat n_src)%Z ->
  tiss_forward model n_iter n_taps n_delay (Some (Z.of_nat n_src)) (Some mic) use_dmc m0 (rev (batch ++ [n_chan; n_freq; n_frames]))
  = Ok (rev (batch ++ [n_src; n_freq; n_frames])).
Proof. exact (@tiss_mic St model m0 batch n_chan n_freq n_frames n_src n_taps n_delay n_iter use_dmc). Qed.
Print Assumptions c03_tiss.
Theorem c03_tiss_batched St (model : St -> shape -> result (shape * St)) m0 batch n_chan n_freq n_frames n_src n_taps n_delay n_iter use_dmc :
  (n_src <= n_chan)%nat -> keeps_shape model (rev (batch ++ [n_src; n_freq; n_frames])) n_iter m0 -> forall mic : Z,
  (0 <= mic < Z.of_nat n_chan)%Z -> (0 < n_iter)%nat ->
  (exists e, tiss_forward model n_iter n_taps n_delay (Some (Z.of_nat n_src)) (Some mic) use_dmc m0
               (rev (batch ++ [n_chan; n_freq; n_frames])) = Err e)
  <-> batch <> [] /\ (n_src < n_chan)%nat /\ (Z.of_nat n_src <= mic)%Z.
Proof. exact (@tiss_batched St model m0 batch n_chan n_freq n_frames n_src n_taps n_delay n_iter use_dmc). Qed.
Print Assumptions c03_tiss_batched.
Theorem c03_tiss_no_iteration St (model : St -> shape -> result (shape * St)) m0 batch n_chan n_freq n_frames n_src n_taps n_delay n_iter use_dmc :
  (n_src <= n_chan)%nat -> keeps_shape model (rev (batch ++ [n_src; n_freq; n_frames])) n_iter m0 -> forall mic,
  n_iter = 0%nat ->
  tiss_forward model n_iter n_taps n_delay (Some (Z.of_nat n_src)) mic use_dmc m0 (rev (batch ++ [n_chan; n_freq; n_frames]))
  = Ok (rev (batch ++ [n_src; n_freq; n_frames])).
Proof. exact (@tiss_no_iter St model m0 batch n_chan n_freq n_frames n_src n_taps n_delay n_iter use_dmc). Qed.
Print Assumptions c03_tiss_no_iteration.
(* negative indices count from the end of the SOURCES, so that some microphones of the input are not accepted *)
Theorem c03_tiss_negative_mic St (model : St -> shape -> result (shape * St)) m0 batch n_chan n_freq n_frames n_src n_taps n_delay n_iter use_dmc :
  (n_src <= n_chan)%nat -> keeps_shape model (rev (batch ++ [n_src; n_freq; n_frames])) n_iter m0 -> forall mic : Z,
  (0 < n_iter)%nat -> (mic < 0)%Z ->
  tiss_forward model n_iter n_taps n_delay (Some (Z.of_nat n_src)) (Some mic) use_dmc m0 (rev (batch ++ [n_chan; n_freq; n_frames]))
  = if (- Z.of_nat n_src <=? mic)%Z then Ok (rev (batch ++ [n_src; n_freq; n_frames])) else Err IndexError.
Proof. exact (@tiss_neg_mic St model m0 batch n_chan n_freq n_frames n_src n_taps n_delay n_iter use_dmc). Qed.
Print Assumptions c03_tiss_negative_mic.
Theorem c03_tiss_no_such_mic St (model : St -> shape -> result (shape * St)) m0 batch n_chan n_freq n_frames n_src n_taps n_delay n_iter use_dmc :
  (n_src <= n_chan)%nat -> keeps_shape model (rev (batch ++ [n_src; n_freq; n_frames])) n_iter m0 -> forall mic : Z,
  (0 < n_iter)%nat -> (Z.of_nat n_chan <= mic)%Z ->
  tiss_forward model n_iter n_taps n_delay (Some (Z.of_nat n_src)) (Some mic) use_dmc m0 (rev (batch ++ [n_chan; n_freq; n_frames]))
  = Err IndexError.
Proof. exact (@tiss_mic_high St model m0 batch n_chan n_freq n_frames n_src n_taps n_delay n_iter use_dmc). Qed.
Print Assumptions c03_tiss_no_such_mic.
Example c03_tiss_example :
  tiss_forward laplace_shape 2 1 3 (Some 2%Z) (Some 1%Z) true tt (rev ([5; 6] ++ [3; 9; 20])) = Ok (rev ([5; 6] ++ [2; 9; 20]))
  /\ tiss_forward laplace_shape 2 1 3 (Some 2%Z) (Some 2%Z) true tt (rev [3; 9; 20]) = Ok (rev [2; 9; 20])
  /\ tiss_forward laplace_shape 2 1 3 (Some 2%Z) (Some 2%Z) true tt (rev ([5; 6] ++ [3; 9; 20])) = Err RuntimeError
  /\ tiss_forward laplace_shape 2 1 3 (Some 2%Z) (Some (-3)%Z) true tt (rev ([5; 6] ++ [3; 9; 20])) = Err IndexError
  /\ tiss_forward (nmf_shape 4) 2 1 3 (Some 2%Z) (Some (-2)%Z) true None (rev ([5; 6] ++ [3; 9; 20])) = Ok (rev ([5; 6] ++ [2; 9; 20])).
Proof. repeat split; reflexivity. Qed.

(* AuxIVA_IP *)
Theorem c03_ip St (model : St -> shape -> result (shape * St)) m0 batch n_chan n_freq n_frames n_src n_iter :
  (n_src <= n_chan)%nat -> keeps_shape model (rev (batch ++ [n_src; n_freq; n_frames])) n_iter m0 -> forall mic,
  match mic with
  | None => True
  | Some r => (0 <= r < Z.of_nat n_chan)%Z /\ (n_src = n_chan \/ (r < Z.of_nat n_src)%Z)
  end ->
  ip_forward model n_iter (Some (Z.of_nat n_src)) mic m0 (rev (batch ++ [n_chan; n_freq; n_frames]))
  = Ok (rev (batch ++ [n_src; n_freq; n_frames])).
Proof. exact (@ip_ok St model m0 batch n_chan n_freq n_frames n_src n_iter). Qed.
Print Assumptions c03_ip.
(* for the other microphones of an overdetermined problem the result has the wrong shape
   batch + (n_freq,) + batch + (n_src, n_freq, n_frames) *)
Theorem c03_ip_mic_refuted St (model : St -> shape -> result (shape * St)) m0 batch n_chan n_freq n_frames n_src n_iter :
  (n_src <= n_chan)%nat -> keeps_shape model (rev (batch ++ [n_src; n_freq; n_frames])) n_iter m0 -> forall mic : Z,
  (n_src < n_chan)%nat -> (Z.of_nat n_src <= mic < Z.of_nat n_chan)%Z ->
  ip_forward model n_iter (Some (Z.of_nat n_src)) (Some mic) m0 (rev (batch ++ [n_chan; n_freq; n_frames]))
  = Ok (rev (batch ++ n_freq :: batch ++ [n_src; n_freq; n_frames])).
Proof. exact (@ip_over St model m0 batch n_chan n_freq n_frames n_src n_iter). Qed.
Print Assumptions c03_ip_mic_refuted.
Theorem c03_ip_negative_mic St (model : St -> shape -> result (shape * St)) m0 batch n_chan n_freq n_frames n_src n_iter :
  (n_src <= n_chan)%nat -> keeps_shape model (rev (batch ++ [n_src; n_freq; n_frames])) n_iter m0 -> forall mic : Z,
  (mic < 0)%Z ->
  ip_forward model n_iter (Some (Z.of_nat n_src)) (Some mic) m0 (rev (batch ++ [n_chan; n_freq; n_frames]))
  = if (- Z.of_nat n_src <=? mic)%Z then Ok (rev (batch ++ [n_src; n_freq; n_frames])) else Err IndexError.
Proof. exact (@ip_neg_mic St model m0 batch n_chan n_freq n_frames n_src n_iter). Qed.
Print Assumptions c03_ip_negative_mic.
Theorem c03_ip_no_such_mic St (model : St -> shape -> result (shape * St)) m0 batch n_chan n_freq n_frames n_src n_iter :
  (n_src <= n_chan)%nat -> keeps_shape model (rev (batch ++ [n_src; n_freq; n_frames])) n_iter m0 -> forall mic : Z,
  (Z.of_nat n_chan <= mic)%Z ->
  ip_forward model n_iter (Some (Z.of_nat n_src)) (Some mic) m0 (rev (batch ++ [n_chan; n_freq; n_frames])) = Err IndexError.
Proof. exact (@ip_mic_high St model m0 batch n_chan n_freq n_frames n_src n_iter). Qed.
Print Assumptions c03_ip_no_such_mic.
Example c03_ip_example :
  ip_forward gauss_shape 2 (Some 2%Z) (Some 1%Z) tt (rev ([5] ++ [3; 9; 20])) = Ok (rev ([5] ++ [2; 9; 20]))
  /\ ip_forward gauss_shape 2 (Some 3%Z) (Some 2%Z) tt (rev ([5] ++ [3; 9; 20])) = Ok (rev ([5] ++ [3; 9; 20]))
  /\ ip_forward gauss_shape 2 (Some 2%Z) (Some 2%Z) tt (rev ([5] ++ [3; 9; 20])) = Ok (rev [5; 9; 5; 2; 9; 20])
  /\ ip_forward gauss_shape 2 (Some 2%Z) (Some 2%Z) tt (rev [3; 9; 20]) = Ok (rev [9; 2; 9; 20]).
Proof. repeat split; reflexivity. Qed.

(* AuxIVA_IP2 *)
Theorem c03_ip2 St (model : St -> shape -> result (shape * St)) m0 batch n_chan n_freq n_frames n_iter mic :
  n_chan = 2%nat -> keeps_shape model (rev (batch ++ [n_chan; n_freq; n_frames])) n_iter m0 ->
  match mic with Some r => (0 <= r < 2)%Z | None => True end ->
  ip2_forward model n_iter mic m0 (rev (batch ++ [n_chan; n_freq; n_frames])) = Ok (rev (batch ++ [n_chan; n_freq; n_frames])).
Proof. exact (@ip2_py St model m0 batch n_chan n_freq n_frames n_iter mic). Qed.
Print Assumptions c03_ip2.
Theorem c03_ip2_channels St (model : St -> shape -> result (shape * St)) m0 batch n_chan n_freq n_frames n_iter mic :
  n_chan <> 2%nat -> ip2_forward model n_iter mic m0 (rev (batch ++ [n_chan; n_freq; n_frames])) = Err AssertionError.
Proof. exact (@ip2_channels_py St model m0 batch n_chan n_freq n_frames n_iter mic). Qed.
Print Assumptions c03_ip2_channels.
Theorem c03_ip2_no_such_mic St (model : St -> shape -> result (shape * St)) m0 batch n_chan n_freq n_frames n_iter mic :
  ~ (0 <= mic < 2)%Z -> ip2_forward model n_iter (Some mic) m0 (rev (batch ++ [n_chan; n_freq; n_frames])) = Err AssertionError.
Proof. exact (@ip2_mic_py St model m0 batch n_chan n_freq n_frames n_iter mic). Qed.
Print Assumptions c03_ip2_no_such_mic.
Example c03_ip2_example :
  ip2_forward laplace_shape 3 (Some 1%Z) tt (rev ([5; 6; 7] ++ [2; 9; 20])) = Ok (rev ([5; 6; 7] ++ [2; 9; 20]))
  /\ ip2_forward laplace_shape 3 (Some 1%Z) tt (rev ([5; 6; 7] ++ [3; 9; 20])) = Err AssertionError
  /\ ip2_forward laplace_shape 3 (Some (-1)%Z) tt (rev ([5; 6; 7] ++ [2; 9; 20])) = Err AssertionError.
Proof. repeat split; reflexivity. Qed.

(* WPE without a source model *)
Theorem c03_wpe St (model : St -> shape -> result (shape * St)) m0 batch n_chan n_freq n_frames n_taps n_delay n_iter :
  (0 < n_chan)%nat -> (0 < n_taps)%nat ->
  wpe_forward model n_iter n_delay n_taps false m0 (rev (batch ++ [n_chan; n_freq; n_frames]))
  = Ok (rev (batch ++ [n_chan; n_freq; n_frames])).
Proof. exact (@wpe_py St model m0 batch n_chan n_freq n_frames n_taps n_delay n_iter). Qed.
Print Assumptions c03_wpe.
Theorem c03_wpe_no_taps St (model : St -> shape -> result (shape * St)) m0 batch n_chan n_freq n_frames n_delay n_iter :
  (0 < n_iter)%nat ->
  wpe_forward model n_iter n_delay 0 false m0 (rev (batch ++ [n_chan; n_freq; n_frames])) = Err IndexError.
Proof. exact (@wpe_no_taps_py St model m0 batch n_chan n_freq n_frames n_delay n_iter). Qed.
Print Assumptions c03_wpe_no_taps.
(* with a source model of the documented kind (masks of the shape of its input) WPE fails *)
Theorem c03_wpe_model_refuted St (model : St -> shape -> result (shape * St)) m0 batch n_chan n_freq n_frames n_taps n_delay n_iter :
  (2 <= n_chan)%nat -> (0 < n_freq)%nat -> (forall n, In n batch -> (0 < n)%nat) -> (0 < n_iter)%nat ->
  keeps_shape model (rev (batch ++ [n_chan; n_freq; n_frames])) n_iter m0 ->
  exists e, wpe_forward model n_iter n_delay n_taps true m0 (rev (batch ++ [n_chan; n_freq; n_frames])) = Err e.
Proof. exact (@wpe_model_py St model m0 batch n_chan n_freq n_frames n_taps n_delay n_iter). Qed.
Print Assumptions c03_wpe_model_refuted.
Example c03_wpe_example :
  wpe_forward laplace_shape 2 3 4 false tt (rev ([5] ++ [2; 9; 20])) = Ok (rev ([5] ++ [2; 9; 20]))
  /\ wpe_forward laplace_shape 2 3 4 true tt (rev ([2; 2] ++ [2; 9; 20])) = Err RuntimeError
  /\ wpe_forward laplace_shape 2 3 4 true tt (rev [2; 9; 20]) = Err RuntimeError
  /\ wpe_forward laplace_shape 2 3 0 false tt (rev [2; 9; 20]) = Err IndexError.
Proof. repeat split; vm_compute; reflexivity. Qed.

(* ---- C04 *)
Theorem c04_shape St (model : St -> shape -> result (shape * St)) m0 batch n_chan n_freq n_frames n_iter mic n_power_iter :
  (0 < n_freq)%nat -> index_of n_chan mic ->
  match n_power_iter with Some p => (2 <= p)%nat | None => True end \/ n_iter = 0%nat ->
  keeps_shape model (rev (batch ++ [n_freq - 1; n_frames])) n_iter m0 ->
  five_forward model n_iter (Some mic) n_power_iter m0 (rev (batch ++ [n_chan; n_freq; n_frames]))
  = Ok (rev (batch ++ [1; n_freq; n_frames])).
Proof. exact (@five_py St model m0 batch n_chan n_freq n_frames n_iter mic n_power_iter). Qed.
Print Assumptions c04_shape.
Theorem c04_no_projection St (model : St -> shape -> result (shape * St)) m0 batch n_chan n_freq n_frames n_iter n_power_iter Y :
  (0 < n_freq)%nat -> (0 < n_iter)%nat ->
  five_forward model n_iter None n_power_iter m0 (rev (batch ++ [n_chan; n_freq; n_frames])) = Ok Y ->
  (List.length Y >= List.length (batch ++ [1; n_freq; n_frames]) + 2)%nat.
Proof. exact (@five_none_py St model m0 batch n_chan n_freq n_frames n_iter n_power_iter Y). Qed.
Print Assumptions c04_no_projection.
Theorem c04_no_projection_no_iteration St (model : St -> shape -> result (shape * St)) m0 batch n_chan n_freq n_frames n_power_iter :
  (0 < n_chan)%nat -> (0 < n_freq)%nat ->
  five_forward model 0 None n_power_iter m0 (rev (batch ++ [n_chan; n_freq; n_frames]))
  = Ok (rev (batch ++ [1; n_freq; n_frames])).
Proof. exact (@five_none_zero_py St model m0 batch n_chan n_freq n_frames n_power_iter). Qed.
Print Assumptions c04_no_projection_no_iteration.
Theorem c04_power_iterations St (model : St -> shape -> result (shape * St)) m0 batch n_chan n_freq n_frames n_iter mic n_power_iter :
  (0 < n_freq)%nat -> index_of n_chan mic -> (n_power_iter <= 1)%nat -> (0 < n_iter)%nat ->
  keeps_shape model (rev (batch ++ [n_freq - 1; n_frames])) n_iter m0 ->
  five_forward model n_iter (Some mic) (Some n_power_iter) m0 (rev (batch ++ [n_chan; n_freq; n_frames]))
  = Err UnboundLocalError.
Proof. exact (@five_power_py St model m0 batch n_chan n_freq n_frames n_iter mic n_power_iter). Qed.
Print Assumptions c04_power_iterations.
Example c04_example :
  five_forward laplace_shape 2 (Some (-1)%Z) None tt (rev ([5; 6] ++ [3; 9; 20])) = Ok (rev ([5; 6] ++ [1; 9; 20]))
  /\ five_forward laplace_shape 2 (Some 1%Z) (Some 3) tt (rev ([5; 6] ++ [3; 9; 20])) = Ok (rev ([5; 6] ++ [1; 9; 20]))
  /\ five_forward laplace_shape 1 None None tt (rev [3; 9; 20]) = Ok (rev [8; 3; 1; 9; 20])
  /\ five_forward laplace_shape 2 (Some 1%Z) (Some 0) tt (rev ([5; 6] ++ [3; 9; 20])) = Err UnboundLocalError.
Proof. repeat split; reflexivity. Qed.

(* ---- C05; the mask model sees the reference channel *)
Theorem c05_mvdr mask_model batch n_chan n_freq n_frames n_masks n_src ref_mic :
  index_of n_chan ref_mic ->
  mask_model (rev (batch ++ [n_freq; n_frames])) = Ok (rev (batch ++ [n_src; n_masks; n_freq; n_frames])) ->
  forall ty n_power_iter, (n_masks = 2%nat /\ ty <> OtherType) \/ n_masks = 3%nat ->
  mvdr_forward mask_model ty ref_mic n_power_iter (rev (batch ++ [n_chan; n_freq; n_frames]))
  = Ok (rev (batch ++ [n_src; n_freq; n_frames])).
Proof. exact (@mvdr_py mask_model batch n_chan n_freq n_frames n_masks n_src ref_mic). Qed.
Print Assumptions c05_mvdr.
Theorem c05_mvdr_masks mask_model batch n_chan n_freq n_frames n_masks n_src ref_mic :
  index_of n_chan ref_mic ->
  mask_model (rev (batch ++ [n_freq; n_frames])) = Ok (rev (batch ++ [n_src; n_masks; n_freq; n_frames])) ->
  forall ty n_power_iter, n_masks <> 3%nat -> n_masks <> 2%nat \/ ty = OtherType ->
  mvdr_forward mask_model ty ref_mic n_power_iter (rev (batch ++ [n_chan; n_freq; n_frames])) = Err UnboundLocalError.
Proof. exact (@mvdr_unbound_py mask_model batch n_chan n_freq n_frames n_masks n_src ref_mic). Qed.
Print Assumptions c05_mvdr_masks.
Theorem c05_mwf mask_model batch n_chan n_freq n_frames n_masks n_src ref_mic :
  index_of n_chan ref_mic ->
  mask_model (rev (batch ++ [n_freq; n_frames])) = Ok (rev (batch ++ [n_src; n_masks; n_freq; n_frames])) ->
  (2 <= n_masks)%nat ->
  mwf_forward mask_model true ref_mic (rev (batch ++ [n_chan; n_freq; n_frames])) = Ok (rev (batch ++ [n_src; n_freq; n_frames])).
Proof. exact (@mwf_py mask_model batch n_chan n_freq n_frames n_masks n_src ref_mic). Qed.
Print Assumptions c05_mwf.
Theorem c05_mwf_time_varying mask_model batch n_chan n_freq n_frames n_masks n_src ref_mic :
  index_of n_chan ref_mic ->
  mask_model (rev (batch ++ [n_freq; n_frames])) = Ok (rev (batch ++ [n_src; n_masks; n_freq; n_frames])) ->
  n_masks = 4%nat ->
  mwf_forward mask_model false ref_mic (rev (batch ++ [n_chan; n_freq; n_frames])) = Ok (rev (batch ++ [n_src; n_freq; n_frames])).
Proof. exact (@mwf_tv_py mask_model batch n_chan n_freq n_frames n_masks n_src ref_mic). Qed.
Print Assumptions c05_mwf_time_varying.
Theorem c05_mwf_time_varying_masks mask_model batch n_chan n_freq n_frames n_masks n_src ref_mic :
  index_of n_chan ref_mic ->
  mask_model (rev (batch ++ [n_freq; n_frames])) = Ok (rev (batch ++ [n_src; n_masks; n_freq; n_frames])) ->
  (2 <= n_masks)%nat -> n_masks <> 4%nat ->
  mwf_forward mask_model false ref_mic (rev (batch ++ [n_chan; n_freq; n_frames])) = Err AssertionError.
Proof. exact (@mwf_tv_masks_py mask_model batch n_chan n_freq n_frames n_masks n_src ref_mic). Qed.
Print Assumptions c05_mwf_time_varying_masks.
Theorem c05_gev mask_model batch n_chan n_freq n_frames n_masks n_src ref_mic :
  index_of n_chan ref_mic ->
  mask_model (rev (batch ++ [n_freq; n_frames])) = Ok (rev (batch ++ [n_src; n_masks; n_freq; n_frames])) ->
  (2 <= n_masks)%nat ->
  gev_forward mask_model ref_mic (rev (batch ++ [n_chan; n_freq; n_frames])) = Ok (rev (batch ++ [n_src; n_freq; n_frames])).
Proof. exact (@gev_py mask_model batch n_chan n_freq n_frames n_masks n_src ref_mic). Qed.
Print Assumptions c05_gev.
Theorem c05_one_mask mask_model batch n_chan n_freq n_frames n_masks n_src ref_mic :
  index_of n_chan ref_mic ->
  mask_model (rev (batch ++ [n_freq; n_frames])) = Ok (rev (batch ++ [n_src; n_masks; n_freq; n_frames])) ->
  (n_masks <= 1)%nat ->
  mwf_forward mask_model true ref_mic (rev (batch ++ [n_chan; n_freq; n_frames])) = Err IndexError
  /\ mwf_forward mask_model false ref_mic (rev (batch ++ [n_chan; n_freq; n_frames])) = Err IndexError
  /\ gev_forward mask_model ref_mic (rev (batch ++ [n_chan; n_freq; n_frames])) = Err IndexError.
Proof. exact (@few_masks_py mask_model batch n_chan n_freq n_frames n_masks n_src ref_mic). Qed.
Print Assumptions c05_one_mask.
Theorem c05_no_such_mic mask_model batch n_chan n_freq n_frames ref_mic : ~ index_of n_chan ref_mic ->
  (forall ty p, mvdr_forward mask_model ty ref_mic p (rev (batch ++ [n_chan; n_freq; n_frames])) = Err IndexError)
  /\ (forall time_invariant, mwf_forward mask_model time_invariant ref_mic (rev (batch ++ [n_chan; n_freq; n_frames])) = Err IndexError)
  /\ gev_forward mask_model ref_mic (rev (batch ++ [n_chan; n_freq; n_frames])) = Err IndexError.
Proof. exact (@bad_ref mask_model batch n_chan n_freq n_frames ref_mic). Qed.
Print Assumptions c05_no_such_mic.
Example c05_example :
  let masks k (s : shape) := match s with n :: f :: b => Ok (n :: f :: k :: 4 :: b) | _ => Err ValueError end in
  let X := rev ([5; 6] ++ [3; 9; 20]) in let Y := rev ([5; 6] ++ [4; 9; 20]) in
  mvdr_forward (masks 2) Rtf 1 None X = Ok Y /\ mvdr_forward (masks 2) Scm (-3) None X = Ok Y
  /\ mvdr_forward (masks 3) Rtf 1 (Some 5) X = Ok Y /\ mvdr_forward (masks 4) Rtf 1 None X = Err UnboundLocalError
  /\ mwf_forward (masks 2) true 2 X = Ok Y /\ mwf_forward (masks 4) false 2 X = Ok Y
  /\ mwf_forward (masks 2) false 2 X = Err AssertionError
  /\ gev_forward (masks 2) 0 X = Ok Y /\ gev_forward (masks 1) 0 X = Err IndexError
  /\ gev_forward (masks 2) 3 X = Err IndexError.
Proof. repeat split; reflexivity. Qed.
