(* Property C81: what the example scripts warn about, separate and compare. *)
From Coq Require Import List ZArith Bool.
From mathcomp Require ssreflect.ssrnat algebra.ssrnum.
From Verif Require Import Py TorchShape ShapeModel ShapeSpec DataModel ItemModel ScriptModel ScriptSpec ScriptProofs.
From Verif Require TissModel ScriptDelayProofs.
Import ListNotations.

(* T_ISS and AuxIVA_IP: two references against at most two of the n_src outputs, cut to one length *)
Theorem c81_compared St (model : St -> shape -> result (shape * St)) m0 a h c n len s ch :
  transformable a h n -> algo a = Tiss \/ algo a = AuxivaIp -> n_src a = Z.of_nat s -> channels_are a (Z.of_nat ch) ->
  (0 < s <= ch)%nat -> (ch <= c)%nat -> keeps_shape model (rev [s; S (n_fft a / 2); S (n / h)]) (n_iter a) m0 ->
  run model a m0 c n len = Ok (rev [2; Nat.min len (n / h * h)], rev [Nat.min s 2; Nat.min len (n / h * h)])%nat.
Proof. exact (@compared St model m0 a h c n len s ch). Qed.
Print Assumptions c81_compared.
Theorem c81_ip2 St (model : St -> shape -> result (shape * St)) m0 a h c n len :
  transformable a h n -> algo a = AuxivaIp2 -> (2 <= c)%nat ->
  keeps_shape model (rev [2%nat; S (n_fft a / 2); S (n / h)]) (n_iter a) m0 ->
  (n_src a = 2%Z /\ channels_are a 2 ->
     run model a m0 c n len = Ok (rev [2; Nat.min len (n / h * h)], rev [2; Nat.min len (n / h * h)])%nat)
  /\ (~ (n_src a = 2%Z /\ channels_are a 2) -> run model a m0 c n len = Err AssertionError).
Proof. exact (@ip2_compared St model m0 a h c n len). Qed.
Print Assumptions c81_ip2.
(* FIVE: always one output against two references, whatever n_src *)
Theorem c81_five_refuted St (model : St -> shape -> result (shape * St)) m0 a h c n len ch :
  transformable a h n -> algo a = Five -> channels_are a (Z.of_nat ch) -> (0 < ch <= c)%nat ->
  keeps_shape model (rev [(n_fft a / 2)%nat; S (n / h)]) (n_iter a) m0 ->
  run model a m0 c n len = Ok (rev [2; Nat.min len (n / h * h)], rev [1; Nat.min len (n / h * h)])%nat.
Proof. exact (@five_compared St model m0 a h c n len ch). Qed.
Print Assumptions c81_five_refuted.
Theorem c81_too_few St (model : St -> shape -> result (shape * St)) m0 a h c n len ch z :
  transformable a h n -> algo a = Tiss \/ algo a = AuxivaIp -> channels_are a (Z.of_nat ch) -> (0 < ch <= c)%nat ->
  (Z.of_nat ch < z)%Z -> n_src a = z -> run model a m0 c n len = Err ValueError.
Proof. intros t. exact (@too_few St model m0 a h c n len ch t z). Qed.
Print Assumptions c81_too_few.
Example c81_example :
  let a := mkargs Tiss 8 None 2 0 0 3 None in let b := mkargs AuxivaIp2 8 (Some 4)%nat 1 0 0 2 None in
  let e := mkargs Five 8 None 1 0 0 2 None in
  transformable a 2 31 /\ run laplace_shape a tt 4 31 40 = Ok (rev [2; 30], rev [2; 30])%nat /\
  transformable b 4 31 /\ run laplace_shape b tt 4 31 20 = Ok (rev [2; 20], rev [2; 20])%nat /\
  run laplace_shape e tt 4 31 40 = Ok (rev [2; 30], rev [1; 30])%nat /\
  run laplace_shape a tt 2 31 40 = Err ValueError /\
  keeps_shape laplace_shape (rev [3; 5; 16])%nat 2 tt.
Proof.
repeat split; try (vm_compute; reflexivity); try (cbn; auto with arith; fail); try (right; split; reflexivity); try (left; reflexivity);
  try (cbn; repeat constructor).
exists tt; split; [reflexivity|exists tt; split; [reflexivity|exact I]].
Qed.

(* the warning that no dereverberation is performed appears whenever taps are asked for *)
Theorem c81_tap_warning a : (exists x, In (NoDereverberation x) (warnings a)) <-> (0 < tap a)%nat.
Proof. exact (tap_warning a). Qed.
Print Assumptions c81_tap_warning.
(* so it also appears for T_ISS, which is given these taps *)
Theorem c81_warning_true_refuted : exists a x, In (NoDereverberation x) (warnings a) /\
  exists t d, prediction a = Some (t, d) /\ (0 < t)%nat.
Proof. exists (mkargs Tiss 4096 None 20 1 5 2 None), 5%Z. split; [now left|]. exists 5%nat, 1%nat. split; [reflexivity|auto with arith]. Qed.
Print Assumptions c81_warning_true_refuted.
(* the warning of FIVE is right about the ignored number of sources but shows the number of taps *)
Theorem c81_source_warning a x : In (OneSourceOnly x) (warnings a) <-> algo a = Five /\ n_src a <> 1%Z /\ x = Z.of_nat (tap a).
Proof. exact (source_warning a x). Qed.
Print Assumptions c81_source_warning.
Theorem c81_shown_number_refuted : exists a x, In (OneSourceOnly x) (warnings a) /\ x <> n_src a.
Proof. exists (mkargs Five 4096 None 20 0 0 2 None), 0%Z. split; [now left|discriminate]. Qed.
Print Assumptions c81_shown_number_refuted.

(* reverberant references exactly without taps and delay *)
Theorem c81_references a : references a = Reverberant <-> delay a = 0%nat /\ tap a = 0%nat.
Proof. exact (references_lemma a). Qed.
Print Assumptions c81_references.
(* but a delay without taps does not change the output of T_ISS *)
Theorem c81_delay_without_taps (C : algebra.ssrnum.Num.ClosedField.type) nS nB nF nN St
    (model : St -> TissModel.sig C nF nN nS -> TissModel.sig C nF nN nS * St)
    (X : TissModel.sig C nF nN (ssreflect.ssrnat.addn nS nB)) eps n_iter use_dmc mic m0 d d' :
  TissModel.forward 0 d model X eps n_iter use_dmc mic m0 = TissModel.forward 0 d' model X eps n_iter use_dmc mic m0.
Proof. exact (ScriptDelayProofs.delay_irrelevant model X eps n_iter use_dmc mic m0 d d'). Qed.
Print Assumptions c81_delay_without_taps.
Example c81_references_example :
  references (mkargs Tiss 4096 None 20 3 0 2 None) = Anechoic /\ prediction (mkargs Tiss 4096 None 20 3 0 2 None) = Some (0, 3)%nat.
Proof. split; reflexivity. Qed.

(* example_dnn.py separates the first src channels of the mixture *)
Theorem c81_dnn V mic src (x : sig V) : (0 <= src)%Z ->
  dnn_input mic src x = if (src <=? mic)%Z then Ok (mksig (Nat.min (chans x) (Z.to_nat src)) (len x) (at_ x)) else Err AssertionError.
Proof. exact (@dnn_lemma V mic src x). Qed.
Print Assumptions c81_dnn.
(* the number of microphones asked for is not that of the separated channels, although the
   recording has enough *)
Theorem c81_dnn_mics_refuted : exists (x : sig Z) y, (chans x = 6)%nat /\ dnn_input 4 2 x = Ok y /\ chans y <> 4%nat.
Proof.
exists (mksig 6 1 (fun _ _ => 0%Z)), (mksig 2 1 (fun _ _ => 0%Z)). repeat split; discriminate.
Qed.
Print Assumptions c81_dnn_mics_refuted.
Example c81_dnn_example : (0 <= 2)%Z /\ dnn_input 3 2 (mksig 6 4 (fun c t => Z.of_nat (c + t))) = Ok (mksig 2 4 (fun c t => Z.of_nat (c + t)))
  /\ dnn_input 1 2 (mksig 6 4 (fun c t => Z.of_nat (c + t))) = Err AssertionError.
Proof. repeat split; discriminate. Qed.
