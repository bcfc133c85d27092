(* C85: the microphone of the targets and the microphone that the separator projects back to. *)
From Coq Require Import List ZArith Permutation String Lia.
From Verif Require Import Py DataModel ItemModel ItemSpec StepModel StepSpec StepProofs.
Import ListNotations.

(* the separator gets the first n_chan channels of the item, as they are *)
Theorem c85_input n_chan x : (0 <= n_chan)%Z -> chans (net_input n_chan x) = Nat.min (Z.to_nat n_chan) (chans x) /\
  len (net_input n_chan x) = len x /\ forall c t, at_ (net_input n_chan x) c t = at_ x c t.
Proof. exact (input_lemma n_chan x). Qed.
Print Assumptions c85_input.

(* whatever the random numbers, without shuffle_ref: the separated signals are projected back to microphone p ref_mic
   of the recording, p being the order of the channels, and the targets are the references at microphone p 0 *)
Theorem c85_microphone load ws q train valid d idx x y n_chan ref_mic :
  Forall fair ws -> plain_set q train valid d -> complete load d -> getitem load ws d idx = Ok (x, y) ->
  (0 <= ref_mic < n_chan)%Z -> (ref_mic < Z.of_nat (chans x))%Z ->
  exists r m xs fs p s n f, In r (metadata d) /\
    recorded load (mix_file (noiseless d) r) (ref_files (ref_is_reverb d) r) m xs fs /\
    shuffles p (chans m) /\ projected n_chan ref_mic x = Ok f /\
    (forall t, t < n -> f t = at_ m (p (Z.to_nat ref_mic)) (s + t)) /\ references (p 0) s n xs y.
Proof. exact (microphone_full load ws q train valid d idx x y n_chan ref_mic). Qed.
Print Assumptions c85_microphone.

(* so with ref_mic 0, as in the configurations of the repository, and mixtures that are the sums of their
   references, the channel projected back to is the sum of the targets *)
Theorem c85_sum load ws q train valid d idx x y n_chan :
  Forall fair ws -> plain_set q train valid d -> complete load d ->
  (forall r m xs fs, In r (metadata d) ->
     recorded load (mix_file (noiseless d) r) (ref_files (ref_is_reverb d) r) m xs fs -> adds_up m xs) ->
  getitem load ws d idx = Ok (x, y) -> (1 <= n_chan)%Z ->
  exists f, projected n_chan 0 x = Ok f /\ len y = len x /\
    forall t, t < len x -> f t = sum (map (fun k => at_ y k t) (seq 0 (chans y))).
Proof. exact (sum_full load ws q train valid d idx x y n_chan). Qed.
Print Assumptions c85_sum.

(* a user expects the same for every ref_mic of the configuration: it does not reach the data, whose targets stay
   at the first channel *)
Theorem c85_ref_mic_refuted : exists load w q rooms b d m xs x y f,
  fair w /\ data_module q rooms [] = Ok ([(2%Z, b, d)], dataset_init None 0 false false true false None []) /\
  shuffle_ref d = false /\ complete load d /\
  (forall r, In r (metadata d) -> recorded load (mix_file (noiseless d) r) (ref_files (ref_is_reverb d) r) m xs 8000%Z) /\
  adds_up m xs /\ getitem load [w] d 0 = Ok (x, y) /\ projected 2 1 x = Ok f /\
  f 0 <> sum (map (fun k => at_ y k 0) (seq 0 (chans y))).
Proof. exact ref_mic_witness. Qed.
Print Assumptions c85_ref_mic_refuted.

(* with shuffle_ref the targets can be those of a microphone which the separator does not get at all *)
Theorem c85_shuffle_ref_refuted : exists load w q rooms b d m xs x y,
  fair w /\ data_module q rooms [] = Ok ([(2%Z, b, d)], dataset_init None 0 false false true false None []) /\
  shuffle_ref d = true /\ complete load d /\
  (forall r, In r (metadata d) -> recorded load (mix_file (noiseless d) r) (ref_files (ref_is_reverb d) r) m xs 8000%Z) /\
  adds_up m xs /\ getitem load [w] d 0 = Ok (x, y) /\ 0 < chans (net_input 1 x) /\
  forall c, c < chans (net_input 1 x) -> at_ (net_input 1 x) c 0 <> sum (map (fun k => at_ y k 0) (seq 0 (chans y))).
Proof. exact shuffle_ref_witness. Qed.
Print Assumptions c85_shuffle_ref_refuted.

(* two microphones, exchanged by shuffle_channels: target and projection both at the second microphone *)
Definition e_load (_ : path) : option (sig Z * Z) := Some (mksig 2 1 (fun c _ => (Z.of_nat c + 1)%Z), 8000%Z).
Definition e_room : room := mkroom [] [] [[]] [[]] [] [].
Definition e_params : params := mkparams 1 None true false (COne (KInt 2)) None None false (Some true).
Definition e_set : dataset := dataset_init None 0 true false true false None [e_room].
Definition e_draw : draw := mkdraw (fun n => rev (seq 0 n)) (fun n => n - 1) (fun _ => 0%Z).
Example c85_microphone_ex : fair e_draw /\ plain_set e_params [e_room] [] e_set /\ complete e_load e_set /\
  exists x y f, getitem e_load [e_draw] e_set 0 = Ok (x, y) /\ chans (net_input 2 x) = 2 /\ chans (net_input 1 x) = 1 /\
    projected 2 0 x = Ok f /\ f 0 = 2%Z /\ at_ y 0 0 = 2%Z.
Proof.
  split; [|split; [|split]].
  - split; [intro n; simpl; symmetry; apply Permutation_rev|]. split; intros n H; simpl; lia.
  - eexists. eexists. split; [reflexivity|]. right. split; [reflexivity|]. exists 2%Z, 1%Z. left. reflexivity.
  - intros r [<-|[]]. exists (mksig 2 1 (fun c _ => (Z.of_nat c + 1)%Z)), [mksig 2 1 (fun c _ => (Z.of_nat c + 1)%Z)], 8000%Z.
    split; [|simpl; lia]. split; [reflexivity| |discriminate|]; constructor; try constructor; reflexivity.
  - eexists. eexists. eexists. split; [reflexivity|]. repeat split; reflexivity.
Qed.
