(* Proofs for C85. *)
From Coq Require Import List ZArith Permutation String Bool Lia.
From Verif Require Import Py DataModel ItemModel ItemSpec ItemProofs ItemCfgProofs StepModel StepSpec.
Import ListNotations.

Lemma made q train valid sets v : data_module q train valid = Ok (sets, v) ->
  (forall x, In x sets -> ref_mic (snd x) = 0%Z /\ shuffle_ref (snd x) = p_shuffle_ref q) /\
  ref_mic v = 0%Z /\ shuffle_ref v = false.
Proof.
  unfold data_module. destruct (train_channels _) as [l|]; simpl; [|discriminate].
  destruct (train_sizes _ _ l) as [b|]; simpl; [|discriminate]. intros [= <- <-].
  split; [|split; reflexivity]. intros x K. apply in_map_iff in K. destruct K as (y & <- & _). split; reflexivity.
Qed.
Lemma fed n_chan x : (0 <= n_chan)%Z -> chans (net_input n_chan x) = Nat.min (Z.to_nat n_chan) (chans x).
Proof.
  intro H. simpl. unfold bound. destruct (Z.ltb_spec n_chan 0); [lia|].
  lia.
Qed.
Lemma projected_at n_chan pb x : (0 <= pb < n_chan)%Z -> (pb < Z.of_nat (chans x))%Z ->
  projected n_chan pb x = Ok (at_ x (Z.to_nat pb)).
Proof.
  intros H L. unfold projected. pose proof (fed n_chan x) as F. unfold pyget.
  rewrite seq_length. destruct (Z.ltb_spec pb 0); [lia|].
  rewrite F by lia.
  assert (X : ((0 <=? pb) && (pb <? Z.of_nat (Nat.min (Z.to_nat n_chan) (chans x))))%Z = true).
  { apply andb_true_intro. split; [apply Z.leb_le|apply Z.ltb_lt]; lia. }
  rewrite X.
  assert (Y : nth_error (seq 0 (Nat.min (Z.to_nat n_chan) (chans x))) (Z.to_nat pb) = Some (Z.to_nat pb)).
  { rewrite (nth_error_nth' _ 0) by (rewrite seq_length; lia). rewrite seq_nth by lia. reflexivity. }
  rewrite Y. reflexivity.
Qed.
Section Step.
Variables (load : path -> option (sig Z * Z)) (ws : list draw) (d : dataset) (idx : Z) (x y : sig Z).
Hypotheses (Fw : Forall fair ws) (Cd : complete load d) (R0 : ref_mic d = 0%Z) (SR : shuffle_ref d = false).
Hypothesis G : getitem load ws d idx = Ok (x, y).
Lemma some_channel : 0 < chans x.
Proof.
  destruct (@item_lemma load ws d idx x y Fw Cd G) as (r & m & xs & fs & p & s & n & mic & _ & _ & _ & _ & (E & _) & _ & L & _).
  lia.
Qed.
Lemma microphone_lemma n_chan pb : (0 <= pb < n_chan)%Z -> (pb < Z.of_nat (chans x))%Z ->
  exists r m xs fs p s n f, In r (metadata d) /\
    recorded load (mix_file (noiseless d) r) (ref_files (ref_is_reverb d) r) m xs fs /\
    shuffles p (chans m) /\ projected n_chan pb x = Ok f /\ (forall t, t < n -> f t = at_ m (p (Z.to_nat pb)) (s + t)) /\
    references (p 0) s n xs y.
Proof.
  intros H L. pose proof (projected_at n_chan pb x H L) as P.
  destruct (@item_lemma load ws d idx x y Fw Cd G) as (r & m & xs & fs & p & s & n & mic & I & Rc & Sh & _ & (Ec & El & Ea) & Rf & _ & _ & M & _).
  rewrite R0 in M. specialize (M SR). simpl in M. subst mic.
  exists r, m, xs, fs, p, s, n, (at_ x (Z.to_nat pb)).
  split; [exact I|]. split; [exact Rc|]. split; [exact Sh|]. split; [exact P|]. split; [|exact Rf].
  intros t T. apply Ea; lia.
Qed.
Lemma sum_lemma n_chan : (1 <= n_chan)%Z ->
  (forall r m xs fs, In r (metadata d) ->
     recorded load (mix_file (noiseless d) r) (ref_files (ref_is_reverb d) r) m xs fs -> adds_up m xs) ->
  exists f, projected n_chan 0 x = Ok f /\ len y = len x /\
    forall t, t < len x -> f t = sum (map (fun k => at_ y k t) (seq 0 (chans y))).
Proof.
  intros H A. pose proof some_channel as C. pose proof (projected_at n_chan 0 x) as P.
  destruct (@aligned_lemma load ws d idx x y Fw SR Cd A G) as [L S]. rewrite R0 in S.
  exists (at_ x 0). split; [apply P; lia|]. split; [exact L|exact S].
Qed.
End Step.

Lemma plain_made q train valid d : plain_set q train valid d -> ref_mic d = 0%Z /\ shuffle_ref d = false.
Proof.
  intros (sets & v & E & K). destruct (made q train valid sets v E) as (S & R & V).
  destruct K as [->|(N & m & b & I)]; [split; assumption|]. destruct (S _ I) as [R' S']. simpl in *. split; congruence.
Qed.
Lemma microphone_full load ws q train valid d idx x y n_chan pb : Forall fair ws -> plain_set q train valid d -> complete load d ->
  getitem load ws d idx = Ok (x, y) -> (0 <= pb < n_chan)%Z -> (pb < Z.of_nat (chans x))%Z ->
  exists r m xs fs p s n f, In r (metadata d) /\
    recorded load (mix_file (noiseless d) r) (ref_files (ref_is_reverb d) r) m xs fs /\
    shuffles p (chans m) /\ projected n_chan pb x = Ok f /\ (forall t, t < n -> f t = at_ m (p (Z.to_nat pb)) (s + t)) /\
    references (p 0) s n xs y.
Proof. intros F P C G. destruct (plain_made _ _ _ _ P) as [R S]. exact (microphone_lemma load ws d idx x y F C R S G n_chan pb). Qed.
Lemma sum_full load ws q train valid d idx x y n_chan : Forall fair ws -> plain_set q train valid d -> complete load d ->
  (forall r m xs fs, In r (metadata d) ->
     recorded load (mix_file (noiseless d) r) (ref_files (ref_is_reverb d) r) m xs fs -> adds_up m xs) ->
  getitem load ws d idx = Ok (x, y) -> (1 <= n_chan)%Z ->
  exists f, projected n_chan 0 x = Ok f /\ len y = len x /\
    forall t, t < len x -> f t = sum (map (fun k => at_ y k t) (seq 0 (chans y))).
Proof. intros F P C A G N. destruct (plain_made _ _ _ _ P) as [R S]. exact (sum_lemma load ws d idx x y F C R S G n_chan N A). Qed.
Lemma input_lemma n_chan x : (0 <= n_chan)%Z -> chans (net_input n_chan x) = Nat.min (Z.to_nat n_chan) (chans x) /\
  len (net_input n_chan x) = len x /\ forall c t, at_ (net_input n_chan x) c t = at_ x c t.
Proof. intro H. split; [now apply fed|]. split; reflexivity. Qed.

(* witnesses: two microphones hearing different things, one source *)
Definition w_load (_ : path) : option (sig Z * Z) := Some (mksig 2 1 (fun c _ => (Z.of_nat c + 1)%Z), 8000%Z).
Definition w_room : room := mkroom [] [] [[]] [[]] [] [].
Definition w_params (sr : bool) : params := mkparams 1 None false sr (COne (KInt 2)) None None false (Some true).
Definition w_draw : draw := mkdraw (fun n => seq 0 n) (fun n => n - 1) (fun _ => 0%Z).
Lemma w_fair : fair w_draw.
Proof. split; [intro; apply Permutation_refl|]. split; intros n H; simpl; lia. Qed.
Definition w_set (sr : bool) : dataset := dataset_init None 0 false sr true false None [w_room].
Lemma w_rec sr r : In r (metadata (w_set sr)) ->
  recorded w_load (mix_file (noiseless (w_set sr)) r) (ref_files (ref_is_reverb (w_set sr)) r)
    (mksig 2 1 (fun c _ => (Z.of_nat c + 1)%Z)) [mksig 2 1 (fun c _ => (Z.of_nat c + 1)%Z)] 8000%Z.
Proof.
  intros [<-|[]]. split; [reflexivity| |discriminate|].
  - constructor; [reflexivity|constructor].
  - constructor; [split; reflexivity|constructor].
Qed.
Lemma w_complete sr : complete w_load (w_set sr).
Proof. intros r K. eexists. eexists. eexists. split; [exact (w_rec sr r K)|simpl; lia]. Qed.
Lemma w_adds : adds_up (mksig 2 1 (fun c _ => (Z.of_nat c + 1)%Z)) [mksig 2 1 (fun c _ => (Z.of_nat c + 1)%Z)].
Proof. intros c t _ _. unfold sum. simpl. lia. Qed.
Lemma ref_mic_witness : exists load w q rooms b d m xs x y f,
  fair w /\ data_module q rooms [] = Ok ([(2%Z, b, d)], dataset_init None 0 false false true false None []) /\
  shuffle_ref d = false /\ complete load d /\
  (forall r, In r (metadata d) -> recorded load (mix_file (noiseless d) r) (ref_files (ref_is_reverb d) r) m xs 8000%Z) /\
  adds_up m xs /\ getitem load [w] d 0 = Ok (x, y) /\ projected 2 1 x = Ok f /\
  f 0 <> sum (map (fun k => at_ y k 0) (seq 0 (chans y))).
Proof.
  exists w_load, w_draw, (w_params false), [w_room], 1%Z, (w_set false). eexists. eexists. eexists. eexists. eexists.
  split; [exact w_fair|]. split; [reflexivity|]. split; [reflexivity|]. split; [exact (w_complete false)|].
  split; [exact (w_rec false)|]. split; [exact w_adds|]. split; [reflexivity|]. split; [reflexivity|]. vm_compute. discriminate.
Qed.
Lemma shuffle_ref_witness : exists load w q rooms b d m xs x y,
  fair w /\ data_module q rooms [] = Ok ([(2%Z, b, d)], dataset_init None 0 false false true false None []) /\
  shuffle_ref d = true /\ complete load d /\
  (forall r, In r (metadata d) -> recorded load (mix_file (noiseless d) r) (ref_files (ref_is_reverb d) r) m xs 8000%Z) /\
  adds_up m xs /\ getitem load [w] d 0 = Ok (x, y) /\ 0 < chans (net_input 1 x) /\
  forall c, c < chans (net_input 1 x) -> at_ (net_input 1 x) c 0 <> sum (map (fun k => at_ y k 0) (seq 0 (chans y))).
Proof.
  exists w_load, w_draw, (w_params true), [w_room], 1%Z, (w_set true). eexists. eexists. eexists. eexists.
  split; [exact w_fair|]. split; [reflexivity|]. split; [reflexivity|]. split; [exact (w_complete true)|].
  split; [exact (w_rec true)|]. split; [exact w_adds|]. split; [reflexivity|]. split; [vm_compute; lia|].
  intros c H. assert (c = 0) as -> by (revert H; vm_compute; lia). vm_compute. discriminate.
Qed.
