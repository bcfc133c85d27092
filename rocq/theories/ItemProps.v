(* Property C78: the items of the training data and the parameters of the data module. *)
From Coq Require Import List ZArith Permutation String Lia.
From Verif Require Import Py DataModel ItemModel ItemSpec ItemProofs ItemCfgProofs.
Import ListNotations.

(* whatever the random numbers, an item consists of one excerpt, the same for all signals, of the
   files of one room: all channels of the mixture, shuffled only if that is wanted, and one channel
   of every reference, the one that went to place ref_mic unless shuffle_ref is set; without
   max_len_s it is the whole of the requested room *)
Theorem c78_item load ws d idx x y : Forall fair ws -> complete load d -> getitem load ws d idx = Ok (x, y) ->
  exists r m xs fs p s n mic, In r (metadata d) /\
    recorded load (mix_file (noiseless d) r) (ref_files (ref_is_reverb d) r) m xs fs /\
    shuffles p (chans m) /\ s + n <= len m /\ excerpt p s n m x /\ references mic s n xs y /\ mic < chans m /\
    (shuffle_channels d = false -> forall c, c < chans m -> p c = c) /\
    (shuffle_ref d = false -> mic = p (Z.to_nat (ref_mic d))) /\
    (max_len_s d = None -> element (metadata d) idx r /\ s = 0 /\ n = len m).
Proof. exact (@item_lemma load ws d idx x y). Qed.
Print Assumptions c78_item.
(* files that do not fit together are refused: whatever is on the disk, an item comes from a room
   whose reference files all exist, have the sampling rate of the mixture and one length *)
Theorem c78_rates load ws d idx x y : getitem load ws d idx = Ok (x, y) ->
  exists r m fs n, In r (metadata d) /\ load (relative (mix_file (noiseless d) r)) = Some (m, fs) /\
    ref_files (ref_is_reverb d) r <> [] /\
    Forall (fun f => exists z, load (relative f) = Some (z, fs) /\ len z = n) (ref_files (ref_is_reverb d) r).
Proof. exact (@rates_lemma load ws d idx x y). Qed.
Print Assumptions c78_rates.
(* so mixture and targets stay aligned: if the mixtures are the sums of their references, the
   channel ref_mic of the item is the sum of its targets *)
Theorem c78_aligned load ws d idx x y : Forall fair ws -> shuffle_ref d = false -> complete load d ->
  (forall r m xs fs, In r (metadata d) ->
     recorded load (mix_file (noiseless d) r) (ref_files (ref_is_reverb d) r) m xs fs -> adds_up m xs) ->
  getitem load ws d idx = Ok (x, y) ->
  len y = len x /\ forall t, t < len x ->
    at_ x (Z.to_nat (ref_mic d)) t = sum (map (fun k => at_ y k t) (seq 0 (chans y))).
Proof. exact (@aligned_lemma load ws d idx x y). Qed.
Print Assumptions c78_aligned.
(* with shuffle_ref no channel is designated: channel ref_mic is not the sum of the targets *)
Theorem c78_shuffle_ref_refuted : exists load w d m xs x y,
  fair w /\ complete load d /\ shuffle_ref d = true /\
  (forall r, In r (metadata d) ->
     recorded load (mix_file (noiseless d) r) (ref_files (ref_is_reverb d) r) m xs 1%Z) /\ adds_up m xs /\
  getitem load [w] d 0 = Ok (x, y) /\
  at_ x (Z.to_nat (ref_mic d)) 0 <> sum (map (fun k => at_ y k 0) (seq 0 (chans y))).
Proof. exact shuffle_ref_full. Qed.
Print Assumptions c78_shuffle_ref_refuted.
(* the length is that asked for, or the whole of a shorter mixture *)
Theorem c78_length load ws d idx x y num den :
  Forall fair ws -> complete load d -> max_len_s d = Some (num, den) -> (0 <= num)%Z ->
  (forall r, In r (metadata d) -> offset r <> [] /\ List.length (n_samples_original r) = List.length (offset r)) ->
  (forall f w fs, load f = Some (w, fs) -> (0 <= fs)%Z) ->
  getitem load ws d idx = Ok (x, y) ->
  exists r m fs, In r (metadata d) /\ load (relative (mix_file (noiseless d) r)) = Some (m, fs) /\
    Z.of_nat (len x) = Z.min (fs * num / Zpos den) (Z.of_nat (len m)) /\ len y = len x.
Proof. exact (@length_lemma load ws d idx x y num den). Qed.
Print Assumptions c78_length.
(* nothing compares the lengths of mixture and references *)
Theorem c78_equal_lengths_refuted : exists load w d x y, fair w /\ max_len_s d = None /\
  getitem load [w] d 0 = Ok (x, y) /\ len x = 3 /\ len y = 2.
Proof. exact lengths_lemma. Qed.
Print Assumptions c78_equal_lengths_refuted.
(* with max_len_s no target is silent *)
Theorem c78_not_silent load ws d idx x y : max_len_s d <> None -> getitem load ws d idx = Ok (x, y) ->
  0 < len y -> forall k, k < chans y -> ~ silent (len y) (at_ y k).
Proof. exact (@not_silent_lemma load ws d idx x y). Qed.
Print Assumptions c78_not_silent.
(* without it they may be *)
Theorem c78_silent_refuted : exists load w d x y, fair w /\ max_len_s d = None /\ getitem load [w] d 0 = Ok (x, y) /\
  0 < chans y /\ 0 < len y /\ forall k, silent (len y) (at_ y k).
Proof. exact mute_full. Qed.
Print Assumptions c78_silent_refuted.
(* without max_len_s every room can be loaded, at the first attempt *)
Theorem c78_whole load w ws d i r : fair w -> complete load d -> max_len_s d = None -> element (metadata d) i r ->
  exists x y, getitem load (w :: ws) d i = Ok (x, y).
Proof. exact (@whole_lemma load w ws d i r). Qed.
Print Assumptions c78_whole.
(* with max_len_s a room is discarded although none of its references is silent: the test is for
   the mean, not for the power.  Another room comes instead, or nothing however long one tries *)
Theorem c78_discarded_refuted : exists load r m fs ds,
  recorded load (mix_file false r) (ref_files true r) m [m] fs /\
  (forall c, c < chans m -> ~ silent 2 (at_ m c)) /\
  (forall rooms, max_len_s (ds rooms) = Some (2, 1%positive)%Z /\ metadata (ds rooms) = rooms /\ noiseless (ds rooms) = false /\
     ref_is_reverb (ds rooms) = true) /\
  (forall ws, Forall fair ws -> getitem load ws (ds [r]) 0 = Err RuntimeError) /\
  exists w r' x y, fair w /\ getitem load [w; w] (ds [r; r']) 0 = Ok (x, y) /\ chans y = 2.
Proof. exact swing_full. Qed.
Print Assumptions c78_discarded_refuted.

(* the data module: for a dict of distinct numbers of channels, with integer keys or the strings of
   a JSON file, there is one training set for each, in order, with the batch size given for it; it
   has the first n rooms, all of them for -1 and without a number, and with other negative
   numbers all but the last ones *)
Theorem c78_module q ks l train valid :
  p_train_n_channels q = CDict ks ->
  Forall2 (fun k p => names (fst k) (fst p) /\ snd k = snd p) ks l -> NoDup (map fst l) ->
  (forall g, p_train_n_batch_sizes q = Some g -> NoDup (map fst g) /\ forall m n, In (m, n) l -> In (str m) (map fst g)) ->
  exists sets v, data_module q train valid = Ok (sets, v) /\
    Forall2 (fun p x => fst (fst x) = fst p /\
        match p_train_n_batch_sizes q with
        | None => snd (fst x) = p_batch_size q
        | Some g => In (str (fst p), snd (fst x)) g
        end /\ selected (snd p) train (metadata (snd x))) l sets /\ metadata v = valid.
Proof. exact (@module_lemma q ks l train valid). Qed.
Print Assumptions c78_module.
(* a batch size that is not given is a KeyError *)
Theorem c78_missing_size q ks l train valid g m n :
  p_train_n_channels q = CDict ks ->
  Forall2 (fun k p => names (fst k) (fst p) /\ snd k = snd p) ks l -> NoDup (map fst l) ->
  p_train_n_batch_sizes q = Some g -> In (m, n) l -> ~ In (str m) (map fst g) ->
  data_module q train valid = Err KeyError.
Proof. exact (@module_missing q ks l train valid g m n). Qed.
Print Assumptions c78_missing_size.
(* the number of channels has no influence on the data: sets of the same size are the same set *)
Theorem c78_same_data q train valid sets v m1 b1 d1 m2 b2 d2 :
  data_module q train valid = Ok (sets, v) -> In (m1, b1, d1) sets -> In (m2, b2, d2) sets ->
  n_items d1 = n_items d2 -> d1 = d2.
Proof. exact (@same_data q train valid sets v m1 b1 d1 m2 b2 d2). Qed.
Print Assumptions c78_same_data.
(* so the items of the set for one channel, and of the validation set with one channel, may have
   two *)
Theorem c78_channels_refuted : exists load w q train valid b d v x y, fair w /\ complete load d /\
  p_train_n_channels q = CList [KInt 1] /\ p_valid_n_channels q = Some 1%Z /\
  data_module q train valid = Ok ([(1%Z, b, d)], v) /\
  getitem load [w] d 0 = Ok (x, y) /\ chans x = 2 /\
  exists x' y', getitem load [w] v 0 = Ok (x', y') /\ chans x' = 2.
Proof. exact channels_full. Qed.
Print Assumptions c78_channels_refuted.
(* the documented default, reverberant references, is not that of the data module: left out,
   ref_is_reverb is None and the anechoic ones are loaded *)
Theorem c78_default_refuted : exists load w q rooms sets v x y x' y', fair w /\ p_ref_is_reverb q = None /\
  data_module q rooms rooms = Ok (sets, v) /\ getitem load [w] v 0 = Ok (x, y) /\
  getitem load [w] (dataset_init None 0 false false true false None rooms) 0 = Ok (x', y') /\
  at_ y 0 1 <> at_ y' 0 1.
Proof. exact default_full. Qed.
Print Assumptions c78_default_refuted.

(* two rooms-worth of files, channels reversed, two samples out of three *)
Definition d78 : dataset := mkds (Some (2, 1%positive)%Z) 0%Z true false true false [good; good].
Example c78_example_complete : complete files d78 /\ Forall fair [wa; wb].
Proof. exact (conj (@complete_good (Some (2, 1%positive)%Z) true false) (Forall_cons _ fair_wa (Forall_cons _ fair_wb (Forall_nil _)))). Qed.
Example c78_example_sum r m xs fs : In r (metadata d78) ->
  recorded files (mix_file (noiseless d78) r) (ref_files (ref_is_reverb d78) r) m xs fs -> adds_up m xs.
Proof. exact (fun h => @good_unique (Some (2, 1%positive)%Z) true false r m xs fs h). Qed.
Example c78_example : exists x y, getitem files [wa; wb] d78 1 = Ok (x, y) /\
  chans x = 2 /\ len x = 2 /\ map (at_ x 0) [0; 1] = [30; 50]%Z /\ map (at_ x 1) [0; 1] = [3; 5]%Z /\
  chans y = 2 /\ map (at_ y 0) [0; 1] = [10; 20]%Z /\ map (at_ y 1) [0; 1] = [20; 30]%Z.
Proof. do 2 eexists. split; [reflexivity|]. repeat split. Qed.
Example c78_example_last : element (metadata (mkds None 0%Z true false true false [good; mute])) (-1) mute.
Proof. split; [lia|reflexivity]. Qed.
Definition q78 : params := mkparams 5 None true false
  (CDict [(KStr "6"%string, Some 1%Z); (KStr "2"%string, Some (-1)%Z); (KInt 3, Some (-2)%Z)])
  (Some [("2"%string, 8%Z); ("3"%string, 4%Z); ("6"%string, 2%Z)]) None false (Some true).
Example c78_example_module : exists sets v, data_module q78 [good; swing; mute] [good] = Ok (sets, v) /\
  map (fun s => (fst s, metadata (snd s))) sets =
    [(6%Z, 2%Z, [good]); (2%Z, 8%Z, [good; swing; mute]); (3%Z, 4%Z, [good])].
Proof. do 2 eexists. split; reflexivity. Qed.
Example c78_example_keys : Forall2 (fun k p => names (fst k) (fst p) /\ snd k = snd p)
    [(KStr "6"%string, Some 1%Z); (KStr "2"%string, Some (-1)%Z); (KInt 3, Some (-2)%Z)]
    [(6%Z, Some 1%Z); (2%Z, Some (-1)%Z); (3%Z, Some (-2)%Z)].
Proof. repeat (apply Forall2_cons; [split; [first [now left|now right]|reflexivity]|]). constructor. Qed.
Example c78_example_missing : exists q, p_train_n_batch_sizes q = Some [("2"%string, 8%Z)] /\
  data_module q [good] [good] = Err KeyError.
Proof. exists (mkparams 5 None true false (CDict [(KInt 3, None)]) (Some [("2"%string, 8%Z)]) None false None). split; reflexivity. Qed.
