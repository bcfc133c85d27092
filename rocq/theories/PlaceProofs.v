(* Proofs for the files, the lengths and the repeated entries of C78, and for the rates of C79. *)
From Coq Require Import List ZArith String Bool Lia.
From Verif Require Import Py DataModel ItemModel ItemSpec ItemProofs ItemCfgProofs MixModel PlaceSpec.
Import ListNotations.

Lemma relativeE p : relative p = last_three p.
Proof. unfold relative, last_three. now rewrite firstn_rev, !rev_involutive. Qed.
Lemma location_lemma load ws d idx x y : getitem load ws d idx = Ok (x, y) ->
  exists r m fs, In r (metadata d) /\ load (last_three (mix_file (noiseless d) r)) = Some (m, fs) /\
    Forall (fun f => exists z, load (last_three f) = Some (z, fs)) (ref_files (ref_is_reverb d) r).
Proof.
  intro G. destruct (@rates_lemma load ws d idx x y G) as (r & m & fs & n & I & M & _ & R).
  exists r, m, fs. split; [exact I|]. rewrite relativeE in M. split; [exact M|].
  eapply Forall_impl; [|exact R]. intros f (z & E & _). exists z. now rewrite <- relativeE.
Qed.
Lemma module_inv q train valid sets v : data_module q train valid = Ok (sets, v) ->
  exists l b, train_channels (p_train_n_channels q) = Ok l /\ train_sizes (p_batch_size q) (p_train_n_batch_sizes q) l = Ok b /\
    sets = map (fun x : (Z * option Z) * (Z * Z) =>
        (fst (fst x), snd (snd x),
         dataset_init (crop_length (p_max_len_s q)) 0 (p_shuffle_channels q) (p_shuffle_ref q)
           (truth (p_ref_is_reverb q)) (p_noiseless q) (snd (fst x)) train)) (combine l b) /\
    v = dataset_init None 0 false false (truth (p_ref_is_reverb q)) (p_noiseless q) None valid.
Proof.
  unfold data_module. destruct (train_channels _) as [l|]; simpl; [|discriminate].
  destruct (train_sizes _ _ l) as [b|] eqn:E; simpl; [|discriminate]. intros [= <- <-].
  exists l, b. split; [reflexivity|]. split; [exact E|]. split; reflexivity.
Qed.
Lemma crop_lemma q train valid sets v : data_module q train valid = Ok (sets, v) -> max_len_s v = None /\
  forall m b d, In (m, b, d) sets ->
    ((p_max_len_s q = None \/ exists l, p_max_len_s q = Some l /\ minus_one l) -> max_len_s d = None) /\
    (forall l, p_max_len_s q = Some l -> ~ minus_one l -> max_len_s d = Some l).
Proof.
  intro E. apply module_inv in E. destruct E as (l & b & _ & _ & -> & ->). split; [reflexivity|].
  intros m b' d K. apply in_map_iff in K. destruct K as (z & [= _ _ <-] & _). cbn [dataset_init max_len_s].
  unfold crop_length, minus_one. split.
  - intros [->|((num & den) & -> & H)]; [reflexivity|]. cbn [fst snd] in H. destruct (Z.eqb_spec num (- Zpos den)); [reflexivity|lia].
  - intros (num & den) -> H. cbn [fst snd] in H. destruct (Z.eqb_spec num (- Zpos den)); [lia|reflexivity].
Qed.
Lemma dset_in V (acc : list (Z * V)) z v : In (z, v) (dset Z.eqb acc z v).
Proof.
  induction acc as [|(k, u) acc IH]; simpl; [now left|]. destruct (Z.eqb_spec k z) as [->|N]; [now left|now right].
Qed.
Lemma convert_app pre acc k n l m : to_int k = Ok m -> convert acc (pre ++ [(k, n)]) = Ok l -> In (m, norm n) l.
Proof.
  intro T. revert acc. induction pre as [|(k', n') pre IH]; intros acc; simpl.
  - rewrite T. simpl. intros [= <-]. apply dset_in.
  - destruct (to_int k') as [z|]; simpl; [apply IH|discriminate].
Qed.
Lemma sizes_len g l b : sizes g l = Ok b -> List.length b = List.length l.
Proof.
  revert b. induction l as [|(m, n) l IH]; intros b; simpl; [now intros [= <-]|].
  destruct (dget _ g (str m)); simpl; [|discriminate]. destruct (sizes g l) as [r|]; simpl; [|discriminate].
  intros [= <-]. simpl. now rewrite (IH r).
Qed.
Lemma train_sizes_len s g l b : train_sizes s g l = Ok b -> List.length b = List.length l.
Proof. destruct g as [g|]; simpl; [apply sizes_len|]. intros [= <-]. apply map_length. Qed.
Lemma in_combine_ex (A B : Type) (l : list A) (r : list B) a : List.length r = List.length l -> In a l -> exists b, In (a, b) (combine l r).
Proof.
  revert r. induction l as [|x l IH]; intros [|b r]; simpl; try easy. intros [= E] [->|K].
  - exists b. now left.
  - destruct (IH r E K) as [c H]. exists c. now right.
Qed.
Lemma last_lemma q train valid sets v pre k m n : p_train_n_channels q = CDict (pre ++ [(k, n)]) -> names k m ->
  data_module q train valid = Ok (sets, v) -> exists b d, In (m, b, d) sets /\ selected n train (metadata d).
Proof.
  intros P N E. apply module_inv in E. destruct E as (l & b & T & S & -> & _).
  rewrite P in T. apply (convert_app _ _ _ _ _ m (names_int N)) in T.
  destruct (in_combine_ex _ _ l b (m, norm n) (train_sizes_len _ _ _ _ S) T) as [c K].
  exists (snd c). eexists. split; [apply in_map_iff; exists ((m, norm n), c); split; [reflexivity|exact K]|]. apply selectedE.
Qed.
(* read_audio without an expected rate *)
Lemma rate_lemma load fns xs : Forall2 (fun f x => exists fs, load f = Some (x, fs)) fns xs -> read_list load None fns = Ok xs.
Proof.
  intro H. induction H as [|f x fns xs (fs & E) _ IH]; [reflexivity|]. simpl. unfold load_wav. rewrite E. simpl. now rewrite IH.
Qed.
Lemma any_rate_lemma load fns xs : Forall2 (fun f x => exists fs, load f = Some (x, fs)) fns xs -> xs <> [] ->
  (forall a b, In a xs -> In b xs -> chans a = chans b /\ len a = len b) ->
  exists c, read_all load fns None = Ok c /\ c_n c = List.length xs /\
    forall k a, nth_error xs k = Some a -> forall i t, c_at c k i t = at_ a i t.
Proof.
  intros H N S. unfold read_all. rewrite (rate_lemma load fns xs H). simpl. destruct xs as [|x xs]; [easy|]. unfold stack.
  assert (F : forallb (fun y => (chans y =? chans x)%nat && (len y =? len x)%nat) (x :: xs) = true).
  { apply forallb_forall. intros y K. destruct (S y x K (or_introl eq_refl)) as [-> ->]. now rewrite !Nat.eqb_refl. }
  rewrite F. eexists. split; [reflexivity|]. split; [reflexivity|]. intros k a K i t. cbn [c_at]. now rewrite K.
Qed.
