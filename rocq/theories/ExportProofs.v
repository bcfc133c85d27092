From Coq Require Import String List ZArith Bool Lia.
From Verif Require Import Py PyObj ParamModel ParamProofs SepModel LoadModel LoadSpec LoadProofs ExportModel ExportSpec.
Import ListNotations.
Local Open Scope string_scope.

Lemma yget_notin d k : ~ In k (map fst d) -> yget d k = None.
Proof.
  induction d as [|[k' v] d IH]; simpl; auto. intros H.
  destruct (String.eqb_spec k k') as [->|]; [elim H; auto|]. apply IH; tauto.
Qed.
Lemma yget_ydel d k k' : NoDup (map fst d) -> yget (ydel d k) k' = if String.eqb k' k then None else yget d k'.
Proof.
  induction d as [|[k0 v] d IH]; simpl; intros N; [now destruct (String.eqb k' k)|].
  inversion N as [|? ? N1 N2]; subst.
  destruct (String.eqb_spec k k0) as [->|ne].
  - destruct (String.eqb_spec k' k0) as [E|]; auto. apply yget_notin; now rewrite E.
  - simpl. rewrite IH by auto. destruct (String.eqb_spec k' k0) as [E|]; auto.
    destruct (String.eqb_spec k' k); auto. congruence.
Qed.
Lemma ydel_in d k x : In x (ydel d k) -> In x d.
Proof. induction d as [|[k0 v] d IH]; simpl; auto. destruct (String.eqb k k0); simpl; tauto. Qed.
Lemma yset_in d k v x : In x (yset d k v) -> In x d \/ x = (k, v) .
Proof.
  induction d as [|[k0 v0] d IH]; simpl; [intuition|].
  destruct (String.eqb_spec k k0) as [->|]; simpl; [intuition|]. intuition.
Qed.
Lemma export_get model v k : NoDup (map fst model) -> yget model "ref_mic" = Some v -> 
  yget (export_config model) k = if String.eqb k "proj_back_mic" then Some v else if String.eqb k "ref_mic" then None else yget model k.
Proof. intros N H; unfold export_config; rewrite H, yget_yset, yget_ydel by auto; auto. Qed.
Lemma export_known model v : training_section model -> yget model "ref_mic" = Some v ->
  forallb (fun p => known (fst p)) (export_config model) = true.
Proof.
  intros [N K] H; apply forallb_forall; intros [k w] I; simpl.
  unfold export_config in I; rewrite H in I. 
  assert (J : In (k, w) (ydel model "ref_mic") \/ (k, w) = ("proj_back_mic", v)) by (apply yset_in; auto).
  destruct J as [J|[= -> _]]; [|reflexivity].
  assert (ne : k <> "ref_mic").
  { intros ->. assert (Y0 : yget (ydel model "ref_mic") "ref_mic" = None) by (rewrite yget_ydel; auto).
    apply yget_absent in Y0. apply (Y0 w J). }
  apply ydel_in in J; apply K in J; unfold trained_keys in J; simpl in J.
  repeat (destruct J as [<-|J]; [try reflexivity; congruence|]). contradiction.
Qed.
Lemma yset_known d k v : known k = true -> forallb (fun p => known (fst p)) d = true ->
  forallb (fun p => known (fst p)) (yset d k v) = true.
Proof.
  intros K H; apply forallb_forall; intros [k' w] I. apply yset_in in I; destruct I as [I|[= -> _]]; auto.
  rewrite forallb_forall in H; apply (H _ I).
Qed.
Section Args.
Variables (alg ns : val) (model : config) (a : separgs).
Hypothesis (T : training_section model) (H : train_args alg ns model = Ok a).
Lemma train_inv : exists npv rm, yget model "n_fft" = Some (Y (VInt (a_n_fft a))) /\ yget model "n_iter" = Some (Y (a_n_iter a)) /\
  yget model "hop_length" = Some (Y (a_hop a)) /\ yget model "n_taps" = Some (Y (a_n_taps a)) /\ yget model "n_delay" = Some (Y (a_n_delay a)) /\
  yget model "use_dmc" = Some (Y (a_use_dmc a)) /\ yget model "ref_mic" = Some rm /\ rm = Y (a_pb a) /\
  yget model "n_power_iter" = npv /\ (npv = Some (Y (a_n_power_iter a)) \/ npv = None /\ a_n_power_iter a = VNone) /\
  (yget model "source_model" = None /\ a_source a = SVal VNone \/ exists d, yget model "source_model" = Some (YDict d) /\ a_source a = SDict d) /\
  a_window a = VNone /\ a_eps a = VFloat 1 (-5) /\ a_n_src a = ns /\ a_algo a = alg.
Proof.
  unfold train_args, item_plain, item in H.
  destruct (yget model "n_iter") as [[n_iter|]|]; try discriminate; simpl bind in H.
  destruct (yget model "n_fft") as [[[| z | | | | | | | |]|]|]; try discriminate; simpl bind in H.
  destruct (yget model "hop_length") as [[hop|]|]; try discriminate; simpl bind in H.
  destruct (yget model "n_power_iter") as [[np|]|]; try discriminate; simpl bind in H;
  (destruct (yget model "source_model") as [[?|d]|]; try discriminate; simpl bind in H);
  (destruct (yget model "n_taps") as [[nt|]|]; try discriminate; simpl bind in H);
  (destruct (yget model "n_delay") as [[nd|]|]; try discriminate; simpl bind in H);
  (destruct (yget model "ref_mic") as [[rm|]|]; try discriminate; simpl bind in H);
  (destruct (yget model "use_dmc") as [[dm|]|]; try discriminate; simpl bind in H);
  injection H as <-; simpl; do 2 eexists; repeat split; eauto 6.
Qed.
Lemma reload_args kw : kw = [] \/ kw = [("n_src", Y ns); ("algo", Y alg)] ->
  call_sep (yupdate (export_config model) kw) = Ok (match kw with [] => with_defaults a | _ => a end).
Proof.
  destruct train_inv as (npv & rm & E1 & E2 & E3 & E4 & E5 & E6 & E7 & E8 & E9 & E10 & E11 & E12 & E13 & E14 & E15).
  assert (K0 := export_known model rm T E7). destruct T as [N K].
  assert (X : forall k, ~ In k trained_keys -> yget model k = None).
  { intros k Nk; apply yget_absent; intros v I; apply Nk; eapply K; eauto. }
  assert (Xw : yget model "window" = None) by (apply X; simpl; intuition discriminate).
  assert (Xe : yget model "eps" = None) by (apply X; simpl; intuition discriminate).
  assert (Xs : yget model "n_src" = None) by (apply X; simpl; intuition discriminate).
  assert (Xa : yget model "algo" = None) by (apply X; simpl; intuition discriminate).
  intros C. assert (Kk : forallb (fun p => known (fst p)) (yupdate (export_config model) kw) = true).
  { destruct C as [->| ->]; auto. simpl yupdate. apply yset_known; auto. apply yset_known; auto. }
  unfold call_sep, kwarg. rewrite Kk. simpl negb. cbv iota.
  assert (G : forall k, yget (yupdate (export_config model) kw) k =
    match kw with [] => yget (export_config model) k | _ =>
      if String.eqb k "algo" then Some (Y alg) else if String.eqb k "n_src" then Some (Y ns) else yget (export_config model) k end).
  { intros k; destruct C as [->| ->]; auto. simpl yupdate. rewrite !yget_yset. auto. }
  rewrite !G. assert (Gx := export_get model rm). rewrite !(Gx _ N E7). clear G Gx Kk.
  assert (D : a = mkargs (a_n_fft a) (a_n_iter a) (a_hop a) (a_window a) (a_n_taps a) (a_n_delay a) (a_n_src a) (a_algo a)
    (a_source a) (a_pb a) (a_use_dmc a) (a_n_power_iter a) (a_eps a)) by (destruct a; auto).
  rewrite E1, E2, E3, E4, E5, E6, E8, Xw, Xe, Xs, Xa.
  destruct C as [->| ->]; simpl; (destruct E10 as [E10|[E10 E10']]; rewrite E9, E10);
    (destruct E11 as [[E11 E11']|(d & E11 & E11')]; rewrite E11); simpl; unfold with_defaults;
    try rewrite D; simpl; rewrite ?E11', ?E10', ?E12, ?E13, ?E14, ?E15; reflexivity.
Qed.
End Args.
Lemma subset_refl l : subset l l = true.
Proof.
  apply forallb_forall; intros k I; apply existsb_exists; exists k; split; auto. apply String.eqb_refl.
Qed.
Section Trip.
Variable source_keys : srcarg -> list string.
Notation trip := (round_trip source_keys).
Lemma trip_iva alg ns model a : training_section model -> train_args alg ns model = Ok a -> iva_name alg ->
  trip alg ns model [] = Ok (a, Ok (with_defaults a)).
Proof.
  intros T H I; unfold round_trip; rewrite H, bind_ok. unfold keys_of.
  destruct (train_inv alg ns model a H) as (? & ? & _ & _ & _ & _ & _ & _ & _ & _ & _ & _ & _ & _ & _ & _ & ->).
  assert (exists m, sepalgo_member alg = Ok m /\ is_bf m = false) as (m & Em & Bm).
  { unfold iva_name in I; simpl in I. repeat (destruct I as [<-|I]; [eexists; split; reflexivity|]). contradiction. }
  rewrite Em, !bind_ok. unfold reload, keys_of. rewrite (reload_args alg ns model a T H []) by auto.
  rewrite bind_ok; change (sepalgo_member (a_algo (with_defaults a))) with (Ok "T_ISS"); rewrite bind_ok.
  unfold state_keys; rewrite Bm. change (is_bf "T_ISS") with false; cbv iota; change (a_source (with_defaults a)) with (a_source a).
  rewrite bind_ok, subset_refl; reflexivity.
Qed.
Lemma trip_bf alg ns model a : training_section model -> train_args alg ns model = Ok a -> beamformer_name alg ->
  trip alg ns model [] = Ok (a, Err RuntimeError).
Proof.
  intros T H I; unfold round_trip; rewrite H, bind_ok. unfold keys_of.
  destruct (train_inv alg ns model a H) as (? & ? & _ & _ & _ & _ & _ & _ & _ & _ & _ & _ & _ & _ & _ & _ & ->).
  assert (exists m, sepalgo_member alg = Ok m /\ is_bf m = true) as (m & Em & Bm).
  { unfold beamformer_name in I; simpl in I. repeat (destruct I as [<-|I]; [eexists; split; reflexivity|]). contradiction. }
  rewrite Em, !bind_ok. unfold reload, keys_of. rewrite (reload_args alg ns model a T H []) by auto.
  rewrite bind_ok; change (sepalgo_member (a_algo (with_defaults a))) with (Ok "T_ISS"); rewrite bind_ok.
  unfold state_keys; rewrite Bm. change (is_bf "T_ISS") with false; cbv iota; change (a_source (with_defaults a)) with (a_source a).
  rewrite bind_ok; set (ks := source_keys (a_source a)).
  match goal with |- context [if ?x && ?y then _ else _] => replace y with false; [now rewrite andb_false_r|] end.
  symmetry; apply not_true_is_false; intros S. unfold subset in S; rewrite forallb_forall in S.
  specialize (S "separator.fake"). assert (In "separator.fake" (map (fun k => "source_model." ++ k) ks ++ ["stft._window"] ++
    "separator.fake" :: map (fun k => "separator.mask_model." ++ k) ks)).
  { apply in_or_app; right; simpl; auto. }
  apply S in H0; clear S. apply existsb_exists in H0; destruct H0 as (k & J & E). apply String.eqb_eq in E; subst k.
  apply in_app_or in J; destruct J as [J|J].
  - apply in_map_iff in J; destruct J as (k & E & _). discriminate E.
  - destruct J as [J|J]; [discriminate J|]. apply in_map_iff in J; destruct J as (k & E & _). discriminate E.
Qed.
Lemma trip_kw alg ns model a : training_section model -> train_args alg ns model = Ok a -> iva_name alg \/ beamformer_name alg ->
  trip alg ns model [("n_src", Y ns); ("algo", Y alg)] = Ok (a, Ok a).
Proof.
  intros T H I; unfold round_trip; rewrite H, bind_ok.
  assert (exists ks, keys_of source_keys a = Ok ks) as (ks & Ek).
  { unfold keys_of. destruct (train_inv alg ns model a H) as (? & ? & _ & _ & _ & _ & _ & _ & _ & _ & _ & _ & _ & _ & _ & _ & ->).
    assert (exists m, sepalgo_member alg = Ok m) as (m & ->); [|rewrite bind_ok; eauto].
    unfold iva_name, beamformer_name in I; simpl in I.
    destruct I as [I|I]; repeat (destruct I as [<-|I]; [eexists; reflexivity|]); contradiction. }
  rewrite Ek, bind_ok. unfold reload. rewrite (reload_args alg ns model a T H) by auto. rewrite bind_ok, Ek, bind_ok.
  rewrite subset_refl; reflexivity.
Qed.
(* an entry training ignores *)
Lemma reload_unknown model ks k v : In (k, v) model -> ~ In k params -> k <> "ref_mic" -> reload source_keys model ks [] = Err TypeError.
Proof.
  intros I Nk ne; unfold reload, call_sep. simpl yupdate.
  replace (forallb _ _) with false; [reflexivity|].
  symmetry; apply not_true_is_false; intros S. rewrite forallb_forall in S.
  assert (J : In (k, v) (export_config model) \/ k = "proj_back_mic").
  { unfold export_config. destruct (yget model "ref_mic") as [w|]; auto.
    destruct (string_dec k "proj_back_mic") as [->|n2]; auto. left.
    assert (In (k, v) (ydel model "ref_mic")).
    { clear - I ne; induction model as [|[k0 v0] m IH]; [destruct I|]. cbn [ydel In] in *.
      destruct (String.eqb_spec "ref_mic" k0) as [E0|]; [destruct I as [I|I]; auto; congruence|].
      destruct I as [I|I]; [left; auto|right; auto]. }
    clear - H n2. induction (ydel model "ref_mic") as [|[k0 v0] m IH]; [destruct H|]. cbn [yset In] in *.
    destruct (String.eqb_spec "proj_back_mic" k0) as [E0|]; [destruct H as [H|H]; [congruence|right; auto]|].
    destruct H as [H|H]; [left; auto|right; auto]. }
  destruct J as [J| ->]; [|apply Nk; unfold params; simpl; tauto].
  apply S in J; simpl in J. apply Nk. unfold known in J. apply orb_true_iff in J.
  destruct J as [J|J]; [apply String.eqb_eq in J; subst; unfold params; simpl; auto|].
  apply existsb_exists in J; destruct J as ([k0 v0] & J & E); simpl in E. apply String.eqb_eq in E; subst k0.
  unfold sep_defaults in J; simpl in J. unfold params; simpl. repeat (destruct J as [[= <- _]|J]; [tauto|]). contradiction.
Qed.
End Trip.
