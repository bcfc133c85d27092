From Coq Require Import String List ZArith Bool Lia FinFun.
From Verif Require Import Py PyObj ParamModel ParamProofs SepModel LoadModel CliModel CliSpec.
Import ListNotations.
Local Open Scope string_scope.
Local Open Scope list_scope.

Section Setup.
Variable nm : string -> Z -> val -> nat.
Notation setup := (main_setup nm).
Lemma algo_is c s : is_algo c s = true <-> c_algo c = Some s.
Proof.
  unfold is_algo; destruct (c_algo c) as [a|]; [|split; discriminate].
  rewrite String.eqb_eq; split; congruence.
Qed.
Lemma setup_mic c : (c_mic c < c_src c)%Z -> setup c = Err AssertionError.
Proof. intros H; unfold main_setup; now replace (c_src c <=? c_mic c)%Z with false by (symmetry; apply Z.leb_gt; auto). Qed.
Lemma setup_ip2 c : (c_src c <= c_mic c)%Z -> c_algo c = Some "ip2" -> (c_mic c <> 2 \/ 2 < c_src c)%Z -> setup c = Err ValueError.
Proof.
  intros H A B; unfold main_setup, is_algo; rewrite A; simpl.
  replace (c_src c <=? c_mic c)%Z with true by (symmetry; apply Z.leb_le; auto); simpl.
  destruct (Z.eqb_spec (c_mic c) 2) as [E|]; simpl; auto.
  replace (c_src c <=? 2)%Z with false by (symmetry; apply Z.leb_gt; lia); reflexivity.
Qed.
Lemma setup_bf c : (c_src c <= c_mic c)%Z -> c_model_type c <> "nn" ->
  (c_algo c = Some "mvdr" \/ c_algo c = Some "mwf" \/ c_algo c = Some "gev") -> setup c = Err ValueError.
Proof.
  intros H M A; unfold main_setup, is_algo.
  replace (c_src c <=? c_mic c)%Z with true by (symmetry; apply Z.leb_le; auto); simpl.
  apply String.eqb_neq in M; rewrite M.
  destruct A as [-> |[-> | ->]]; reflexivity.
Qed.
(* everything a successful setup says *)
Lemma setup_ok c r s : setup c = Ok (r, s) ->
  (c_src c <= c_mic c)%Z /\ (s <= c_src c)%Z /\
  (s = if is_algo c "five" && (1 <? c_src c)%Z then 1%Z else c_src c) /\
  (c_algo c = Some "ip2" -> c_mic c = 2%Z /\ (c_src c <= 2)%Z).
Proof.
  unfold main_setup; destruct (Z.leb_spec (c_src c) (c_mic c)) as [L|]; simpl negb; cbv iota; [|discriminate].
  cbv zeta; set (red := is_algo c "five" && (1 <? c_src c)%Z).
  set (s0 := if red then 1%Z else c_src c).
  intros H. assert (E : s = s0 /\ (negb red && is_algo c "ip2" && negb ((c_mic c =? 2) && (s0 <=? 2)))%Z = false).
  { destruct (negb red && _ && _); [discriminate|]. split; auto.
    destruct (String.eqb _ "nn"); [injection H; auto|].
    destruct (_ || _ || _); [discriminate|]. destruct (existsb _ _); [injection H; auto|discriminate]. }
  destruct E as [-> E]; split; auto; split; [|split; auto].
  - unfold s0, red; destruct (is_algo c "five"); simpl; try lia. destruct (Z.ltb_spec 1 (c_src c)); lia.
  - intros A. assert (R : red = false) by (unfold red, is_algo; now rewrite A).
    assert (I : is_algo c "ip2" = true) by (apply algo_is; auto).
    unfold s0 in E; rewrite R, I in E; simpl in E. apply negb_false_iff, andb_true_iff in E.
    destruct E as [E1 E2]; apply Z.eqb_eq in E1; apply Z.leb_le in E2; auto.
Qed.
Lemma setup_five c r s : setup c = Ok (r, s) -> c_algo c = Some "five" -> (s <= 1)%Z.
Proof.
  intros H A; destruct (setup_ok _ _ _ H) as (_ & _ & -> & _).
  replace (is_algo c "five") with true by (symmetry; apply algo_is; auto). simpl.
  destruct (Z.ltb_spec 1 (c_src c)); lia.
Qed.
Lemma setup_with_mic c m r s : setup c = Ok (r, s) -> (c_src c <= m)%Z -> (c_algo c = Some "ip2" -> m = 2%Z) ->
  setup (with_mic c m) = Ok (r, s).
Proof.
  intros H L I; rewrite <- H; destruct (setup_ok _ _ _ H) as (L0 & _ & _ & I0).
  unfold main_setup, with_mic; simpl.
  replace (c_src c <=? m)%Z with true by (symmetry; apply Z.leb_le; auto).
  replace (c_src c <=? c_mic c)%Z with true by (symmetry; apply Z.leb_le; auto); simpl.
  change (is_algo _ ?s) with (is_algo c s).
  destruct (is_algo c "ip2") eqn:E; [|rewrite !andb_false_r; reflexivity].
  apply algo_is in E; rewrite (I E); destruct (I0 E) as [-> _]; reflexivity.
Qed.
Lemma setup_iter c n : c_model_type c <> "nn" -> setup (with_iter c n) = setup c.
Proof. intros M; unfold main_setup, with_iter; simpl; apply String.eqb_neq in M; rewrite M; reflexivity. Qed.
Lemma setup_nn c r s : setup c = Ok (r, s) -> c_model_type c = "nn" -> exists kw, r = Pretrained (c_model_path c) kw /\
  NoDup (map fst kw) /\ In ("n_iter", Y (VInt (c_n_iter c))) kw /\ In ("n_src", Y (VInt s)) kw /\
  In ("proj_back_mic", Y (VInt (c_ref c))) kw /\ In ("use_dmc", Y (VBool false)) kw /\
  (forall a, c_algo c = Some a -> In ("algo", Y (VStr a)) kw) /\
  (forall k v, In (k, v) kw -> In k ["n_iter"; "n_src"; "proj_back_mic"; "use_dmc"] \/ (k = "algo" /\ c_algo c <> None)).
Proof.
  unfold main_setup; destruct (c_src c <=? c_mic c)%Z; simpl negb; cbv iota; [|discriminate]; cbv zeta.
  destruct (negb _ && _ && _); [discriminate|]; intros H M; rewrite M in H; simpl String.eqb in H; cbv iota in H.
  injection H as <- E; eexists; split; [reflexivity|].
  rewrite <- E; destruct (c_algo c); simpl; (split; [repeat (constructor; [simpl; intuition discriminate|]); constructor|]);
    repeat (split; [tauto|]); (split; [intros ? [= <-]; tauto|]) || (split; [discriminate|]);
    intros k v I; repeat (destruct I as [[= <- _]|I]; [solve [tauto | right; split; [reflexivity|discriminate]]|]); contradiction.
Qed.
Lemma setup_new c r s : setup c = Ok (r, s) -> c_model_type c <> "nn" -> exists a, r = Build a /\
  a_n_iter a = VInt 20 /\ a_n_src a = VInt s /\ a_pb a = VInt (c_ref c) /\ a_n_fft a = c_nfft c /\
  a_n_taps a = VInt (c_taps c) /\ a_n_delay a = VInt (c_delay c) /\
  a_algo a = VStr (match c_algo c with Some x => x | None => "tiss" end) /\
  a_source a = SVal (VMod (nm (c_model_type c) (c_n_basis c) (c_model_eps c))).
Proof.
  unfold main_setup; destruct (c_src c <=? c_mic c)%Z; simpl negb; cbv iota; [|discriminate]; cbv zeta.
  destruct (negb _ && _ && _); [discriminate|]; intros H M; apply String.eqb_neq in M; rewrite M in H.
  destruct (_ || _ || _); [discriminate|]; destruct (existsb _ _); [|discriminate].
  injection H as <- E; eexists; split; [reflexivity|]; simpl; rewrite E; repeat split.
Qed.
End Setup.

Section File.
Variables (S : Type) (zero : S).
Lemma prefix_nn A (l : list A) n : (0 <= n)%Z -> prefix l n = firstn (Z.to_nat n) l.
Proof. intros H; unfold prefix; now replace (0 <=? n)%Z with true by (symmetry; apply Z.leb_le; auto). Qed.
Lemma prefix_prefix A (l : list A) n m : (0 <= n <= m)%Z ->
  prefix (if (m <? Z.of_nat (length l))%Z then prefix l m else l) n = firstn (Z.to_nat n) l.
Proof.
  intros [H L]; rewrite prefix_nn by auto.
  destruct (Z.ltb_spec m (Z.of_nat (length l))); auto.
  rewrite prefix_nn by lia. rewrite firstn_firstn; f_equal; lia.
Qed.
Lemma channels_lemma sepr N mix s m : (0 <= s <= m)%Z ->
  separate_channels zero sepr N mix s m =
  match sepr (firstn (Z.to_nat s) mix) with
  | Err e => Err e
  | Ok y => if (Nat.ltb (Z.to_nat s) (length y)) then Err NameError else Ok (map (fit zero N) y)
  end.
Proof.
  intros H; unfold separate_channels; cbv zeta; rewrite (prefix_prefix _ mix s m H).
  destruct (sepr _) as [y|e]; auto; rewrite bind_ok.
  replace (s <? Z.of_nat (length y))%Z with (Nat.ltb (Z.to_nat s) (length y)); auto.
  destruct (Nat.ltb_spec (Z.to_nat s) (length y)), (Z.ltb_spec s (Z.of_nat (length y))); auto; lia.
Qed.
Lemma ip2_fails sepr N mix s m : (0 <= s <= m)%Z -> (s <> 2)%Z -> (s <= 2)%Z ->
  (forall x, length x <> 2 -> exists e, sepr x = Err e) -> exists e, separate_channels zero sepr N mix s m = Err e.
Proof.
  intros H n2 l2 F; rewrite channels_lemma by auto.
  destruct (F (firstn (Z.to_nat s) mix)) as [e ->]; [|eauto].
  rewrite firstn_length; lia.
Qed.
Lemma fit_length N y : length (fit zero N y) = N.
Proof. unfold fit; rewrite firstn_length, app_length, repeat_length; lia. Qed.
Lemma fit_id N y : length y = N -> fit zero N y = y.
Proof. intros <-; unfold fit; rewrite firstn_app, Nat.sub_diag, firstn_all; simpl; now rewrite app_nil_r. Qed.
End File.

(* the outputs are as many as the distinct names *)
Lemma outputs_count out ps : exists outs, NoDup outs /\
  (forall q, In q outs <-> exists p, In p ps /\ q = out ++ [pname p]) /\
  length outs = length (nodup string_dec (map pname ps)).
Proof.
  exists (map (fun n => out ++ [n]) (nodup string_dec (map pname ps))); split; [|split].
  - apply Injective_map_NoDup; [|apply NoDup_nodup].
    intros a b H; apply app_inj_tail in H; tauto.
  - intros q; rewrite in_map_iff; setoid_rewrite nodup_In; setoid_rewrite in_map_iff; split.
    + intros (n & <- & p & <- & I); eauto.
    + intros (p & I & ->); eauto.
  - apply map_length.
Qed.
Lemma collision_lost ps p q : In p ps -> In q ps -> p <> q -> pname p = pname q ->
  length (nodup string_dec (map pname ps)) < length ps.
Proof.
  intros Ip Iq npq E.
  assert (L : forall l, length (nodup string_dec (map pname l)) <= length l).
  { intros l; rewrite <- (map_length pname l); apply NoDup_incl_length; [apply NoDup_nodup|].
    intros x; rewrite nodup_In; auto. }
  induction ps as [|x ps IH]; [contradiction|]; simpl in *.
  destruct (in_dec string_dec (pname x) (map pname ps)) as [I|N].
  - specialize (L ps); lia.
  - simpl; destruct Ip as [->|Ip], Iq as [->|Iq]; try congruence.
    + elim N; rewrite E; now apply in_map.
    + elim N; rewrite <- E; now apply in_map.
    + specialize (IH Ip Iq); lia.
Qed.
Section Files.
Variables (data : Type) (process : data -> result data) (is_wav : string -> bool).
Notation one := (separate_one_file process).
Notation all := (separate_all process).
Lemma path_eqbP p q : reflect (p = q) (path_eqb p q).
Proof. unfold path_eqb; destruct (list_eq_dec string_dec p q); constructor; auto. Qed.
Lemma save_eq (fs : store data) p d : save fs p d p = Some d.
Proof. unfold save; destruct (path_eqbP p p); congruence. Qed.
Lemma save_ne (fs : store data) p d q : q <> p -> save fs p d q = fs q.
Proof. unfold save; destruct (path_eqbP q p); congruence. Qed.
Lemma one_ok fs p q fs' : one fs p q = Ok fs' -> exists d d', fs p = Some d /\ process d = Ok d' /\ fs' = save fs q d'.
Proof.
  unfold separate_one_file; destruct (fs p) as [d|]; [|discriminate].
  destruct (process d) as [d'|] eqn:E; [|discriminate]; rewrite bind_ok; intros [= <-]; eauto.
Qed.
(* the content of every path after processing a folder *)
Lemma all_ok out ps : forall fs fs', all fs out ps = Ok fs' ->
  (forall p q, In p ps -> In q ps -> p <> out ++ [pname q]) ->
  (forall p, In p ps -> fs' p = fs p) /\
  (forall q, (forall p, In p ps -> q <> out ++ [pname p]) -> fs' q = fs q) /\
  (forall p, is_last_with (fun x => pname x = pname p) ps p ->
     exists d d', fs p = Some d /\ process d = Ok d' /\ fs' (out ++ [pname p]) = Some d').
Proof.
  induction ps as [|p ps IH]; intros fs fs' H D; simpl in H.
  - injection H as <-; split; auto; split; auto. intros p ([|? ?] & l2 & E & _); discriminate.
  - destruct (one fs p (out ++ [pname p])) as [fs1|] eqn:E; [|discriminate]; rewrite bind_ok in H.
    destruct (one_ok _ _ _ _ E) as (d & d' & Hd & Hd' & ->).
    destruct (IH _ _ H) as (I1 & I2 & I3).
    { intros x y Ix Iy; apply D; simpl; auto. }
    assert (Q : forall q, (forall x, In x (p :: ps) -> q <> out ++ [pname x]) -> fs' q = fs q).
    { intros q Hq; rewrite I2; [rewrite save_ne; auto; apply Hq; simpl; auto|]. intros x Ix; apply Hq; simpl; auto. }
    split; [|split; [exact Q|]].
    + intros x Ix; apply Q; intros y Iy; apply D; auto.
    + intros x (l1 & l2 & El & T & L). destruct l1 as [|y l1]; simpl in El; injection El as <- El.
      * subst l2. exists d, d'; split; auto; split; auto. rewrite I2; [apply save_eq|].
        intros y Iy X; apply app_inj_tail in X; destruct X as [_ X]. now elim (L y Iy).
      * destruct (I3 x) as (e & e' & He & He' & Hx).
        { exists l1, l2; split; auto. }
        exists e, e'; split; auto. rewrite <- He, save_ne; auto. apply D; simpl; auto.
        rewrite El; right; apply in_or_app; simpl; auto.
Qed.
Lemma run_folder_ok fs i o ps fs' : run_folder process fs i o ps = Ok fs' -> all fs o ps = Ok fs' /\ o <> i.
Proof.
  unfold run_folder; destruct (fs o); [discriminate|]; destruct (path_eqbP o i); [discriminate|auto].
Qed.
Lemma run_folder_same fs i ps : fs i = None -> run_folder process fs i i ps = Err ValueError.
Proof. intros H; unfold run_folder; rewrite H; destruct (path_eqbP i i); congruence. Qed.
Lemma run_single_ok fs i o b fs' : run_single process is_wav fs i o b = Ok fs' ->
  exists d d', fs i = Some d /\ process d = Ok d' /\ o <> i /\
    fs' = save fs (if b then o ++ [pname i] else o) d'.
Proof.
  unfold run_single; destruct (is_wav _); simpl; [|discriminate].
  destruct (path_eqbP o i); [discriminate|]. intros H; destruct (one_ok _ _ _ _ H) as (d & d' & ? & ? & ->); eauto 7.
Qed.
Lemma overwrites fs dir name d d' : fs (dir ++ [name]) = Some d -> process d = Ok d' -> is_wav name = true ->
  exists fs', run_single process is_wav fs (dir ++ [name]) dir true = Ok fs' /\ fs' (dir ++ [name]) = Some d'.
Proof.
  intros F P W; unfold run_single, pname; rewrite last_last, W; simpl.
  destruct (path_eqbP dir (dir ++ [name])) as [E|_].
  - apply (f_equal (@length string)) in E; rewrite app_length in E; simpl in E; lia.
  - unfold separate_one_file; rewrite F, P, bind_ok; eexists; split; [reflexivity|apply save_eq].
Qed.
End Files.

(* loading the pre-trained model of a request *)
From Verif Require Import LoadSpec LoadProofs.
Lemma pretrained_args nm c p kw s bytes safe_load torch_load (fs : string -> option bytes) ckpt cfgp a by_ cfg :
  main_setup nm c = Ok (Pretrained p kw, s) -> fs cfgp = Some by_ -> safe_load by_ = Ok cfg ->
  load_separator_model safe_load torch_load (@Ok separgs) (fun x _ => Ok x) fs ckpt cfgp kw = Ok a ->
  p = c_model_path c /\ a_n_iter a = VInt (c_n_iter c) /\ a_n_src a = VInt s /\ a_pb a = VInt (c_ref c) /\
  a_use_dmc a = VBool false /\ (forall x, c_algo c = Some x -> a_algo a = VStr x) /\
  forall k v, In (k, v) (listed a) -> ~ In k ["n_iter"; "n_src"; "proj_back_mic"; "use_dmc"] ->
    (k = "algo" -> c_algo c = None) -> supplied cfg [] k v.
Proof.
  intros H F Y0 L.
  assert (M : c_model_type c = "nn").
  { destruct (string_dec (c_model_type c) "nn") as [|M]; auto.
    destruct (setup_new nm c _ _ H M) as (x & E & _); discriminate. }
  destruct (setup_nn nm c _ _ H M) as (kw' & E & ND & I1 & I2 & I3 & I4 & I5 & I6).
  injection E as -> <-.
  destruct (lsm_ok bytes _ safe_load torch_load _ _ fs ckpt cfgp kw a ND L) as (bc & by' & cfg' & a0 & st & s0 & F1 & F2 & Y1 & T & B & Ls & Sup).
  injection B as <-; injection Ls as ->. rewrite F in F2; injection F2 as <-. rewrite Y0 in Y1; injection Y1 as <-.
  assert (U : forall k v v', In (k, v) kw -> In (k, v') (listed a) -> v' = v).
  { intros k v v' Iv Il. destruct (Sup k v' Il) as [X|[[X _]|[X _]]]; [|elim (X v); auto ..].
    unfold entry in X. clear - ND Iv X. induction kw as [|[k0 v0] kw IH]; [contradiction|].
    inversion ND as [|? ? N ND']; subst. destruct Iv as [Iv|Iv], X as [X|X]; auto.
    - congruence.
    - injection Iv as -> ->; elim N; apply (in_map fst) in X; auto.
    - injection X as -> ->; elim N; apply (in_map fst) in Iv; auto. }
  split; auto.
  assert (Z1 : forall v w, Y v = Y w -> v = w) by congruence.
  split; [apply Z1, (U _ _ _ I1); unfold listed; simpl; tauto|].
  split; [apply Z1, (U _ _ _ I2); unfold listed; simpl; tauto|].
  split; [apply Z1, (U _ _ _ I3); unfold listed; simpl; tauto|].
  split; [apply Z1, (U _ _ _ I4); unfold listed; simpl; tauto|].
  split; [intros x Hx; apply Z1, (U _ _ _ (I5 x Hx)); unfold listed; simpl; tauto|].
  intros k v Il Nk Na. destruct (Sup k v Il) as [X|[[X Y1]|[X Y1]]].
  - destruct (I6 _ _ X) as [X1|[X1 X2]]; [contradiction|elim X2; auto].
  - right; left; split; auto. intros w [].
  - right; right; split; [intros w []|auto].
Qed.
Lemma mic_ignored nm c m r s (S : Type) (zero : S) sepr N mix :
  main_setup nm c = Ok (r, s) -> (c_src c <= m)%Z -> (c_algo c = Some "ip2" -> m = 2%Z) -> (0 <= s)%Z ->
  main_setup nm (with_mic c m) = Ok (r, s) /\
  separate_channels zero sepr N mix s m = separate_channels zero sepr N mix s (c_mic c).
Proof.
  intros H L I P; destruct (setup_ok nm _ _ _ H) as (L0 & Ls & _). split; [apply setup_with_mic; auto|].
  rewrite !channels_lemma by lia; reflexivity.
Qed.
Lemma ip2_one nm c r s (S : Type) (zero : S) sepr N mix :
  main_setup nm c = Ok (r, s) -> c_algo c = Some "ip2" -> c_src c = 1%Z ->
  (forall x, length x <> 2 -> exists e, sepr x = Err e) ->
  exists e, separate_channels zero sepr N mix s (c_mic c) = Err e.
Proof.
  intros H A E F; destruct (setup_ok nm _ _ _ H) as (L0 & Ls & Es & _).
  unfold is_algo in Es; rewrite A, E in Es; simpl in Es. subst s. apply ip2_fails; auto; lia.
Qed.
Lemma folder_lemma data (process : data -> result data) fs i o ps fs' :
  run_folder process fs i o ps = Ok fs' -> (forall p q, In p ps -> In q ps -> p <> o ++ [pname q]) ->
  (forall p, In p ps -> fs' p = fs p) /\
  (forall q, (forall p, In p ps -> q <> o ++ [pname p]) -> fs' q = fs q) /\
  (forall p, is_last_with (fun x => pname x = pname p) ps p ->
     exists d d', fs p = Some d /\ process d = Ok d' /\ fs' (o ++ [pname p]) = Some d').
Proof. intros H; apply run_folder_ok in H; destruct H as [H _]; exact (all_ok data process o ps fs fs' H). Qed.
Lemma single_lemma data (process : data -> result data) is_wav fs i o b fs' :
  run_single process is_wav fs i o b = Ok fs' ->
  exists d d', fs i = Some d /\ process d = Ok d' /\ o <> i /\
    forall q, fs' q = if list_eq_dec string_dec q (if b then o ++ [pname i] else o) then Some d' else fs q.
Proof.
  intros H; destruct (run_single_ok _ _ _ _ _ _ _ _ H) as (d & d' & F & P & N & ->).
  exists d, d'; repeat split; auto. intros q; unfold save, path_eqb.
  destruct (list_eq_dec string_dec q _); auto.
Qed.
