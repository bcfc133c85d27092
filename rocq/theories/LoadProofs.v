From Coq Require Import String Ascii List ZArith Bool Lia.
From Verif Require Import Py PyObj ParamModel ParamProofs SepModel LoadModel LoadSpec.
Import ListNotations.
Local Open Scope string_scope.

(* ---- strings *)
Lemma sapp_assoc (a b c : string) : (a ++ b) ++ c = a ++ (b ++ c).
Proof. induction a; simpl; congruence. Qed.
Lemma sapp_inj_l (a b c : string) : a ++ b = a ++ c -> b = c.
Proof. induction a; simpl; auto; intros [= H]; auto. Qed.
Lemma slen_app a b : String.length (a ++ b) = String.length a + String.length b.
Proof. induction a; simpl; auto. Qed.
Lemma sapp_inj_r (a b c : string) : a ++ c = b ++ c -> a = b.
Proof.
  revert b; induction a as [|x a IH]; intros [|y b] H; simpl in *; auto.
  - apply (f_equal String.length) in H; simpl in H; rewrite slen_app in H; lia.
  - apply (f_equal String.length) in H; simpl in H; rewrite slen_app in H; lia.
  - injection H as -> H; f_equal; auto.
Qed.
Fixpoint slast (s : string) (d : ascii) : ascii := match s with EmptyString => d | String c s' => slast s' c end.
Lemma slast_app a c b d : slast (a ++ String c b) d = slast b c.
Proof. revert d; induction a; simpl; auto. Qed.

Section Cache.
Variable bytes : Type.
Variable home : string.
Notation world := (world bytes).
Variable net : nat -> string -> transfer bytes.
Notation visit := (visit home net).
Notation gmu := (get_model_from_url home net).

Lemma ckptE url : fst (get_model_filenames (model_path home url)) = cache_weights home (path_name url).
Proof. unfold get_model_filenames, model_path, cache_weights; simpl. now rewrite !sapp_assoc. Qed.
Lemma yamlE url : snd (get_model_filenames (model_path home url)) = cache_config home (path_name url).
Proof. unfold get_model_filenames, model_path, cache_config; simpl. now rewrite !sapp_assoc. Qed.
Lemma weights_inj n n' : cache_weights home n = cache_weights home n' -> n = n'.
Proof.
  unfold cache_weights; intros H; apply sapp_inj_l, sapp_inj_l in H. revert H.
  change "/model_weights.ckpt" with ("/model_weights.ckpt"); intros H. now apply sapp_inj_r in H.
Qed.
Lemma config_inj n n' : cache_config home n = cache_config home n' -> n = n'.
Proof. unfold cache_config; intros H; now apply sapp_inj_l, sapp_inj_l, sapp_inj_r in H. Qed.
Lemma weights_config n n' : cache_weights home n <> cache_config home n'.
Proof.
  unfold cache_weights, cache_config; intros H; apply sapp_inj_l, sapp_inj_l in H.
  apply (f_equal (fun s => slast s "x"%char)) in H; rewrite !slast_app in H; simpl in H; discriminate.
Qed.

(* the list of (url, destination) pairs of one call *)
Definition jobs (url : string) : list (string * string) :=
  [(urljoin url WEIGHTS_FN, cache_weights home (path_name url)); (urljoin url CONFIG_FN, cache_config home (path_name url))].
Lemma gmuE w url : gmu w url =
  match fetch net w (cache_weights home (path_name url)) (urljoin url WEIGHTS_FN) with
  | (Err e, w1) => (Err e, w1)
  | (Ok _, w1) =>
      match fetch net w1 (cache_config home (path_name url)) (urljoin url CONFIG_FN) with
      | (Err e, w2) => (Err e, w2)
      | (Ok _, w2) => (Ok (cache_weights home (path_name url), cache_config home (path_name url)), w2)
      end
  end.
Proof.
  unfold get_model_from_url; rewrite <- ckptE, <- yamlE.
  destruct (get_model_filenames (model_path home url)); reflexivity.
Qed.

(* relation between the worlds before and after fetches *)
Definition grows (w w' : world) : Prop :=
  (forall fn b, files w fn = Some b -> files w' fn = Some b) /\
  (exists l, attempts w' = (attempts w ++ l)%list) /\
  (forall i u fn, nth_error (attempts w') i = Some (u, fn) -> length (attempts w) <= i ->
     files w fn = None /\
     (forall j u', nth_error (attempts w') j = Some (u', fn) -> i < j -> net i u = Refused bytes)) /\
  (forall i u fn, nth_error (attempts w') i = Some (u, fn) -> length (attempts w) <= i ->
     net i u <> Refused bytes -> files w' fn <> None).
Lemma grows_refl w : grows w w.
Proof.
  split; [auto|split; [exists []; now rewrite app_nil_r|]].
  split; intros i u fn H L; exfalso; (assert (i < length (attempts w)) by (apply nth_error_Some; congruence)); lia.
Qed.
Lemma grows_trans a b c : grows a b -> grows b c -> grows a c.
Proof.
  intros (K1 & [l1 L1] & O1 & F1) (K2 & [l2 L2] & O2 & F2).
  assert (Pre : forall i x, i < length (attempts b) -> nth_error (attempts c) i = Some x -> nth_error (attempts b) i = Some x).
  { intros i x Hi; rewrite L2, nth_error_app1 by auto; auto. }
  split; [auto|split; [exists (l1 ++ l2)%list; now rewrite L2, L1, app_assoc|split]].
  - intros i u fn H L. destruct (Nat.lt_ge_cases i (length (attempts b))) as [Hi|Hi].
    + pose proof (Pre _ _ Hi H) as H'. destruct (O1 i u fn H' L) as [N1 N2]; split; auto.
      intros j u' Hj ij. destruct (Nat.lt_ge_cases j (length (attempts b))) as [Hb|Hb].
      * exact (N2 j u' (Pre _ _ Hb Hj) ij).
      * destruct (O2 j u' fn Hj Hb) as [N3 _].
        destruct (net i u) eqn:E; auto; exfalso; apply (F1 i u fn H' L); auto; congruence.
    + destruct (O2 i u fn H Hi) as [N1 N2]; split; auto.
      destruct (files a fn) as [x|] eqn:E; auto. apply K1 in E; congruence.
  - intros i u fn H L N. destruct (Nat.lt_ge_cases i (length (attempts b))) as [Hi|Hi].
    + pose proof (F1 i u fn (Pre _ _ Hi H) L N) as X. destruct (files b fn) eqn:E; [|congruence].
      apply K2 in E; congruence.
    + eauto.
Qed.
Lemma grows_fetch w fn url : grows w (snd (fetch net w fn url)).
Proof.
  unfold fetch; destruct (files w fn) eqn:E; [apply grows_refl|].
  unfold urlretrieve.
  assert (A : forall w', attempts w' = (attempts w ++ [(url, fn)])%list ->
    (forall f b, files w f = Some b -> files w' f = Some b) ->
    (net (length (attempts w)) url <> Refused bytes -> files w' fn <> None) -> grows w w').
  { intros w' Ha Hf Hn; split; [auto|split; [eauto|]].
    assert (O : forall i u g, nth_error (attempts w') i = Some (u, g) -> length (attempts w) <= i ->
       i = length (attempts w) /\ u = url /\ g = fn).
    { intros i u g H L. rewrite Ha, nth_error_app2 in H by auto.
      destruct (i - length (attempts w)) as [|k] eqn:D; simpl in H.
      - injection H as <- <-; repeat split; lia.
      - destruct k; discriminate. }
    split.
    - intros i u g H L; destruct (O i u g H L) as (-> & -> & ->); split; auto.
      intros j u' Hj ij. destruct (O j u' fn Hj) as (-> & _); lia.
    - intros i u g H L N; destruct (O i u g H L) as (-> & -> & ->); auto. }
  assert (P : forall b f x, files w f = Some x -> files (put (note w url fn) fn b) f = Some x).
  { intros b f x H; simpl; destruct (String.eqb_spec f fn) as [->|]; congruence. }
  destruct (net (length (attempts w)) url) eqn:N; simpl; apply A; simpl; auto; try congruence;
    intros; rewrite ?String.eqb_refl; try discriminate; try (apply P; auto).
Qed.
Lemma grows_visit w url : grows w (visit w url).
Proof.
  unfold LoadModel.visit; rewrite gmuE.
  pose proof (grows_fetch w (cache_weights home (path_name url)) (urljoin url WEIGHTS_FN)) as G.
  destruct (fetch net w _ _) as [[?|?] w1]; simpl in G; auto.
  pose proof (grows_fetch w1 (cache_config home (path_name url)) (urljoin url CONFIG_FN)) as G2.
  destruct (fetch net w1 _ _) as [[?|?] w2]; simpl in *; eapply grows_trans; eauto.
Qed.
Lemma grows_run h : forall w, grows w (fold_left visit h w).
Proof. induction h as [|u h IH]; intros w; simpl; [apply grows_refl|eapply grows_trans; [apply grows_visit|apply IH]]. Qed.

Lemma once h w i j u u' fn : nth_error (attempts (fold_left visit h w)) i = Some (u, fn) ->
  nth_error (attempts (fold_left visit h w)) j = Some (u', fn) -> length (attempts w) <= i -> i < j -> net i u = Refused bytes.
Proof. intros H H' L ij; destruct (grows_run h w) as (_ & _ & O & _); eapply O; eauto. Qed.
Lemma keeps h w fn b : files w fn = Some b -> files (fold_left visit h w) fn = Some b /\
  forall i u, nth_error (attempts (fold_left visit h w)) i = Some (u, fn) -> i < length (attempts w).
Proof.
  intros H; destruct (grows_run h w) as (K & _ & O & _); split; auto.
  intros i u Hi. destruct (Nat.lt_ge_cases i (length (attempts w))) as [|L]; auto.
  destruct (O i u fn Hi L); congruence.
Qed.
(* a finished call *)
Lemma visited w url p : fst (gmu w url) = Ok p -> p = (cache_weights home (path_name url), cache_config home (path_name url)) /\
  (exists b c, files (visit w url) (fst p) = Some b /\ files (visit w url) (snd p) = Some c).
Proof.
  assert (Fx : forall w fn u w', fetch net w fn u = (Ok tt, w') -> exists b, files w' fn = Some b).
  { intros w0 fn u w'; unfold fetch; destruct (files w0 fn) eqn:E; [intros [= <-]; eauto|].
    unfold urlretrieve; destruct (net _ _); try discriminate; intros [= <-]; simpl; rewrite String.eqb_refl; eauto. }
  unfold LoadModel.visit; rewrite gmuE.
  destruct (fetch net w _ _) as [[[]|?] w1] eqn:E1; [|discriminate].
  destruct (fetch net w1 _ _) as [[[]|?] w2] eqn:E2; [|discriminate]; simpl; intros [= <-]; simpl; split; auto.
  destruct (Fx _ _ _ _ E1) as [b Hb]; destruct (Fx _ _ _ _ E2) as [c Hc]; exists b, c; split; auto.
  pose proof (grows_fetch w1 (cache_config home (path_name url)) (urljoin url CONFIG_FN)) as (K & _); rewrite E2 in K; auto.
Qed.
Lemma shared w u1 u2 p h : path_name u1 = path_name u2 -> fst (gmu w u1) = Ok p ->
  let w1 := fold_left visit h (visit w u1) in
  fst (gmu w1 u2) = Ok p /\ visit w1 u2 = w1 /\
  files w1 (fst p) = files (visit w u1) (fst p) /\ files w1 (snd p) = files (visit w u1) (snd p).
Proof.
  intros N H w1; destruct (visited _ _ _ H) as (-> & b & c & Hb & Hc); simpl in *.
  destruct (keeps h _ _ _ Hb) as [Kb _]; destruct (keeps h _ _ _ Hc) as [Kc _].
  fold w1 in Kb, Kc.
  assert (G : gmu w1 u2 = (Ok (cache_weights home (path_name u1), cache_config home (path_name u1)), w1)).
  { rewrite gmuE, <- N; unfold fetch; now rewrite Kb, Kc. }
  unfold LoadModel.visit at 1; rewrite G; simpl; rewrite Kb, Kc, Hb, Hc; repeat split; reflexivity.
Qed.
Lemma partial w u1 b h u2 : files w (cache_weights home (path_name u1)) = None ->
  net (length (attempts w)) (urljoin u1 WEIGHTS_FN) = Broken b -> path_name u2 = path_name u1 ->
  fst (gmu w u1) = Err FileError /\
  let w1 := fold_left visit h (visit w u1) in
  files w1 (cache_weights home (path_name u2)) = Some b /\
  forall i u, nth_error (attempts (visit w1 u2)) i = Some (u, cache_weights home (path_name u2)) -> i < S (length (attempts w)).
Proof.
  intros F B N.
  assert (G : gmu w u1 = (Err FileError, put (note w (urljoin u1 WEIGHTS_FN) (cache_weights home (path_name u1)))
     (cache_weights home (path_name u1)) b)).
  { rewrite gmuE; unfold fetch at 1; rewrite F; unfold urlretrieve; now rewrite B. }
  rewrite G; split; auto.
  unfold LoadModel.visit at 2; rewrite G; simpl snd; cbv zeta.
  set (w0 := put _ _ b).
  assert (Hb : files w0 (cache_weights home (path_name u1)) = Some b) by (simpl; now rewrite String.eqb_refl).
  rewrite N; split; [now apply keeps|].
  destruct (keeps (h ++ [u2]) w0 _ _ Hb) as [_ K]; rewrite fold_left_app in K; simpl in K.
  intros i u Hi; specialize (K i u Hi); simpl in K; rewrite app_length in K; simpl in K; lia.
Qed.

(* the honest case *)
Variable remote : string -> bytes.
Hypothesis honest : forall n u, net n u = Complete (remote u) \/ net n u = Refused bytes.
(* cached files agree with the URLs in a list *)
Definition agrees (h : list string) (w : world) : Prop :=
  forall fn b, files w fn = Some b -> exists u, In u h /\
    ((fn = cache_weights home (path_name u) /\ b = remote (urljoin u WEIGHTS_FN)) \/
     (fn = cache_config home (path_name u) /\ b = remote (urljoin u CONFIG_FN))).
Lemma agrees_fetch h w u fn url : agrees h w -> In u h ->
  (fn = cache_weights home (path_name u) /\ url = urljoin u WEIGHTS_FN \/
   fn = cache_config home (path_name u) /\ url = urljoin u CONFIG_FN) ->
  agrees h (snd (fetch net w fn url)).
Proof.
  intros A I E; unfold fetch; destruct (files w fn) eqn:F; auto.
  unfold urlretrieve; destruct (honest (length (attempts w)) url) as [-> | ->]; simpl; auto.
  intros f b; simpl; destruct (String.eqb_spec f fn) as [->|]; [intros [= <-]|apply A].
  exists u; split; auto; destruct E as [[-> ->]|[-> ->]]; auto.
Qed.
Lemma agrees_visit h w u : agrees h w -> In u h -> agrees h (visit w u).
Proof.
  intros A I; unfold LoadModel.visit; rewrite gmuE.
  pose proof (agrees_fetch h w u _ _ A I (or_introl (conj eq_refl eq_refl))) as A1.
  destruct (fetch net w _ _) as [[?|?] w1]; simpl in A1; auto.
  pose proof (agrees_fetch h w1 u _ _ A1 I (or_intror (conj eq_refl eq_refl))) as A2.
  destruct (fetch net w1 _ _) as [[?|?] w2]; simpl in *; auto.
Qed.
Lemma agrees_run h l : forall w, agrees h w -> (forall u, In u l -> In u h) -> agrees h (fold_left visit l w).
Proof. induction l as [|u l IH]; intros w A I; simpl; auto. apply IH; [apply agrees_visit; simpl in *; auto|simpl in *; auto]. Qed.
Lemma correct h w url p : (forall fn, files w fn = None) ->
  (forall u, In u h -> path_name u = path_name url -> forall f, urljoin u f = urljoin url f) ->
  fst (gmu (fold_left visit h w) url) = Ok p ->
  let w' := visit (fold_left visit h w) url in
  files w' (fst p) = Some (remote (urljoin url WEIGHTS_FN)) /\ files w' (snd p) = Some (remote (urljoin url CONFIG_FN)).
Proof.
  intros E D H w'; destruct (visited _ _ _ H) as (-> & b & c & Hb & Hc); simpl in *.
  fold w' in Hb, Hc.
  assert (A : agrees (url :: h) w').
  { apply agrees_visit; simpl; auto. apply agrees_run; [|simpl; auto]. intros fn x Hx; rewrite E in Hx; discriminate. }
  assert (D' : forall u, In u (url :: h) -> path_name u = path_name url -> forall f, urljoin u f = urljoin url f).
  { intros u [<-|I]; auto. }
  split.
  - destruct (A _ _ Hb) as (u & I & [[F ->]|[F _]]); [|now elim (weights_config _ _ F)].
    rewrite Hb, (D' u I); auto. now apply weights_inj in F.
  - destruct (A _ _ Hc) as (u & I & [[F _]|[F ->]]); [symmetry in F; now elim (weights_config _ _ F)|].
    rewrite Hc, (D' u I); auto. now apply config_inj in F.
Qed.
End Cache.

(* ---- configuration *)
Lemma yget_yset d k v k' : yget (yset d k v) k' = if String.eqb k' k then Some v else yget d k'.
Proof.
  induction d as [|[k2 v2] d IH]; simpl.
  - now destruct (String.eqb k' k).
  - destruct (String.eqb_spec k k2) as [->|n]; simpl.
    + now destruct (String.eqb k' k2).
    + destruct (String.eqb_spec k' k2) as [->|]; auto.
      destruct (String.eqb_spec k2 k); congruence.
Qed.
Lemma yget_absent d k : yget d k = None <-> absent d k.
Proof.
  unfold absent; induction d as [|[k2 v2] d IH]; simpl; [split; auto; tauto|].
  destruct (String.eqb_spec k k2) as [->|n].
  - split; [discriminate|]. intros H; elim (H v2); auto.
  - rewrite IH; split; intros H v; [intros [[= <- _]|I]; [auto|exact (H v I)]|intros I; apply (H v); auto].
Qed.
Lemma yget_in d k v : yget d k = Some v -> In (k, v) d.
Proof.
  induction d as [|[k2 v2] d IH]; simpl; [discriminate|].
  destruct (String.eqb_spec k k2) as [->|n]; [intros [= ->]; auto|auto].
Qed.
Lemma yupdateE kw : forall d k, NoDup (map fst kw) ->
  yget (yupdate d kw) k = match yget kw k with Some v => Some v | None => yget d k end.
Proof.
  induction kw as [|[k2 v2] kw IH]; intros d k N; simpl; auto.
  inversion N; subst; rewrite IH, yget_yset by auto.
  destruct (String.eqb_spec k k2) as [->|n]; auto.
  assert (yget kw k2 = None) as ->; auto.
  apply yget_absent; intros v I; apply H1, (in_map fst) in I || (apply (in_map fst) in I; auto).
Qed.
Lemma defaultE k : In k params -> k <> "n_fft" -> exists d, default k d /\ yget sep_defaults k = Some (Y d).
Proof.
  simpl; intros I n; repeat (destruct I as [<-|I]); try contradiction; try (now elim n); eexists; (split; [constructor|reflexivity]).
Qed.
Lemma suppliedE cfg kw k : NoDup (map fst kw) -> In k params -> k <> "n_fft" ->
  supplied cfg kw k (kwarg (yupdate cfg kw) k).
Proof.
  intros N I n; unfold kwarg, supplied, entry; rewrite yupdateE by auto.
  destruct (yget kw k) eqn:E1; [left; now apply yget_in|]; apply yget_absent in E1.
  destruct (yget cfg k) eqn:E2; [right; left; split; auto; now apply yget_in|]; apply yget_absent in E2.
  destruct (defaultE k I n) as [d [D ->]]; right; right; eauto.
Qed.
Lemma plainE v x : plain v = Ok x -> v = Y x.
Proof. destruct v; simpl; [intros [= ->]; auto|discriminate]. Qed.
Lemma call_sepE cfg kw a : NoDup (map fst kw) -> call_sep (yupdate cfg kw) = Ok a ->
  (forall k v, In (k, v) (listed a) -> supplied cfg kw k v) /\ forallb (fun p => known (fst p)) (yupdate cfg kw) = true.
Proof.
  intros N; unfold call_sep; destruct (forallb _ _); simpl negb; cbv iota; [|discriminate].
  set (c := yupdate cfg kw).
  destruct (yget c "n_fft") as [[[]|]|] eqn:E0; try discriminate; simpl bind at 1; unfold bind.
  repeat match goal with |- context [plain ?v] => let E := fresh "E" in destruct (plain v) eqn:E; [apply plainE in E|discriminate] end.
  intros [= <-]; split; auto; intros k v I.
  assert (P : In k params).
  { apply (in_map fst) in I; exact I. }
  destruct (string_dec k "n_fft") as [->|nf].
  - destruct I as [[= <-]|I]; [|exfalso; simpl in I; repeat (destruct I as [I|I]; [discriminate|]); exact I].
    unfold c in E0; rewrite yupdateE in E0 by auto; unfold supplied, entry.
    destruct (yget kw "n_fft") eqn:E'; [left; apply yget_in; congruence|right; left]; apply yget_absent in E'.
    split; auto; now apply yget_in.
  - pose proof (suppliedE cfg kw k N P nf) as S; fold c in S.
    simpl in I; repeat (destruct I as [[= <- <-]|I]; [try (now elim nf); try congruence|]); try contradiction.
    destruct (kwarg c "source_model"); exact S.
Qed.
Lemma unknown_kw cfg kw k v : NoDup (map fst kw) -> In (k, v) kw -> ~ In k params -> call_sep (yupdate cfg kw) = Err TypeError.
Proof.
  intros N I nk; unfold call_sep.
  destruct (forallb (fun p => known (fst p)) (yupdate cfg kw)) eqn:F; auto; exfalso; apply nk.
  assert (J : exists u, yget (yupdate cfg kw) k = Some u).
  { rewrite yupdateE by auto; destruct (yget kw k) eqn:E; eauto. apply yget_absent in E; now elim (E v). }
  destruct J as [u J]; apply yget_in in J. rewrite forallb_forall in F; specialize (F _ J); simpl in F; unfold known in F.
  apply orb_true_iff in F; destruct F as [F|F]; [apply String.eqb_eq in F; subst; simpl; auto|].
  apply existsb_exists in F; destruct F as ([k' w] & I' & F'); apply String.eqb_eq in F'; simpl in F'; subst k'.
  apply (in_map fst) in I'; simpl in I' |- *; tauto.
Qed.

Section Load.
Variables (bytes sep : Type) (home : string) (net : nat -> string -> transfer bytes).
Variables (safe_load : bytes -> result config) (torch_load : bytes -> result dict).
Variables (build : separgs -> result sep) (load_state : sep -> dict -> result sep).
Variables (is_dir exists_ : string -> bool).
Notation lsm := (load_separator_model safe_load torch_load build load_state).
Notation ls := (load_separator home net safe_load torch_load build load_state is_dir exists_).

Lemma lsm_ok fs ckpt cfgp kw s : NoDup (map fst kw) -> lsm fs ckpt cfgp kw = Ok s ->
  exists bc by_ cfg a st s0, fs ckpt = Some bc /\ fs cfgp = Some by_ /\ safe_load by_ = Ok cfg /\ torch_load bc = Ok st /\
    build a = Ok s0 /\ load_state s0 st = Ok s /\ forall k v, In (k, v) (listed a) -> supplied cfg kw k v.
Proof.
  intros N; unfold load_separator_model.
  destruct (fs ckpt) as [bc|] eqn:E1; [|discriminate]; destruct (fs cfgp) as [by_|] eqn:E2; [|discriminate].
  destruct (safe_load by_) as [cfg|] eqn:E3; [|discriminate]; rewrite bind_ok.
  destruct (torch_load bc) as [st|] eqn:E4; [|discriminate]; rewrite bind_ok.
  destruct (call_sep (yupdate cfg kw)) as [a|] eqn:E5; [|discriminate]; rewrite bind_ok.
  destruct (build a) as [s0|] eqn:E6; [|discriminate]; rewrite bind_ok; intros H.
  exists bc, by_, cfg, a, st, s0; repeat split; auto. now apply call_sepE.
Qed.
Lemma lsm_missing fs ckpt cfgp kw : fs ckpt = None \/ fs cfgp = None -> lsm fs ckpt cfgp kw = Err ValueError.
Proof. unfold load_separator_model; intros [-> | H]; auto; rewrite H; destruct (fs ckpt); auto. Qed.
Lemma lsm_unknown fs ckpt cfgp kw k v bc by_ cfg st : NoDup (map fst kw) -> In (k, v) kw -> ~ In k params ->
  fs ckpt = Some bc -> fs cfgp = Some by_ -> safe_load by_ = Ok cfg -> torch_load bc = Ok st ->
  lsm fs ckpt cfgp kw = Err TypeError.
Proof.
  intros N I nk H1 H2 H3 H4; unfold load_separator_model; rewrite H1, H2, H3, bind_ok, H4, bind_ok.
  now rewrite (unknown_kw cfg kw k v N I nk).
Qed.
Lemma ls_http w path kw : is_http path = true ->
  ls w path kw = match fst (get_model_from_url home net w path) with
                 | Ok p => (lsm (files (visit home net w path)) (fst p) (snd p) kw, visit home net w path)
                 | Err e => (Err e, visit home net w path) end.
Proof.
  intros H; unfold load_separator, visit; rewrite H.
  destruct (get_model_from_url home net w path) as [[[a b]|e] w']; reflexivity.
Qed.
Lemma ls_local w path kw : is_http path = false ->
  snd (ls w path kw) = w /\
  (exists_ path = true -> is_dir path = true ->
     fst (ls w path kw) = lsm (files w) (path ++ "/model_weights.ckpt") (path ++ "/model_config.yaml") kw) /\
  (exists_ path = false \/ is_dir path = false -> fst (ls w path kw) = Err ValueError).
Proof.
  intros H; unfold load_separator; rewrite H; destruct (exists_ path), (is_dir path); simpl; repeat split; intros; auto;
    try discriminate; destruct H0; discriminate.
Qed.
End Load.

(* ---- which paths are web addresses *)
Lemma before_colon_some s p : before_colon s = Some p -> exists rest, s = p ++ ":" ++ rest.
Proof.
  revert p; induction s as [|c s IH]; intros p; simpl; [discriminate|].
  destruct (Ascii.eqb_spec c ":"); [intros [= <-]; exists s; simpl; subst; reflexivity|].
  destruct (before_colon s) as [q|]; simpl; [|discriminate]; intros [= <-].
  destruct (IH q eq_refl) as (r & ->); exists r; reflexivity.
Qed.
Lemma lower_letter c d : In d ["h"; "t"; "p"; "s"]%char ->
  (lower_char c = d <-> c = d \/ nat_of_ascii c + 32 = nat_of_ascii d).
Proof.
  intros I. assert (E : Ascii.eqb (lower_char c) d = (Ascii.eqb c d || Nat.eqb (nat_of_ascii c + 32) (nat_of_ascii d))%bool).
  { destruct I as [<-|[<-|[<-|[<-|[]]]]]; destruct c as [[] [] [] [] [] [] [] []]; vm_compute; reflexivity. }
  rewrite <- Ascii.eqb_eq, E, Bool.orb_true_iff, Ascii.eqb_eq, Nat.eqb_eq; tauto.
Qed.
Fixpoint letters (q : string) : Prop :=
  match q with EmptyString => True | String d q' => In d ["h"; "t"; "p"; "s"]%char /\ letters q' end.
Lemma lower_spells p q : letters q -> (lower p = q <-> spells p q).
Proof.
  revert q; induction p as [|c p IH]; intros [|d q]; simpl; try (split; [discriminate|contradiction]); try tauto.
  intros [I L]; rewrite <- (IH q L), <- (lower_letter c d I); split; [intros [= <- <-]; auto|intros [-> ->]; reflexivity].
Qed.
Lemma spells_no_colon p q rest : letters q -> spells p q -> before_colon (p ++ ":" ++ rest) = Some p.
Proof.
  revert q; induction p as [|c p IH]; intros [|d q]; simpl; try contradiction; auto.
  intros [I L] [E S]. destruct (Ascii.eqb_spec c ":") as [->|N].
  - exfalso; destruct I as [<-|[<-|[<-|[<-|[]]]]]; destruct E as [E|E]; vm_compute in E; discriminate E.
  - specialize (IH q L S); simpl in IH; rewrite IH; reflexivity.
Qed.
Lemma is_http_iff path : is_http path = true <-> web_address path.
Proof.
  assert (L1 : letters "http") by (simpl; tauto). assert (L2 : letters "https") by (simpl; tauto).
  unfold is_http, web_address; split.
  - destruct (before_colon path) as [p|] eqn:E; [|discriminate]. destruct (before_colon_some _ _ E) as (rest & ->).
    rewrite Bool.orb_true_iff, !String.eqb_eq, (lower_spells p "http" L1), (lower_spells p "https" L2).
    intros H; exists p, rest; auto.
  - intros (p & rest & -> & H).
    assert (E : before_colon (p ++ ":" ++ rest) = Some p) by (destruct H as [H|H]; [apply (spells_no_colon p "http")|apply (spells_no_colon p "https")]; auto).
    rewrite E, Bool.orb_true_iff, !String.eqb_eq, (lower_spells p "http" L1), (lower_spells p "https" L2); exact H.
Qed.
Lemma is_http_false path : ~ web_address path -> is_http path = false.
Proof. rewrite <- is_http_iff; destruct (is_http path); auto; intros H; elim H; auto. Qed.
