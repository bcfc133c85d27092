(* Proofs for the addresses of C49. *)
From Coq Require Import String Ascii List Bool Lia.
From Verif Require Import Py LoadModel LoadSpec LoadProofs AddrSpec.
Import ListNotations.
Local Open Scope string_scope.

Lemma slashes_cons c s : only_slashes (String c s) -> c = "/"%char /\ only_slashes s.
Proof. intro H. split; [apply H; now left|intros d K; apply H; now right]. Qed.
Lemma sapp_nil s : (s ++ "")%string = s.
Proof. induction s; simpl; congruence. Qed.
Lemma sapp_assoc a b c : ((a ++ b) ++ c)%string = (a ++ b ++ c)%string.
Proof. induction a; simpl; congruence. Qed.
Lemma lstrip_slashes l c b : only_slashes l -> c <> "/"%char -> lstrip (l ++ String c b) = String c b.
Proof.
  intros H N. induction l as [|d l IH].
  - simpl. destruct (Ascii.eqb_spec c slash); [easy|reflexivity].
  - apply slashes_cons in H. destruct H as [-> H]. simpl. now apply IH.
Qed.
Lemma rstrip_slashes r : only_slashes r -> rstrip r = "".
Proof. induction r as [|d r IH]; intro H; [reflexivity|]. apply slashes_cons in H. destruct H as [-> H]. simpl. now rewrite IH. Qed.
Lemma rstrip_base b c r : c <> "/"%char -> only_slashes r -> rstrip (b ++ String c r) = (b ++ String c "")%string.
Proof.
  intros N H. induction b as [|d b IH].
  - simpl. rewrite rstrip_slashes by exact H. destruct (Ascii.eqb_spec c slash); [easy|reflexivity].
  - simpl. rewrite IH. destruct b; reflexivity.
Qed.
Lemma urljoin_trimmed url base f : trimmed url base -> urljoin url f = (base ++ "/" ++ f)%string.
Proof.
  intros (l & r & -> & L & R & (c & b & E & N) & (b' & c' & E' & N')). unfold urljoin.
  assert (X : lstrip (l ++ base ++ r) = (base ++ r)%string) by (rewrite E; now apply lstrip_slashes).
  rewrite X. clear X. rewrite E'. rewrite sapp_assoc. simpl. now rewrite rstrip_base.
Qed.

Lemma split_ne s : split_slash s <> [].
Proof. destruct s as [|c s]; simpl; [easy|]. destruct (Ascii.eqb c slash); [easy|]. now destruct (split_slash s). Qed.
Lemma split_at a b : split_slash (a ++ String "/" b) = (split_slash a ++ split_slash b)%list.
Proof.
  induction a as [|c a IH]; [reflexivity|]. simpl. rewrite IH. destruct (Ascii.eqb c slash); [reflexivity|].
  destruct (split_slash a) eqn:E; [now destruct (split_ne a)|reflexivity].
Qed.
Lemma split_name s : no_slash s -> split_slash s = [s].
Proof.
  induction s as [|c s IH]; [reflexivity|]. intro H. simpl.
  destruct (Ascii.eqb_spec c slash) as [->|N]; [destruct H; now left|]. rewrite IH; [reflexivity|]. intro K. apply H. now right.
Qed.
Definition keep (c : string) := negb (String.eqb c "" || String.eqb c ".").
Lemma keep_slashes r : only_slashes r -> filter keep (split_slash r) = [].
Proof. induction r as [|d r IH]; intro H; [reflexivity|]. apply slashes_cons in H. destruct H as [-> H]. simpl. now apply IH. Qed.
Lemma path_name_last url name : last_component url name -> path_name url = name.
Proof.
  intros (pre & r & -> & N & E & D & R). unfold path_name. fold keep.
  change (pre ++ "/" ++ name ++ r)%string with (pre ++ String "/" (name ++ r))%string.
  assert (K : keep name = true) by (unfold keep; destruct (String.eqb_spec name ""); [easy|]; destruct (String.eqb_spec name "."); easy).
  assert (X : filter keep (split_slash (name ++ r)) = [name]).
  { destruct r as [|c r].
    - rewrite sapp_nil, split_name by exact N. simpl. now rewrite K.
    - apply slashes_cons in R. destruct R as [-> R]. rewrite split_at, split_name by exact N.
      rewrite filter_app, keep_slashes by exact R. simpl. now rewrite K. }
  rewrite split_at, filter_app, X. apply last_last.
Qed.

Section A.
Variables (bytes : Type) (home : string) (net : nat -> string -> transfer bytes).
Lemma fetch_new w fn url i x : nth_error (attempts (snd (fetch net w fn url))) i = Some x -> length (attempts w) <= i -> x = (url, fn).
Proof.
  unfold fetch. destruct (files w fn); simpl.
  - intros H L. assert (i < length (attempts w)) by (apply nth_error_Some; congruence). lia.
  - unfold urlretrieve.
    assert (X : nth_error (attempts w ++ [(url, fn)])%list i = Some x ->
      length (attempts w) <= i -> x = (url, fn)).
    { intros H L. rewrite nth_error_app2 in H by exact L. destruct (i - length (attempts w)) as [|[|k]]; simpl in H; congruence. }
    destruct (net _ url); simpl; exact X.
Qed.
Lemma fetch_len w fn url : length (attempts w) <= length (attempts (snd (fetch net w fn url))) /\
  forall i, i < length (attempts w) -> nth_error (attempts (snd (fetch net w fn url))) i = nth_error (attempts w) i.
Proof.
  unfold fetch. destruct (files w fn); simpl; [split; [lia|reflexivity]|]. unfold urlretrieve.
  destruct (net _ url); simpl; rewrite app_length; simpl; (split; [lia|]); intros i H; now rewrite nth_error_app1.
Qed.
Lemma address_lemma w url base name i u fn : trimmed url base -> last_component url name ->
  nth_error (attempts (visit home net w url)) i = Some (u, fn) -> length (attempts w) <= i ->
  (u = (base ++ "/model_weights.ckpt")%string /\ fn = cache_weights home name) \/
  (u = (base ++ "/model_config.yaml")%string /\ fn = cache_config home name).
Proof.
  intros T L. unfold visit. rewrite gmuE. rewrite !(urljoin_trimmed url base _ T), (path_name_last url name L).
  set (f1 := cache_weights home name). set (u1 := (base ++ "/" ++ WEIGHTS_FN)%string).
  set (f2 := cache_config home name). set (u2 := (base ++ "/" ++ CONFIG_FN)%string).
  pose proof (fetch_new w f1 u1) as N1. pose proof (fetch_len w f1 u1) as [G1 P1].
  destruct (fetch net w f1 u1) as [[[]|e] w1]; simpl in *.
  - pose proof (fetch_new w1 f2 u2) as N2. pose proof (fetch_len w1 f2 u2) as [G2 P2].
    assert (X : forall w2 : world bytes, snd (fetch net w1 f2 u2) = w2 -> nth_error (attempts w2) i = Some (u, fn) -> length (attempts w) <= i ->
      (u = u1 /\ fn = f1) \/ (u = u2 /\ fn = f2)).
    { intros w2 <- H K. destruct (PeanoNat.Nat.lt_ge_cases i (length (attempts w1))) as [I|I].
      - left. rewrite P2 in H by exact I. specialize (N1 i (u, fn) H K). now injection N1 as -> ->.
      - right. specialize (N2 i (u, fn) H I). now injection N2 as -> ->. }
    destruct (fetch net w1 f2 u2) as [[[]|e] w2]; simpl in *; exact (X w2 eq_refl).
  - intros H K. left. specialize (N1 i (u, fn) H K). now injection N1 as -> ->.
Qed.
Lemma place_lemma w url name p : last_component url name ->
  fst (get_model_from_url home net w url) = Ok p -> p = (cache_weights home name, cache_config home name).
Proof.
  intro L. rewrite gmuE, (path_name_last url name L).
  destruct (fetch net w _ _) as [[[]|e] w1]; simpl; [|discriminate].
  destruct (fetch net w1 _ _) as [[[]|e] w2]; simpl; [|discriminate]. now intros [= <-].
Qed.
Lemma fetch_none remote w fn url : (forall n u, net n u = Complete (remote u)) -> files w fn = None ->
  fetch net w fn url = (Ok tt, put (note w url fn) fn (remote url)).
Proof. intros N F. unfold fetch. rewrite F. unfold urlretrieve. now rewrite N. Qed.
Lemma fetched_lemma remote w url base name : trimmed url base -> last_component url name ->
  (forall n u, net n u = Complete (remote u)) ->
  files w (cache_weights home name) = None -> files w (cache_config home name) = None ->
  let w' := visit home net w url in
  attempts w' = (attempts w ++ [((base ++ "/model_weights.ckpt")%string, cache_weights home name);
                                ((base ++ "/model_config.yaml")%string, cache_config home name)])%list /\
  files w' (cache_weights home name) = Some (remote (base ++ "/model_weights.ckpt")%string) /\
  files w' (cache_config home name) = Some (remote (base ++ "/model_config.yaml")%string).
Proof.
  intros T L N F1 F2. unfold visit. rewrite gmuE. rewrite !(urljoin_trimmed url base _ T), (path_name_last url name L).
  assert (D : String.eqb (cache_config home name) (cache_weights home name) = false).
  { apply String.eqb_neq. intro E. symmetry in E. exact (weights_config home name name E). }
  rewrite (fetch_none remote w _ _ N F1). cbv iota beta.
  rewrite (fetch_none remote _ (cache_config home name) _ N) by (cbn [files put note]; now rewrite D).
  cbn [snd files attempts put note].
  rewrite !String.eqb_refl. rewrite (String.eqb_sym (cache_weights home name)), D, <- app_assoc.
  split; [reflexivity|split; reflexivity].
Qed.
End A.
