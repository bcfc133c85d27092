(* Proofs of C81. *)
From Coq Require Import List ZArith Bool Arith Lia.
From Verif Require Import Py TorchShape ShapeModel ShapeSpec ShapeProofs ShapeBridge DataModel ItemModel ScriptModel.
Import ListNotations.
Set Implicit Arguments.

Lemma bound_nat c n : (n <= c)%nat -> bound c (Z.of_nat n) = n.
Proof. intros h. unfold bound. destruct (Z.ltb_spec (Z.of_nat n) 0); lia. Qed.
Lemma stft_ok a n c : (0 < used_hop a <= n_fft a)%nat -> (n_fft a = 2 * (n_fft a / 2))%nat -> (n_fft a / 2 < n)%nat ->
  stft_shape a [n; c] = Ok [S (n / used_hop a); S (n_fft a / 2); c].
Proof.
intros h e l. unfold stft_shape. destruct (Nat.eqb_spec (used_hop a) 0); [lia|].
destruct (Nat.leb_spec n (n_fft a / 2)); [lia|]. simpl orb. cbv iota beta zeta.
do 3 f_equal. f_equal. lia.
Qed.
Lemma istft_ok a n s : (0 < used_hop a <= n_fft a)%nat -> (n_fft a = 2 * (n_fft a / 2))%nat -> (0 < n / used_hop a)%nat ->
  istft_shape a (S (n / used_hop a) :: S (n_fft a / 2) :: s) = Ok (used_hop a * (n / used_hop a) :: s)%nat.
Proof.
intros h e l. unfold istft_shape. replace (S (n / used_hop a) - 1)%nat with (n / used_hop a)%nat by lia.
replace (n_fft a + used_hop a * (n / used_hop a) - _)%nat with (used_hop a * (n / used_hop a))%nat by lia.
destruct (Nat.eqb_spec (used_hop a) 0); [lia|]. destruct (Nat.ltb_spec (n_fft a) (used_hop a)); [lia|].
destruct (Nat.eqb_spec (used_hop a * (n / used_hop a)) 0); [nia|]. reflexivity.
Qed.
Section P.
Variables (St : Type) (model : St -> shape -> result (shape * St)) (m0 : St) (a : args) (c n len s : nat).
Hypothesis hh : (0 < used_hop a <= n_fft a)%nat.
Hypothesis he : Nat.even (n_fft a) = true.
Hypothesis hn : (n_fft a / 2 < n)%nat.
Hypothesis hf : (used_hop a <= n)%nat.
Lemma he' : (n_fft a = 2 * (n_fft a / 2))%nat.
Proof. apply Nat.even_spec in he. destruct he as [k e]. rewrite e, (Nat.mul_comm 2), Nat.div_mul; lia. Qed.
Lemma hl : (0 < n / used_hop a)%nat.
Proof. apply Nat.div_str_pos. lia. Qed.
Lemma compared_lemma ch : algo a = Tiss \/ algo a = AuxivaIp -> n_src a = Z.of_nat s -> used_chan a = Z.of_nat ch ->
  (0 < s <= ch)%nat -> (ch <= c)%nat ->
  keeps_shape model (rev [s; S (n_fft a / 2); S (n / used_hop a)]) (n_iter a) m0 ->
  run model a m0 c n len
  = Ok (rev [2; Nat.min len (n / used_hop a * used_hop a)], rev [Nat.min s 2; Nat.min len (n / used_hop a * used_hop a)])%nat.
Proof.
intros al es ec hs hc k. unfold run. rewrite ec, bound_nat, stft_ok by (try apply he'; lia).
assert (E : separate model a m0 [S (n / used_hop a); S (n_fft a / 2); ch] = Ok [S (n / used_hop a); S (n_fft a / 2); s]).
{ unfold separate. destruct al as [-> | ->]; rewrite es.
  - apply (@tiss_mic St model m0 [] ch (S (n_fft a / 2)) (S (n / used_hop a)) s); [lia|exact k|lia|now left].
  - apply (@ip_ok St model m0 [] ch (S (n_fft a / 2)) (S (n / used_hop a)) s); [lia|exact k|]. lia. }
assert (E2 : (if (2 <? s)%nat then 2%nat else s) = Nat.min s 2) by (destruct (Nat.ltb_spec 2 s); lia).
destruct al as [e | e]; rewrite e; cbv iota; unfold bind; rewrite E, istft_ok by (try apply he'; try apply hl; lia);
  rewrite E2, (Nat.mul_comm (used_hop a)); reflexivity.
Qed.
Lemma five_lemma ch : algo a = Five -> used_chan a = Z.of_nat ch -> (0 < ch <= c)%nat ->
  keeps_shape model (rev [(n_fft a / 2)%nat; S (n / used_hop a)]) (n_iter a) m0 ->
  run model a m0 c n len
  = Ok (rev [2; Nat.min len (n / used_hop a * used_hop a)], rev [1; Nat.min len (n / used_hop a * used_hop a)])%nat.
Proof.
intros al ec hc k. unfold run. rewrite al, ec, bound_nat, stft_ok by (try apply he'; lia).
assert (E : separate model a m0 [S (n / used_hop a); S (n_fft a / 2); ch] = Ok [S (n / used_hop a); S (n_fft a / 2); 1%nat]).
{ unfold separate. rewrite al.
  apply (@five_py St model m0 [] ch (S (n_fft a / 2)) (S (n / used_hop a)) (n_iter a) 0%Z None);
    [lia|unfold index_of; lia|now left|]. replace (S (n_fft a / 2) - 1)%nat with (n_fft a / 2)%nat by lia. exact k. }
unfold bind. rewrite E, istft_ok by (try apply he'; try apply hl; lia). simpl Nat.ltb. rewrite (Nat.mul_comm (used_hop a)). reflexivity.
Qed.
Lemma ip2_lemma : algo a = AuxivaIp2 -> (2 <= c)%nat ->
  keeps_shape model (rev [2%nat; S (n_fft a / 2); S (n / used_hop a)]) (n_iter a) m0 ->
  run model a m0 c n len
  = if (n_src a =? 2)%Z && (match n_chan a with None => true | Some x => (x =? 2)%Z end)
    then Ok (rev [2; Nat.min len (n / used_hop a * used_hop a)], rev [2; Nat.min len (n / used_hop a * used_hop a)])%nat
    else Err AssertionError.
Proof.
intros al hc k. unfold run. rewrite al.
destruct (Z.eqb_spec (n_src a) 2) as [es|es]; [|now rewrite andb_false_r].
assert (U : (used_chan a =? 2)%Z = match n_chan a with None => true | Some x => (x =? 2)%Z end).
{ unfold used_chan. destruct (n_chan a); [reflexivity|now rewrite es]. }
rewrite andb_true_r, <- U. destruct (Z.eqb_spec (used_chan a) 2) as [ec|ec]; [|reflexivity].
cbv iota. simpl negb. cbv iota. rewrite ec. change 2%Z with (Z.of_nat 2). rewrite bound_nat, stft_ok by (try apply he'; lia).
assert (E : separate model a m0 [S (n / used_hop a); S (n_fft a / 2); 2%nat] = Ok [S (n / used_hop a); S (n_fft a / 2); 2%nat]).
{ unfold separate. rewrite al. apply (@ip2_py St model m0 [] 2 (S (n_fft a / 2)) (S (n / used_hop a)) (n_iter a) (Some 0%Z));
    [reflexivity|exact k|lia]. }
unfold bind. rewrite E, istft_ok by (try apply he'; try apply hl; lia). simpl Nat.ltb. rewrite (Nat.mul_comm (used_hop a)). reflexivity.
Qed.
End P.

From Verif Require Import ScriptSpec.
Lemma hop_used a h : hop_is a h -> used_hop a = h.
Proof. unfold used_hop. intros [-> | [-> ->]]; reflexivity. Qed.
Lemma chan_used a c : channels_are a c -> used_chan a = c.
Proof. unfold used_chan. intros [-> | [-> ->]]; reflexivity. Qed.
Section Q.
Variables (St : Type) (model : St -> shape -> result (shape * St)) (m0 : St) (a : args) (h c n len s ch : nat).
Hypothesis t : transformable a h n.
Lemma compared : algo a = Tiss \/ algo a = AuxivaIp -> n_src a = Z.of_nat s -> channels_are a (Z.of_nat ch) ->
  (0 < s <= ch)%nat -> (ch <= c)%nat ->
  keeps_shape model (rev [s; S (n_fft a / 2); S (n / h)]) (n_iter a) m0 ->
  run model a m0 c n len
  = Ok (rev [2; Nat.min len (n / h * h)], rev [Nat.min s 2; Nat.min len (n / h * h)])%nat.
Proof.
destruct t as (e & t1 & t2 & t3 & t4). apply hop_used in e. subst h. intros al es ec.
apply chan_used in ec. intros. eapply compared_lemma; eauto.
Qed.
Lemma five_compared : algo a = Five -> channels_are a (Z.of_nat ch) -> (0 < ch <= c)%nat ->
  keeps_shape model (rev [(n_fft a / 2)%nat; S (n / h)]) (n_iter a) m0 ->
  run model a m0 c n len
  = Ok (rev [2; Nat.min len (n / h * h)], rev [1; Nat.min len (n / h * h)])%nat.
Proof.
destruct t as (e & t1 & t2 & t3 & t4). apply hop_used in e. subst h. intros al ec.
apply chan_used in ec. intros. eapply five_lemma; eauto.
Qed.
Lemma ip2_compared : algo a = AuxivaIp2 -> (2 <= c)%nat ->
  keeps_shape model (rev [2%nat; S (n_fft a / 2); S (n / h)]) (n_iter a) m0 ->
  (n_src a = 2%Z /\ channels_are a 2 -> run model a m0 c n len
     = Ok (rev [2; Nat.min len (n / h * h)], rev [2; Nat.min len (n / h * h)])%nat)
  /\ (~ (n_src a = 2%Z /\ channels_are a 2) -> run model a m0 c n len = Err AssertionError).
Proof.
destruct t as (e & t1 & t2 & t3 & t4). apply hop_used in e. subst h. intros al hc k.
rewrite (@ip2_lemma St model m0 a c n len t1 t2 t3 t4 al hc k). unfold channels_are.
destruct (Z.eqb_spec (n_src a) 2) as [es|es]; simpl.
- destruct (n_chan a) as [x|]; [destruct (Z.eqb_spec x 2) as [->|ne]|]; split; intros H; try reflexivity.
  + destruct H. split; [exact es|now left].
  + destruct H as [_ [H | [H _]]]; [injection H; lia|discriminate].
  + destruct H. split; [exact es|right; auto].
- split; [intros [H _]; lia|reflexivity].
Qed.
(* fewer channels than sources *)
Lemma too_few z : algo a = Tiss \/ algo a = AuxivaIp -> channels_are a (Z.of_nat ch) -> (0 < ch <= c)%nat -> (Z.of_nat ch < z)%Z -> n_src a = z ->
  run model a m0 c n len = Err ValueError.
Proof.
destruct t as (e & t1 & t2 & t3 & t4). apply hop_used in e. subst h. intros al ec hc hz es.
apply chan_used in ec. unfold run. rewrite ec, bound_nat, stft_ok by (try (eapply he'; eassumption); lia).
assert (E : separate model a m0 [S (n / used_hop a); S (n_fft a / 2); ch] = Err ValueError).
{ unfold separate. destruct al as [-> | ->]; rewrite es.
  - now apply (@tiss_too_many_py St model m0 [] ch (S (n_fft a / 2)) (S (n / used_hop a))).
  - now apply (@ip_many St model m0 [] ch (S (n_fft a / 2)) (S (n / used_hop a))). }
destruct al as [e | e]; rewrite e; cbv iota; unfold bind; now rewrite E.
Qed.
End Q.
Lemma tap_warning a : (exists x, In (NoDereverberation x) (warnings a)) <-> (0 < tap a)%nat.
Proof.
unfold warnings. replace (is_overiss_t (algo a)) with false by now destruct (algo a).
destruct (Nat.ltb_spec 0 (tap a)) as [p|p]; simpl negb; cbv beta iota delta [andb].
- split; [auto|intros _]. exists (Z.of_nat (tap a)). now left.
- split; [intros [x h]|lia]. exfalso. simpl in h. destruct (algo a); try contradiction.
  destruct (n_src a =? 1)%Z; simpl in h; [contradiction|]. destruct h as [h | []]; discriminate.
Qed.
Lemma source_warning a x : In (OneSourceOnly x) (warnings a) <-> algo a = Five /\ n_src a <> 1%Z /\ x = Z.of_nat (tap a).
Proof.
unfold warnings. rewrite in_app_iff. split.
- intros [h | h].
  + destruct (_ && _)%bool; [destruct h as [h | []]; discriminate|contradiction].
  + destruct (algo a); try contradiction. destruct (Z.eqb_spec (n_src a) 1); [contradiction|].
    destruct h as [h | []]. injection h; auto.
- intros (-> & h & ->). right. destruct (Z.eqb_spec (n_src a) 1); [contradiction|now left].
Qed.
Lemma references_lemma a : references a = Reverberant <-> delay a = 0%nat /\ tap a = 0%nat.
Proof.
unfold references. destruct (Nat.eqb_spec (delay a) 0), (Nat.eqb_spec (tap a) 0); simpl; split; try tauto; discriminate.
Qed.
Lemma dnn_lemma V mic src (x : sig V) : (0 <= src)%Z ->
  dnn_input mic src x = if (src <=? mic)%Z then Ok (mksig (Nat.min (chans x) (Z.to_nat src)) (len x) (at_ x)) else Err AssertionError.
Proof.
intros h. unfold dnn_input, bound. destruct (Z.ltb_spec src 0); [lia|].
destruct (src <=? mic)%Z; [|reflexivity]. do 2 f_equal. lia.
Qed.
