(* Proofs of C79: reading the files. *)
From Coq Require Import List ZArith Bool String Lia.
From Verif Require Import Py DataModel ItemModel ItemProofs MixModel MixSpec.
Import ListNotations.
Set Implicit Arguments.

Lemma min_len_ok x l : In (min_len x l) (x :: l) /\ forall y, In y (x :: l) -> (min_len x l <= y)%nat.
Proof.
unfold min_len. revert x. induction l as [|y l IH]; intros x; cbn [fold_left].
- split; [now left|]. intros y [->|[]]. lia.
- destruct (IH (Nat.min x y)) as (h1 & h2). split.
  + destruct h1 as [<-|h1]; [|now right; right]. destruct (Nat.min_dec x y) as [->| ->]; [now left|now right; left].
  + intros z [->|[->|hz]].
    * specialize (h2 _ (or_introl eq_refl)). lia.
    * specialize (h2 _ (or_introl eq_refl)). lia.
    * apply h2. now right.
Qed.
Lemma batch2_lemma l x : batch2 l = Ok x -> exists m, batch_of l m x.
Proof.
destruct l as [|y l]; [discriminate|]. unfold batch2.
destruct (forallb _ _) eqn:E; [|discriminate]. intros [= <-].
destruct (min_len_ok (len y) (map (@len Z) l)) as (h1 & h2). set (m := min_len _ _) in *.
exists m. unfold batch_of. cbn [c_n c_len c_ch c_at].
split; [reflexivity|]. split; [reflexivity|]. split; [|split].
- intros z hz. split.
  + apply h2. change (len y :: map (@len Z) l) with (map (@len Z) (y :: l)). now apply in_map.
  + rewrite forallb_forall in E. apply Nat.eqb_eq. now apply E.
- change (len y :: map (@len Z) l) with (map (@len Z) (y :: l)) in h1. apply in_map_iff in h1.
  destruct h1 as (z & hz & hin). exists z. auto.
- intros b z c t hb _ _. cbn [at_]. now rewrite hb.
Qed.
Lemma batch2_total l : l <> [] -> (forall y z, In y l -> In z l -> chans y = chans z) -> exists x, batch2 l = Ok x.
Proof.
destruct l as [|y l]; [congruence|]. intros _ h. unfold batch2.
replace (forallb _ _) with true; [eauto|]. symmetry. apply forallb_forall. intros z hz. apply Nat.eqb_eq. apply h; [assumption|now left].
Qed.
Lemma batch2_channels l y z : In y l -> In z l -> chans y <> chans z -> batch2 l = Err RuntimeError.
Proof.
destruct l as [|x l]; [intros []|]. intros hy hz hne. unfold batch2.
destruct (forallb _ _) eqn:E; [|reflexivity]. rewrite forallb_forall in E.
pose proof (E _ hy) as h1. pose proof (E _ hz) as h2. apply Nat.eqb_eq in h1. apply Nat.eqb_eq in h2. congruence.
Qed.
Lemma batch3_lengths l y z : In y l -> In z l -> c_len y <> c_len z -> batch3 l = Err RuntimeError.
Proof.
destruct l as [|x l]; [intros []|]. intros hy hz hne. unfold batch3.
destruct (forallb _ _) eqn:E; [|reflexivity]. rewrite forallb_forall in E.
pose proof (E _ hy) as h1. pose proof (E _ hz) as h2. apply andb_prop in h1. apply andb_prop in h2.
destruct h1 as (_ & h1), h2 as (_ & h2). apply Nat.eqb_eq in h1. apply Nat.eqb_eq in h2. congruence.
Qed.
Lemma batch3_lemma l x : batch3 l = Ok x ->
  t_b x = List.length l /\
  forall b y, nth_error l b = Some y -> c_len y = t_len x /\ c_n y = t_src x /\ t_ch x = Nat.min (t_len x) (c_ch y) /\
    forall k c t, t_at x b k c t = c_at y k c t.
Proof.
destruct l as [|z l]; [discriminate|]. unfold batch3.
destruct (forallb _ _) eqn:E; [|discriminate]. intros [= <-]. split; [reflexivity|].
cbn [t_b t_src t_ch t_len t_at]. rewrite forallb_forall in E.
assert (hm : min_len (c_len z) (map c_len l) = c_len z).
{ destruct (min_len_ok (c_len z) (map c_len l)) as (h1 & _). destruct h1 as [h1|h1]; [now symmetry|].
  apply in_map_iff in h1. destruct h1 as (w & <- & hw). specialize (E w (or_intror hw)).
  apply andb_prop in E. destruct E as (_ & E). now apply Nat.eqb_eq. }
rewrite hm in *. intros b y hb. pose proof (E y (nth_error_In _ _ hb)) as h.
apply andb_prop in h. destruct h as (h & h3). apply andb_prop in h. destruct h as (h1 & h2).
apply Nat.eqb_eq in h1. apply Nat.eqb_eq in h2. apply Nat.eqb_eq in h3.
split; [assumption|]. split; [assumption|]. split; [now symmetry|]. intros k c t. now rewrite hb.
Qed.

Section Read.
Variable load : string -> option (sig Z * Z).
Lemma read_list_ok fs fns xs : read_list load (Some fs) fns = Ok xs ->
  Forall2 (fun f x => load f = Some (x, fs)) fns xs.
Proof.
revert xs. induction fns as [|f fns IH]; intros xs; cbn [read_list]; [intros [= <-]; constructor|].
unfold load_wav. destruct (load f) as [[x fs']|] eqn:E; [|discriminate]. cbn [bind].
destruct (Z.eqb_spec fs fs') as [->|]; [|discriminate]. cbn [negb].
destruct (read_list load (Some fs') fns) as [r|]; [|discriminate]. cbn [bind]. intros [= <-].
constructor; [assumption|auto].
Qed.
Definition chan_of (mic : Z) (x : sig Z) (c : nat) : Prop :=
  (c < chans x)%nat /\ (Z.of_nat c = mic \/ (mic < 0)%Z /\ Z.of_nat c = (mic + Z.of_nat (chans x))%Z).
Lemma pick_ok mic x y : pick mic x = Ok y -> exists c, chan_of mic x c /\ y = (len x, at_ x c).
Proof.
unfold pick. destruct (pyget _ mic) as [c|] eqn:E; [|discriminate]. cbn [bind]. intros [= <-].
exists c. split; [|reflexivity]. revert E. unfold pyget, chan_of. rewrite seq_length.
destruct (Z.ltb_spec mic 0) as [h0|h0].
- destruct (Z.leb_spec 0 (mic + Z.of_nat (chans x))); [|discriminate].
  destruct (Z.ltb_spec (mic + Z.of_nat (chans x)) (Z.of_nat (chans x))); [|discriminate]. cbn [andb].
  destruct (nth_error _ _) as [c'|] eqn:E; [|discriminate]. intros [= <-].
  assert (c' = Z.to_nat (mic + Z.of_nat (chans x))).
  { apply nth_error_nth with (d := 0%nat) in E. rewrite seq_nth in E by lia. lia. }
  split; [lia|]. right. lia.
- destruct (Z.leb_spec 0 mic); [|discriminate].
  destruct (Z.ltb_spec mic (Z.of_nat (chans x))); [|discriminate]. cbn [andb].
  destruct (nth_error _ _) as [c'|] eqn:E; [|discriminate]. intros [= <-].
  assert (c' = Z.to_nat mic).
  { apply nth_error_nth with (d := 0%nat) in E. rewrite seq_nth in E by lia. lia. }
  split; [lia|]. left. lia.
Qed.
Lemma pick_all_ok mic xs r : pick_all mic xs = Ok r ->
  Forall2 (fun x y => exists c, chan_of mic x c /\ y = (len x, at_ x c)) xs r.
Proof.
revert r. induction xs as [|x xs IH]; intros r; cbn [pick_all]; [intros [= <-]; constructor|].
destruct (pick mic x) as [y|] eqn:E; [|discriminate]. cbn [bind].
destruct (pick_all mic xs) as [r'|]; [|discriminate]. cbn [bind]. intros [= <-].
constructor; [now apply pick_ok|auto].
Qed.
Lemma cat_ok l y : cat l = Ok y -> l <> [] /\ chans y = List.length l /\
  forall k r, nth_error l k = Some r -> fst r = len y /\ forall t, at_ y k t = snd r t.
Proof.
destruct l as [|[n f] l]; [discriminate|]. unfold cat. destruct (forallb _ _) eqn:E; [|discriminate].
intros [= <-]. split; [discriminate|]. split; [reflexivity|]. cbn [len at_]. intros k r hk.
rewrite forallb_forall in E. split; [apply Nat.eqb_eq, E, (nth_error_In _ _ hk)|]. intros t. now rewrite hk.
Qed.
Lemma forall2_nth A B (P : A -> B -> Prop) l m : Forall2 P l m ->
  List.length l = List.length m /\ forall k a, nth_error l k = Some a -> exists b, nth_error m k = Some b /\ P a b.
Proof.
induction 1 as [|a b l m h H IH]; [split; [reflexivity|]; intros [|k] a; discriminate|].
destruct IH as (IH1 & IH2). split; [simpl; congruence|]. intros [|k] a'; cbn [nth_error].
- intros [= <-]. eauto.
- apply IH2.
Qed.
Lemma read_mic_ok mic fs fns y : read_mic load mic fns (Some fs) = Ok y -> refs_of load mic fs fns y.
Proof.
unfold read_mic. destruct (read_list load (Some fs) fns) as [xs|] eqn:E1; [|discriminate]. cbn [bind].
destruct (pick_all mic xs) as [r|] eqn:E2; [|discriminate]. cbn [bind]. intros E3.
apply read_list_ok in E1. apply pick_all_ok in E2. apply cat_ok in E3.
destruct (forall2_nth E1) as (l1 & h1), (forall2_nth E2) as (l2 & h2), E3 as (ne & l3 & h3).
split; [intros ->; destruct r; [congruence|destruct xs; discriminate]|].
split; [congruence|]. intros k f hk. destruct (h1 k f hk) as (x & hx & hl).
destruct (h2 k x hx) as (yk & hy & c & hc & ->). destruct (h3 k _ hy) as (hlen & hat).
destruct hc as (hc1 & hc2). exists x, c. split; [assumption|]. split; [exact hlen|]. split; [assumption|]. split; [assumption|exact hat].
Qed.
Lemma gather_ok mic l ms ws ds : gather load (read_mic load mic) l = Ok (ms, ws, ds) ->
  exists xs, Forall2 (sample_of load mic) l xs /\
    ms = map (fun x => fst (fst x)) xs /\ ws = map (fun x => snd (fst x)) xs /\ ds = map snd xs.
Proof.
revert ms ws ds. induction l as [|s l IH]; intros ms ws ds; cbn [gather].
- intros [= <- <- <-]. exists []. split; [constructor|auto].
- unfold load_wav. destruct (load (s_mix s)) as [[m fs]|] eqn:E; [|discriminate]. cbn [bind].
  destruct (read_mic load mic (s_wet s) (Some fs)) as [w|] eqn:Ew; [|discriminate]. cbn [bind].
  destruct (read_mic load mic (s_dry s) (Some fs)) as [d|] eqn:Ed; [|discriminate]. cbn [bind].
  destruct (gather load (read_mic load mic) l) as [[[ms' ws'] ds']|]; [|discriminate]. cbn [bind]. intros [= <- <- <-].
  destruct (IH _ _ _ eq_refl) as (xs & h & -> & -> & ->). exists ((m, w, d) :: xs). split; [|auto].
  constructor; [|assumption]. exists fs. cbn [fst snd]. split; [assumption|]. split; now apply read_mic_ok.
Qed.
Lemma read_lemma mic l m w d : read_samples_mic load mic l = Ok (m, w, d) ->
  exists xs, Forall2 (sample_of load mic) l xs /\
    (exists n, batch_of (map (fun x => fst (fst x)) xs) n m) /\
    (exists n, batch_of (map (fun x => snd (fst x)) xs) n w) /\
    (exists n, batch_of (map snd xs) n d).
Proof.
unfold read_samples_mic. destruct (gather _ _ _) as [[[ms ws] ds]|] eqn:E; [|discriminate]. cbn [bind].
destruct (batch2 ms) as [m'|] eqn:E1; [|discriminate]. cbn [bind].
destruct (batch2 ws) as [w'|] eqn:E2; [|discriminate]. cbn [bind].
destruct (batch2 ds) as [d'|] eqn:E3; [|discriminate]. cbn [bind]. intros [= <- <- <-].
apply gather_ok in E. destruct E as (xs & h & -> & -> & ->). exists xs. split; [assumption|].
split; [now apply batch2_lemma|]. split; now apply batch2_lemma.
Qed.
Lemma stack_ok l x : stack l = Ok x -> c_n x = List.length l /\
  forall k y, nth_error l k = Some y -> len y = c_len x /\ chans y = c_ch x /\ forall c t, c_at x k c t = at_ y c t.
Proof.
destruct l as [|z l]; [discriminate|]. unfold stack. destruct (forallb _ _) eqn:E; [|discriminate].
intros [= <-]. split; [reflexivity|]. cbn [c_len c_ch c_at]. intros k y hk. rewrite forallb_forall in E.
pose proof (E y (nth_error_In _ _ hk)) as h. apply andb_prop in h. destruct h as (h1 & h2).
apply Nat.eqb_eq in h1. apply Nat.eqb_eq in h2. split; [assumption|]. split; [assumption|]. intros c t. now rewrite hk.
Qed.
Lemma read_all_ok fs fns x : read_all load fns (Some fs) = Ok x -> c_n x = List.length fns /\
  forall k f, nth_error fns k = Some f -> exists y, load f = Some (y, fs) /\ len y = c_len x /\ chans y = c_ch x /\
    forall c t, c_at x k c t = at_ y c t.
Proof.
unfold read_all. destruct (read_list load (Some fs) fns) as [xs|] eqn:E1; [|discriminate]. cbn [bind]. intros E2.
apply read_list_ok in E1. apply stack_ok in E2. destruct (forall2_nth E1) as (l1 & h1), E2 as (l2 & h2).
split; [congruence|]. intros k f hk. destruct (h1 k f hk) as (y & hy & hl). exists y. split; [assumption|]. now apply h2.
Qed.
Lemma gather_all_ok l ms ws ds : gather load (read_all load) l = Ok (ms, ws, ds) ->
  Forall2 (fun s m => exists fs, load (s_mix s) = Some (m, fs)) l ms /\
  Forall2 (fun s w => exists fs, read_all load (s_wet s) (Some fs) = Ok w) l ws /\
  Forall2 (fun s d => exists fs, read_all load (s_dry s) (Some fs) = Ok d) l ds.
Proof.
revert ms ws ds. induction l as [|s l IH]; intros ms ws ds; cbn [gather].
- intros [= <- <- <-]. repeat split; constructor.
- unfold load_wav. destruct (load (s_mix s)) as [[m fs]|] eqn:E; [|discriminate]. cbn [bind].
  destruct (read_all load (s_wet s) (Some fs)) as [w|] eqn:Ew; [|discriminate]. cbn [bind].
  destruct (read_all load (s_dry s) (Some fs)) as [d|] eqn:Ed; [|discriminate]. cbn [bind].
  destruct (gather load (read_all load) l) as [[[ms' ws'] ds']|]; [|discriminate]. cbn [bind]. intros [= <- <- <-].
  destruct (IH _ _ _ eq_refl) as (h1 & h2 & h3). split; [|split]; constructor; eauto.
Qed.
Lemma whole_lemma (names : sample -> list string) l ws x :
  Forall2 (fun s w => exists fs, read_all load (names s) (Some fs) = Ok w) l ws -> batch3 ws = Ok x ->
  whole_refs load (map names l) x.
Proof.
intros h hb. apply batch3_lemma in hb. destruct hb as (hb1 & hb2). destruct (forall2_nth h) as (hl & hn).
split; [rewrite map_length; congruence|]. intros b fs k f h1 h2.
rewrite nth_error_map in h1. destruct (nth_error l b) as [s|] eqn:Es; [|discriminate]. injection h1 as <-.
destruct (hn b s Es) as (w & hw & rate & hr). destruct (hb2 b w hw) as (a1 & a2 & a3 & a4).
apply read_all_ok in hr. destruct hr as (r1 & r2). split; [congruence|]. destruct (r2 k f h2) as (y & y1 & y2 & y3 & y4).
exists y, rate. split; [assumption|]. split; [congruence|]. split; [congruence|]. intros c t. now rewrite a4, y4.
Qed.
Lemma read_all_lemma l m w d : read_samples_all load l = Ok (m, w, d) ->
  (exists xs n, Forall2 (fun s x => exists fs, load (s_mix s) = Some (x, fs)) l xs /\ batch_of xs n m) /\
  whole_refs load (map s_wet l) w /\ whole_refs load (map s_dry l) d.
Proof.
unfold read_samples_all. destruct (gather _ _ _) as [[[ms ws] ds]|] eqn:E; [|discriminate]. cbn [bind].
destruct (batch2 ms) as [m'|] eqn:E1; [|discriminate]. cbn [bind].
destruct (batch3 ws) as [w'|] eqn:E2; [|discriminate]. cbn [bind].
destruct (batch3 ds) as [d'|] eqn:E3; [|discriminate]. cbn [bind]. intros [= <- <- <-].
apply gather_all_ok in E. destruct E as (h1 & h2 & h3). apply batch2_lemma in E1. destruct E1 as (n & hn).
split; [exists ms, n; auto|]. split; [now apply whole_lemma with ws|now apply whole_lemma with ds].
Qed.
End Read.
