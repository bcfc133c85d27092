(* Proofs of C78. *)
From Coq Require Import List ZArith Permutation String Bool Lia DecimalString DecimalZ.
From Verif Require Import Py DataModel DataSpec DataProofs ItemModel ItemSpec.
Import ListNotations.
Set Implicit Arguments.

Lemma pyget_ok A (l : list A) i a : (0 <= i)%Z -> pyget l i = Ok a -> nth_error l (Z.to_nat i) = Some a.
Proof.
unfold pyget. intros h. destruct (Z.ltb_spec i 0) as [h'|_]; [lia|].
destruct ((0 <=? i) && _)%Z; [|discriminate]. destruct (nth_error l _); [|discriminate]. congruence.
Qed.
Lemma pyget_in A (l : list A) i a : pyget l i = Ok a -> In a l.
Proof.
unfold pyget. destruct (_ && _); [|discriminate]. destruct (nth_error l _) eqn:E; [|discriminate].
intros [= <-]. eapply nth_error_In; eauto.
Qed.
Lemma pyget_nth A (l : list A) i a : nth_error l i = Some a -> pyget l (Z.of_nat i) = Ok a.
Proof.
intros h. assert (hl : i < List.length l) by (apply nth_error_Some; congruence).
unfold pyget. destruct (Z.ltb_spec (Z.of_nat i) 0); [lia|].
replace ((0 <=? Z.of_nat i) && _)%Z with true; [now rewrite Nat2Z.id, h|].
symmetry. apply andb_true_iff. split; [apply Z.leb_le|apply Z.ltb_lt]; lia.
Qed.

Lemma nth_error_rev A (l : list A) k : k < List.length l -> nth_error (rev l) k = nth_error l (List.length l - S k).
Proof.
intros h. destruct l as [|a l]; [simpl in h; lia|].
rewrite (@nth_error_nth' _ (rev (a :: l)) k a), (@nth_error_nth' _ (a :: l) _ a) by (rewrite ?rev_length; lia).
now rewrite rev_nth.
Qed.
Lemma pyget_element (l : list room) i r : pyget l i = Ok r -> element l i r.
Proof.
intros h. split; intros hi; [now apply pyget_ok|]. revert h. unfold pyget. destruct (Z.ltb_spec i 0); [|lia].
destruct ((0 <=? i + _) && _)%Z eqn:E; [|discriminate]. apply andb_true_iff in E. destruct E as (E1 & E2).
apply Z.leb_le in E1. rewrite nth_error_rev by lia.
replace (Z.to_nat (i + Z.of_nat (List.length l))) with (List.length l - S (Z.to_nat (- i) - 1)) by lia.
destruct (nth_error l _); [congruence|discriminate].
Qed.
Lemma element_pyget (l : list room) i r : element l i r -> pyget l i = Ok r.
Proof.
intros (h1 & h2). destruct (Z.ltb_spec i 0) as [hi|hi].
- specialize (h2 hi). assert (hl : Z.to_nat (- i) - 1 < List.length l) by (rewrite <- (rev_length l); apply nth_error_Some; congruence).
  rewrite nth_error_rev in h2 by lia. unfold pyget. destruct (Z.ltb_spec i 0); [|lia].
  replace ((0 <=? i + _) && _)%Z with true.
  + replace (Z.to_nat (i + Z.of_nat (List.length l))) with (List.length l - S (Z.to_nat (- i) - 1)) by lia. now rewrite h2.
  + symmetry. apply andb_true_iff. split; [apply Z.leb_le|apply Z.ltb_lt]; lia.
- rewrite <- (Z2Nat.id i) by lia. apply pyget_nth. auto.
Qed.

Section P.
Variable load : path -> option (sig Z * Z).

Lemma load_refsE fs mic fns xs : Forall2 (fun f x => load (relative f) = Some (x, fs)) fns xs ->
  Forall (fun x => mic < chans x) xs ->
  load_refs load fs mic fns = Ok (map (fun x => (len x, at_ x mic)) xs).
Proof.
induction 1 as [|f x fns xs h _ IH]; intros hf; [reflexivity|].
inversion hf as [|? ? h1 h2]; subst. simpl. unfold open_wav. rewrite h. cbn [bind].
rewrite Z.eqb_refl. cbn [negb]. apply Nat.ltb_lt in h1. rewrite h1. cbn [negb].
now rewrite IH.
Qed.
Lemma catE mic n xs : xs <> [] -> Forall (fun x => len x = n) xs ->
  exists y, cat (map (fun x : sig Z => (len x, at_ x mic)) xs) = Ok y /\ references mic 0 n xs y.
Proof.
intros h0 hf. unfold cat. destruct xs as [|x xs]; [congruence|]. cbn [map].
assert (hx : len x = n) by (inversion hf; auto). change ((len x, at_ x mic) :: map (fun x0 => (len x0, at_ x0 mic)) xs)
  with (map (fun x0 : sig Z => (len x0, at_ x0 mic)) (x :: xs)).
assert (hb : forallb (fun r : nat * (nat -> Z) => (fst r =? n)%nat)
  (map (fun x0 : sig Z => (len x0, at_ x0 mic)) (x :: xs)) = true).
{ apply forallb_forall. intros r hr. apply in_map_iff in hr. destruct hr as (z & <- & hz).
  apply Nat.eqb_eq. simpl. rewrite Forall_forall in hf. auto. }
rewrite hx, hb. eexists; split; [reflexivity|]. repeat split; cbn [chans len at_].
- now rewrite map_length.
- intros k y t hk ht. now rewrite nth_error_map, hk.
Qed.

(* the channel the references are taken from *)
Definition mic_of (d : dataset) (w : draw) (n : nat) : nat :=
  if shuffle_ref d then d_ref w n
  else nth (Z.to_nat (ref_mic d)) (if shuffle_channels d then d_perm w n else seq 0 n) 0.
Definition order (d : dataset) (w : draw) (n c : nat) : nat :=
  nth c (if shuffle_channels d then d_perm w n else seq 0 n) 0.

Lemma perm_of (d : dataset) (w : draw) n : fair w ->
  Permutation (if shuffle_channels d then d_perm w n else seq 0 n) (seq 0 n).
Proof. intros (h & _). destruct (shuffle_channels d); auto. Qed.
Lemma map_nth_seq (l : list nat) : map (fun c => nth c l 0) (seq 0 (List.length l)) = l.
Proof.
apply nth_ext with 0 0; [now rewrite map_length, seq_length|].
intros n h. rewrite map_length, seq_length in h.
rewrite nth_indep with (d' := (fun c => nth c l 0) 0); [|now rewrite map_length, seq_length].
rewrite (map_nth (fun c => nth c l 0)), seq_nth; auto.
Qed.
Lemma order_shuffles d w n : fair w -> shuffles (order d w n) n.
Proof.
intros h. pose proof (perm_of d n h) as hp. unfold shuffles, order.
assert (hl := Permutation_length hp). rewrite seq_length in hl.
rewrite <- hl at 1. now rewrite map_nth_seq.
Qed.

Lemma signalsE d w r m xs fs :
  fair w -> (0 <= ref_mic d < Z.of_nat (chans m))%Z ->
  recorded load (mix_file (noiseless d) r) (ref_files (ref_is_reverb d) r) m xs fs ->
  exists x y, signals load d w r = Ok (x, y, fs) /\ excerpt (order d w (chans m)) 0 (len m) m x /\
    references (mic_of d w (chans m)) 0 (len m) xs y /\ mic_of d w (chans m) < chans m.
Proof.
intros hw hm [h1 h2 h3 h4].
pose proof (perm_of d (chans m) hw) as hp.
assert (hl := Permutation_length hp). rewrite seq_length in hl.
assert (hmic : mic_of d w (chans m) < chans m).
{ unfold mic_of. destruct (shuffle_ref d); [apply hw; lia|].
  assert (hin : In (nth (Z.to_nat (ref_mic d)) (if shuffle_channels d then d_perm w (chans m) else seq 0 (chans m)) 0)
     (seq 0 (chans m))).
  { eapply Permutation_in; [exact hp|]. apply nth_In. lia. }
  apply in_seq in hin. lia. }
destruct (@catE (mic_of d w (chans m)) (len m) xs h3) as (y & hy & hr).
{ eapply Forall_impl; [|exact h4]. now intros ? []. }
exists (mksig (chans m) (len m) (fun c t => at_ m (order d w (chans m) c) t)), y.
split; [|split; [|split]]; auto; [|now repeat split].
unfold signals. fold (mix_file (noiseless d) r). fold (ref_files (ref_is_reverb d) r).
unfold open_wav at 1. rewrite h1. cbn [bind].
assert (E : (if shuffle_ref d then if (chans m =? 0)%nat then Err RuntimeError else Ok (d_ref w (chans m))
     else pyget (if shuffle_channels d then d_perm w (chans m) else seq 0 (chans m)) (ref_mic d))
   = Ok (mic_of d w (chans m))).
{ unfold mic_of. destruct (shuffle_ref d).
  - destruct (Nat.eqb_spec (chans m) 0); [lia|reflexivity].
  - rewrite <- (Z2Nat.id (ref_mic d)) at 1 by lia. apply pyget_nth.
    apply nth_error_nth'. lia. }
rewrite E. cbn [bind]. rewrite (@load_refsE fs _ _ xs h2).
- cbn [bind]. rewrite hy. reflexivity.
- eapply Forall_impl; [|exact h4]. intros x (hx & _). rewrite hx. exact hmic.
Qed.

(* crops *)
Lemma bound_in n i : (0 <= i <= Z.of_nat n)%Z -> bound n i = Z.to_nat i.
Proof. intros h. unfold bound. destruct (Z.ltb_spec i 0); [lia|]. f_equal. lia. Qed.
Lemma bound_le n i : bound n i <= n.
Proof. unfold bound. lia. Qed.
Lemma crop_excerpt p m x s e : excerpt p 0 (len m) m x ->
  excerpt p (bound (len m) s) (bound (len m) e - bound (len m) s) m (crop s e x).
Proof.
intros (h1 & h2 & h3). unfold crop. rewrite h2. repeat split; cbn [chans len at_]; auto.
intros c t hc ht. pose proof (bound_le (len m) e). rewrite h3; auto; lia.
Qed.
Lemma crop_references mic n ys x s e : references mic 0 n ys x ->
  references mic (bound n s) (bound n e - bound n s) ys (crop s e x).
Proof.
intros (h1 & h2 & h3). unfold crop. rewrite h2. repeat split; cbn [chans len at_]; auto.
intros k y t hk ht. pose proof (bound_le n e). rewrite (h3 k y); auto; lia.
Qed.

Lemma item_lemma ws d idx x y : Forall fair ws -> complete load d -> getitem load ws d idx = Ok (x, y) ->
  exists r m xs fs p s n mic, In r (metadata d) /\
    recorded load (mix_file (noiseless d) r) (ref_files (ref_is_reverb d) r) m xs fs /\
    shuffles p (chans m) /\ s + n <= len m /\ excerpt p s n m x /\ references mic s n xs y /\ mic < chans m /\
    (shuffle_channels d = false -> forall c, c < chans m -> p c = c) /\
    (shuffle_ref d = false -> mic = p (Z.to_nat (ref_mic d))) /\
    (max_len_s d = None -> element (metadata d) idx r /\ s = 0 /\ n = len m).
Proof.
intros hw hc. revert idx. induction hw as [|w ws hw1 hw IH]; intros idx; [discriminate|].
cbn [getitem]. destruct (pyget (metadata d) idx) as [r|] eqn:Er; [|discriminate]. cbn [bind].
pose proof (pyget_in _ _ Er) as hin. destruct (hc r hin) as (m & xs & fs & hrec & hm).
destruct (@signalsE d w r m xs fs hw1 hm hrec) as (x0 & y0 & E & hx & hy & hmic). rewrite E. cbn [bind].
assert (hid : shuffle_channels d = false -> forall c, c < chans m -> order d w (chans m) c = c).
{ intros h c hcc. unfold order. rewrite h. now rewrite seq_nth. }
assert (hmm : shuffle_ref d = false -> mic_of d w (chans m) = order d w (chans m) (Z.to_nat (ref_mic d))).
{ intros h. unfold mic_of, order. now rewrite h. }
destruct (max_len_s d) as [[num den]|] eqn:Em.
- destruct (compute_interval _ _ _ _) as [[s e]|]; [|discriminate]. cbn [bind].
  destruct (existsb _ _).
  + intros h. destruct (IH _ h) as (r' & m' & xs' & fs' & p & s' & n & mic & H).
    exists r', m', xs', fs', p, s', n, mic. intuition congruence.
  + intros [= <- <-].
    exists r, m, xs, fs, (order d w (chans m)), (bound (len m) s), (bound (len m) e - bound (len m) s), (mic_of d w (chans m)).
    split; [exact hin|]. split; [exact hrec|]. split; [now apply order_shuffles|].
    split. { pose proof (bound_le (len m) e). pose proof (bound_le (len m) s). 
             destruct (Nat.le_gt_cases (bound (len m) s) (bound (len m) e)); lia. }
    split; [now apply crop_excerpt|]. split; [now apply crop_references|].
    split; [exact hmic|]. split; [exact hid|]. split; [exact hmm|]. discriminate.
- intros [= <- <-].
  exists r, m, xs, fs, (order d w (chans m)), 0, (len m), (mic_of d w (chans m)).
  split; [exact hin|]. split; [exact hrec|]. split; [now apply order_shuffles|]. split; [lia|].
  split; [exact hx|]. split; [exact hy|]. split; [exact hmic|]. split; [exact hid|]. split; [exact hmm|].
  intros _. split; [now apply pyget_element|auto].
Qed.

Lemma sum_nth (xs : list (sig Z)) (f : nat -> Z) (g : sig Z -> Z) :
  (forall k x, nth_error xs k = Some x -> f k = g x) ->
  sum (map f (seq 0 (List.length xs))) = sum (map g xs).
Proof.
intros h. f_equal. revert f h. induction xs as [|x xs IH]; intros f h; [reflexivity|].
cbn [List.length seq map]. f_equal; [apply (h 0); reflexivity|].
rewrite <- seq_shift, map_map. apply IH. intros k z hk. now apply (h (S k)).
Qed.

Lemma shuffle_lt p n c : shuffles p n -> c < n -> p c < n.
Proof.
intros h hc. assert (hin : In (p c) (seq 0 n)).
{ eapply Permutation_in; [exact h|]. apply in_map. apply in_seq. lia. }
apply in_seq in hin. lia.
Qed.

(* the reference channel of the returned mixture is the sum of the returned references *)
Lemma aligned_lemma ws d idx x y : Forall fair ws -> shuffle_ref d = false ->
  complete load d ->
  (forall r m xs fs, In r (metadata d) ->
     recorded load (mix_file (noiseless d) r) (ref_files (ref_is_reverb d) r) m xs fs -> adds_up m xs) ->
  getitem load ws d idx = Ok (x, y) ->
  len y = len x /\ forall t, t < len x ->
    at_ x (Z.to_nat (ref_mic d)) t = sum (map (fun k => at_ y k t) (seq 0 (chans y))).
Proof.
intros hw hs hc ha hg.
destruct (@item_lemma ws d idx x y hw hc hg) as (r & m & xs & fs & p & s & n & mic & hin & hrec & hp & hsn & hx & hy & hmic & _ & hmp & _).
destruct hx as (hx1 & hx2 & hx3). destruct hy as (hy1 & hy2 & hy3).
split; [congruence|]. intros t ht. rewrite hx2 in ht.
destruct (hc r hin) as (m' & xs' & fs' & hrec' & hm').
assert (m' = m) as -> by (pose proof (rec_mix hrec); pose proof (rec_mix hrec'); congruence).
rewrite hx3; [|lia|exact ht]. specialize (hmp hs).
rewrite (ha r m xs fs hin hrec); [|rewrite <- hmp; exact hmic|lia].
rewrite hy1. symmetry. apply sum_nth. intros k z hk. rewrite (hy3 k z t hk ht). now rewrite hmp.
Qed.

(* lengths of the crop *)
Lemma length_lemma ws d idx x y num den :
  Forall fair ws -> complete load d -> max_len_s d = Some (num, den) -> (0 <= num)%Z ->
  (forall r, In r (metadata d) -> offset r <> [] /\ List.length (n_samples_original r) = List.length (offset r)) ->
  (forall f w fs, load f = Some (w, fs) -> (0 <= fs)%Z) ->
  getitem load ws d idx = Ok (x, y) ->
  exists r m fs, In r (metadata d) /\ load (relative (mix_file (noiseless d) r)) = Some (m, fs) /\
    Z.of_nat (len x) = Z.min (fs * num / Zpos den) (Z.of_nat (len m)) /\ len y = len x.
Proof.
intros hw hc hmax hnum ho hfs. revert idx. induction hw as [|w ws hw1 hw IH]; intros idx; [discriminate|].
cbn [getitem]. destruct (pyget (metadata d) idx) as [r|] eqn:Er; [|discriminate]. cbn [bind].
pose proof (pyget_in _ _ Er) as hin. destruct (hc r hin) as (m & xs & fs & hrec & hm).
destruct (@signalsE d w r m xs fs hw1 hm hrec) as (x0 & y0 & E & hx & hy & hmic). rewrite E. cbn [bind].
rewrite hmax. pose proof (hfs _ _ _ (rec_mix hrec)) as hf0.
rewrite (Z.quot_div_nonneg (fs * num) (Zpos den)) by (try apply Z.mul_nonneg_nonneg; lia).
destruct (ho r hin) as (ho1 & ho2).
destruct hx as (hx1 & hx2 & hx3). rewrite hx2.
destruct (@interval_ok (fs * num / Zpos den) (Z.of_nat (len m)) (n_samples_original r) (offset r))
  as (s & e & hi & hs & he & hse); auto; [apply Z.div_pos; [apply Z.mul_nonneg_nonneg; lia|lia]|lia|].
rewrite hi. cbn [bind]. destruct (existsb _ _); [apply IH|].
intros [= <- <-]. exists r, m, fs. split; [exact hin|]. split; [apply (rec_mix hrec)|].
unfold crop; cbn [len]. destruct hy as (_ & hy2 & _). rewrite hx2, hy2, !bound_in by lia. split; [lia|reflexivity].
Qed.

Lemma sum_upto_zero n f : silent n f -> sum_upto n f = 0%Z.
Proof.
unfold sum_upto. intros h. assert (h' : forall t, In t (seq 0 n) -> f t = 0%Z) by (intros t ht; apply in_seq in ht; apply h; lia).
revert h'. generalize (seq 0 n) as l. induction l as [|t l IH]; intros hl; [reflexivity|].
simpl. rewrite (hl t) by now left. rewrite IH; [reflexivity|]. intros u hu. apply hl. now right.
Qed.
Lemma not_silent_lemma ws d idx x y : max_len_s d <> None -> getitem load ws d idx = Ok (x, y) ->
  0 < len y -> forall k, k < chans y -> ~ silent (len y) (at_ y k).
Proof.
intros hm. revert idx. induction ws as [|w ws IH]; intros idx; [discriminate|].
cbn [getitem]. destruct (pyget (metadata d) idx) as [r|]; [|discriminate]. cbn [bind].
destruct (signals load d w r) as [[[x0 y0] fs]|]; [|discriminate]. cbn [bind].
destruct (max_len_s d) as [[num den]|]; [|congruence].
destruct (compute_interval _ _ _ _) as [[s e]|]; [|discriminate]. cbn [bind].
destruct (existsb _ _) eqn:E; [apply IH|]. intros [= <- <-] hl k hk hs.
assert (ht : existsb (mean_zero (crop s e y0)) (seq 0 (chans y0)) = true); [|congruence].
apply existsb_exists. exists k. split; [apply in_seq; cbn [chans crop] in hk; lia|].
unfold mean_zero. rewrite (sum_upto_zero hs). destruct (Nat.eqb_spec (len (crop s e y0)) 0); [lia|reflexivity].
Qed.
(* without max_len_s the requested item is returned *)
Lemma whole_lemma w ws d i r : fair w -> complete load d -> max_len_s d = None -> element (metadata d) i r ->
  exists x y, getitem load (w :: ws) d i = Ok (x, y).
Proof.
intros hw hc hm hi. apply element_pyget in hi. cbn [getitem]. rewrite hi. cbn [bind].
destruct (hc r (pyget_in _ _ hi)) as (m & xs & fs & hrec & hmm).
destruct (@signalsE d w r m xs fs hw hmm hrec) as (x & y & E & _). rewrite E. cbn [bind]. rewrite hm. eauto.
Qed.
(* an item is returned only if all its files have one sampling rate and equal lengths *)
Lemma load_refs_inv fs mic fns l : load_refs load fs mic fns = Ok l ->
  Forall2 (fun f x => exists z, load (relative f) = Some (z, fs) /\ mic < chans z /\ fst x = len z) fns l.
Proof.
revert l. induction fns as [|f fns IH]; intros l; cbn [load_refs]; [intros [= <-]; constructor|].
unfold open_wav. destruct (load (relative f)) as [[z fs']|] eqn:E; [|discriminate]. cbn [bind].
destruct (Z.eqb_spec fs fs') as [<-|]; [|discriminate]. cbn [negb].
destruct (Nat.ltb_spec mic (chans z)); [|discriminate]. cbn [negb].
destruct (load_refs load fs mic fns) as [r|]; [|discriminate]. cbn [bind]. intros [= <-].
constructor; [exists z; auto|auto].
Qed.
Lemma cat_inv l y : cat l = Ok y -> l <> [] /\ Forall (fun x => fst x = len y) l.
Proof.
unfold cat. destruct l as [|[n g] l]; [discriminate|].
destruct (forallb _ _) eqn:E; [|discriminate]. intros [= <-]. split; [discriminate|]. cbn [len].
apply Forall_forall. intros x hx. rewrite forallb_forall in E. now apply Nat.eqb_eq, E.
Qed.
Lemma rates_lemma ws d idx x y : getitem load ws d idx = Ok (x, y) ->
  exists r m fs n, In r (metadata d) /\ load (relative (mix_file (noiseless d) r)) = Some (m, fs) /\
    ref_files (ref_is_reverb d) r <> [] /\
    Forall (fun f => exists z, load (relative f) = Some (z, fs) /\ len z = n) (ref_files (ref_is_reverb d) r).
Proof.
revert idx. induction ws as [|w ws IH]; intros idx; [discriminate|].
cbn [getitem]. destruct (pyget (metadata d) idx) as [r|] eqn:Er; [|discriminate]. cbn [bind].
destruct (signals load d w r) as [[[x0 y0] fs]|] eqn:E; [|discriminate]. cbn [bind].
assert (h : exists m n, load (relative (mix_file (noiseless d) r)) = Some (m, fs) /\
    ref_files (ref_is_reverb d) r <> [] /\
    Forall (fun f => exists z, load (relative f) = Some (z, fs) /\ len z = n) (ref_files (ref_is_reverb d) r)).
{ clear IH. unfold signals in E. fold (mix_file (noiseless d) r) in E. fold (ref_files (ref_is_reverb d) r) in E.
  unfold open_wav in E at 1. destruct (load (relative (mix_file (noiseless d) r))) as [[m fs0]|]; [|discriminate].
  cbn [bind] in E. destruct (if shuffle_ref d then _ else _) as [mic|]; [|discriminate]. cbn [bind] in E.
  destruct (load_refs load fs0 mic _) as [l|] eqn:El; [|discriminate]. cbn [bind] in E.
  destruct (cat l) as [y1|] eqn:Ec; [|discriminate]. cbn [bind] in E. injection E as _ _ <-.
  apply load_refs_inv in El. apply cat_inv in Ec. destruct Ec as (hn & hf).
  exists m, (len y1). split; [reflexivity|]. split.
  - intros h0. rewrite h0 in El. inversion El. congruence.
  - revert El hf. generalize (ref_files (ref_is_reverb d) r). clear. intros fns h. 
    induction h as [|f a fns l (z & h1 & _ & h2) _ IH]; intros hf; constructor; inversion hf; subst.
    + exists z. split; [exact h1|congruence].
    + auto. }
destruct h as (m & n & h).
destruct (max_len_s d) as [[num den]|].
- destruct (compute_interval _ _ _ _) as [[s e]|]; [|discriminate]. cbn [bind].
  destruct (existsb _ _); [apply IH|]. intros _. exists r, m, fs, n. split; [now apply pyget_in in Er|exact h].
- intros _. exists r, m, fs, n. split; [now apply pyget_in in Er|exact h].
Qed.
End P.
