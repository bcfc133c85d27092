(* Proofs of C78: the parameters of the data module, and the refutations. *)
From Coq Require Import List ZArith Permutation String Bool Lia DecimalString DecimalZ.
From Verif Require Import Py DataModel ItemModel ItemSpec.
Import ListNotations.
Set Implicit Arguments.

Lemma to_int_str z : to_int (KStr (str z)) = Ok z.
Proof.
unfold to_int, str. rewrite NilZero.isi.
- now rewrite DecimalZ.of_to.
- intros h. assert (E := DecimalZ.of_to z). rewrite h in E. simpl in E. subst z. discriminate h.
- intros h. assert (E := DecimalZ.of_to z). rewrite h in E. simpl in E. subst z. discriminate h.
Qed.
Lemma names_int k m : names k m -> to_int k = Ok m.
Proof. intros [->| ->]; [reflexivity|apply to_int_str]. Qed.

Definition norm (n : option Z) : option Z := match n with Some (-1)%Z => None | _ => n end.
Lemma dset_new V (acc : list (Z * V)) m v : ~ In m (map fst acc) -> dset Z.eqb acc m v = acc ++ [(m, v)].
Proof.
induction acc as [|[k u] acc IH]; intros h; [reflexivity|]. cbn [dset]. cbn [map fst In] in h.
destruct (Z.eqb_spec k m); [intuition congruence|]. rewrite IH; [reflexivity|]. tauto.
Qed.
Lemma convert_distinct ks l acc : Forall2 (fun k p => names (fst k) (fst p) /\ snd k = snd p) ks l ->
  NoDup (map fst acc ++ map fst l) ->
  convert acc ks = Ok (acc ++ map (fun p => (fst p, norm (snd p))) l).
Proof.
intros h. revert acc. induction h as [|[k n'] [m n] ks l [h1 h2] _ IH]; intros acc hd.
- now rewrite app_nil_r.
- cbn [convert]. cbn [fst snd] in h1, h2. subst n'. rewrite (names_int h1). cbn [bind].
  cbn [map fst] in hd. fold (norm n). rewrite dset_new.
  + rewrite IH; [now rewrite <- app_assoc|]. rewrite map_app, <- app_assoc. exact hd.
  + apply NoDup_remove_2 in hd. intros hin. apply hd. apply in_or_app. now left.
Qed.
Lemma sizes_ok g l : (forall m n, In (m, n) l -> exists b, dget String.eqb g (str m) = Ok b) ->
  exists r, sizes g l = Ok r /\ Forall2 (fun p x => fst x = fst p /\ dget String.eqb g (str (fst p)) = Ok (snd x)) l r.
Proof.
induction l as [|[m n] l IH]; intros h; [exists []; split; [reflexivity|constructor]|].
destruct (h m n) as (b & hb); [now left|]. destruct IH as (r & hr & hf); [intros; eapply h; right; eauto|].
exists ((m, b) :: r). cbn [sizes]. rewrite hb. cbn [bind]. rewrite hr. cbn [bind]. split; [reflexivity|].
constructor; auto.
Qed.
Lemma sizes_missing g l m n : In (m, n) l -> ~ In (str m) (map fst g) -> sizes g l = Err KeyError.
Proof.
assert (hn : forall k, ~ In k (map fst g) -> dget String.eqb g k = Err KeyError).
{ intros k. induction g as [|[k' v] g IH]; [reflexivity|]. cbn [map fst In dget]. intros hk.
  destruct (String.eqb_spec k' k); [intuition congruence|]. apply IH. tauto. }
assert (he : forall k e, dget String.eqb g k = Err e -> e = KeyError).
{ intros k e. clear hn. induction g as [|[k' v] g IH]; cbn [dget]; [congruence|].
  destruct (String.eqb k' k); [discriminate|auto]. }
intros hin hm. induction l as [|[m' n'] l IH]; [destruct hin|]. cbn [sizes].
destruct (dget String.eqb g (str m')) as [b|e] eqn:E; cbn [bind].
- destruct hin as [[= -> ->]|hin]; [now rewrite hn in E|]. now rewrite IH.
- now rewrite (he _ _ E).
Qed.
Lemma dget_in (g : list (string * Z)) k b : NoDup (map fst g) -> In (k, b) g -> dget String.eqb g k = Ok b.
Proof.
induction g as [|[k' v] g IH]; intros hd hin; [destruct hin|]. cbn [map fst] in hd. inversion hd; subst.
cbn [dget]. destruct hin as [[= -> ->]|hin]; [now rewrite String.eqb_refl|].
destruct (String.eqb_spec k' k); [|auto]. subst. exfalso. apply H1. apply in_map_iff. exists (k, b). auto.
Qed.

Lemma selectedE n rooms :
  selected n rooms (match norm n with None => rooms | Some k => upto rooms k end).
Proof.
destruct n as [k|]; [|reflexivity]. unfold selected.
destruct (Z.eq_dec k (-1)) as [->|hk]; [simpl; repeat split; try lia|].
assert (norm (Some k) = Some k) as ->.
{ destruct k as [|p|[p|p|]]; try reflexivity. now elim hk. }
split; [lia|]. unfold upto, bound. split; intros h.
- destruct (Z.ltb_spec k 0); [lia|].
  destruct (Z.le_gt_cases k (Z.of_nat (List.length rooms))).
  + f_equal. lia.
  + rewrite !firstn_all2; auto; lia.
- destruct (Z.ltb_spec k 0); [|lia]. f_equal. lia.
Qed.

Lemma module_lemma q ks l train valid :
  p_train_n_channels q = CDict ks ->
  Forall2 (fun k p => names (fst k) (fst p) /\ snd k = snd p) ks l -> NoDup (map fst l) ->
  (forall g, p_train_n_batch_sizes q = Some g -> NoDup (map fst g) /\ forall m n, In (m, n) l -> In (str m) (map fst g)) ->
  exists sets v, data_module q train valid = Ok (sets, v) /\
    Forall2 (fun p x => fst (fst x) = fst p /\
        match p_train_n_batch_sizes q with
        | None => snd (fst x) = p_batch_size q
        | Some g => In (str (fst p), snd (fst x)) g
        end /\ selected (snd p) train (metadata (snd x))) l sets /\ metadata v = valid.
Proof.
intros hc hk hd hg. unfold data_module, train_channels. rewrite hc. cbn [as_dict].
rewrite (@convert_distinct ks l []); auto. cbn [bind app].
set (l' := map _ l).
assert (hb : exists r, train_sizes (p_batch_size q) (p_train_n_batch_sizes q) l' = Ok r /\
  Forall2 (fun p x => fst x = fst p /\ match p_train_n_batch_sizes q with
     | None => snd x = p_batch_size q | Some g => In (str (fst p), snd x) g end) l r).
{ unfold train_sizes. destruct (p_train_n_batch_sizes q) as [g|].
  - destruct (hg g eq_refl) as (hg1 & hg2). destruct (@sizes_ok g l') as (r & hr & hf).
    + intros m n hin. apply in_map_iff in hin. destruct hin as ([m' n'] & [= <- _] & hin). cbn [fst].
      specialize (hg2 _ _ hin). apply in_map_iff in hg2. destruct hg2 as ([k b] & E & hin'). simpl in E; subst k.
      exists b. now apply dget_in.
    + exists r. split; [exact hr|]. unfold l' in hf.
      assert (hsub : forall k b, dget String.eqb g k = Ok b -> In (k, b) g).
      { intros k b. clear. induction g as [|[k' v] g IH]; [discriminate|]. cbn [dget].
        destruct (String.eqb_spec k' k); [intros [= ->]; subst; now left|right; auto]. }
      clear -hf hsub. revert r hf. induction l as [|p l IH]; intros r hf; inversion hf; subst; constructor.
      * destruct H1 as (h1 & h2). split; [exact h1|]. cbn [fst] in h2. now apply hsub.
      * now apply IH.
  - eexists; split; [reflexivity|]. unfold l'. rewrite map_map. clear. induction l; constructor; auto. }
destruct hb as (r & hr & hf). rewrite hr. cbn [bind]. do 2 eexists. split; [reflexivity|].
split; [|reflexivity]. unfold l'. clear -hf. revert r hf. induction l as [|p l IH]; intros r hf; inversion hf; subst; cbn [map combine]; constructor.
- destruct H1 as (h1 & h2). cbn [fst snd]. split; [reflexivity|]. split; [exact h2|]. apply selectedE.
- now apply IH.
Qed.
Lemma module_missing q ks l train valid g m n :
  p_train_n_channels q = CDict ks ->
  Forall2 (fun k p => names (fst k) (fst p) /\ snd k = snd p) ks l -> NoDup (map fst l) ->
  p_train_n_batch_sizes q = Some g -> In (m, n) l -> ~ In (str m) (map fst g) ->
  data_module q train valid = Err KeyError.
Proof.
intros hc hk hd hg hin hm. unfold data_module, train_channels. rewrite hc. cbn [as_dict].
rewrite (@convert_distinct ks l []); auto. cbn [bind app]. unfold train_sizes. rewrite hg.
rewrite (@sizes_missing g _ m (norm n)); auto. apply in_map_iff. now exists (m, n).
Qed.
(* the training sets for two numbers of channels differ in their sizes at most *)
Lemma same_data q train valid sets v m1 b1 d1 m2 b2 d2 :
  data_module q train valid = Ok (sets, v) -> In (m1, b1, d1) sets -> In (m2, b2, d2) sets ->
  n_items d1 = n_items d2 -> d1 = d2.
Proof.
unfold data_module. destruct (train_channels _) as [l|]; [|discriminate]. cbn [bind].
destruct (train_sizes _ _ _) as [b|]; [|discriminate]. cbn [bind]. intros [= <- _] h1 h2.
apply in_map_iff in h1. apply in_map_iff in h2.
destruct h1 as (x1 & [= _ _ <-] & _). destruct h2 as (x2 & [= _ _ <-] & _).
unfold n_items, dataset_init. cbn [metadata].
assert (h : forall o, exists k, k <= List.length train /\ match o with None => train | Some n => upto train n end = firstn k train).
{ intros [n|]; [exists (bound (List.length train) n); split; [unfold bound; lia|reflexivity]|].
  exists (List.length train). split; [lia|]. now rewrite firstn_all. }
destruct (h (snd (fst x1))) as (k1 & l1 & ->). destruct (h (snd (fst x2))) as (k2 & l2 & ->).
rewrite !firstn_length, !Nat.min_l by lia. now intros ->.
Qed.

(* ---------------------------------------------------------------- refutations *)
Local Open Scope string_scope.
Definition tab (rows : list (list Z)) (n : nat) : sig Z :=
  mksig (List.length rows) n (fun c t => nth t (nth c rows []) 0%Z).
(* two channels; sources 1, 2 reverberant (a, b), anechoic (c, d), and a zero-mean one (z) *)
Definition files (p : path) : option (sig Z * Z) :=
  match p with
  | ["m"] => Some (tab [[3; 5; 7]; [30; 50; 70]]%Z 3, 1%Z)
  | ["a"] => Some (tab [[1; 2; 3]; [10; 20; 30]]%Z 3, 1%Z)
  | ["b"] => Some (tab [[2; 3; 4]; [20; 30; 40]]%Z 3, 1%Z)
  | ["c"] => Some (tab [[1; 1; 1]; [1; 1; 1]]%Z 3, 1%Z)
  | ["z"] => Some (tab [[9; -9; 0]; [90; -90; 0]]%Z 3, 1%Z)
  | ["n"] => Some (tab [[0; 0; 0]; [0; 0; 0]]%Z 3, 1%Z)
  | _ => None
  end.
Definition path_eq (p q : path) : bool := if list_eq_dec string_dec p q then true else false.
Definition good : room := mkroom ["m"] ["m"] [["a"]; ["b"]] [["c"]; ["c"]] [3; 3]%Z [0; 0]%Z.
Definition swing : room := mkroom ["z"] ["z"] [["z"]] [["z"]] [2]%Z [0]%Z.
Definition mute : room := mkroom ["n"] ["n"] [["n"]] [["n"]] [3]%Z [0]%Z.
(* random numbers: the channels reversed, channel 1, item 0 or the last one *)
Definition wa : draw := mkdraw (fun n => rev (seq 0 n)) (fun n => n - 1) (fun n => 0%Z).
Definition wb : draw := mkdraw (fun n => seq 0 n) (fun n => n - 1) (fun n => (Z.of_nat n - 1)%Z).
Lemma fair_wa : fair wa.
Proof. repeat split; simpl; intros; try lia. apply Permutation_sym, Permutation_rev. Qed.
Lemma fair_wb : fair wb.
Proof. repeat split; simpl; intros; lia || auto. Qed.
Lemma good_files : recorded files (mix_file false good) (ref_files true good)
  (tab [[3; 5; 7]; [30; 50; 70]]%Z 3) [tab [[1; 2; 3]; [10; 20; 30]]%Z 3; tab [[2; 3; 4]; [20; 30; 40]]%Z 3] 1%Z.
Proof. split; try reflexivity; repeat constructor; discriminate. Qed.
Lemma good_sum : adds_up (tab [[3; 5; 7]; [30; 50; 70]]%Z 3)
  [tab [[1; 2; 3]; [10; 20; 30]]%Z 3; tab [[2; 3; 4]; [20; 30; 40]]%Z 3].
Proof.
intros [|[|c]] [|[|[|t]]] hc ht; try reflexivity; simpl in hc, ht; lia.
Qed.
(* not silent but rejected: another item is returned, or none at all *)
Lemma swing_lemma :
  (forall c, c < 2 -> ~ silent 2 (at_ (tab [[9; -9; 0]; [90; -90; 0]]%Z 3) c)) /\
  recorded files (mix_file false swing) (ref_files true swing) (tab [[9; -9; 0]; [90; -90; 0]]%Z 3)
    [tab [[9; -9; 0]; [90; -90; 0]]%Z 3] 1%Z /\
  (forall ws, Forall fair ws -> getitem files ws (mkds (Some (2, 1%positive))%Z 0%Z true false true false [swing]) 0
     = Err RuntimeError) /\
  exists x y, getitem files [wb; wb] (mkds (Some (2, 1%positive))%Z 0%Z true false true false [swing; good]) 0 = Ok (x, y) /\
    chans y = 2.
Proof.
split; [|split; [|split]].
- intros [|[|c]] hc h; [specialize (h 0)|specialize (h 0)|lia]; cbv in h; assert (H : 0 < 2) by lia; specialize (h H); discriminate.
- split; try reflexivity; repeat constructor; discriminate.
- intros ws hw. induction hw as [|w ws hw1 _ IH]; [reflexivity|].
  cbn [getitem]. cbn [metadata]. replace (pyget [swing] 0) with (Ok swing) by reflexivity. cbn [bind].
  unfold signals. cbn [noiseless ref_is_reverb shuffle_channels shuffle_ref ref_mic].
  unfold open_wav at 1. replace (files _) with (Some (tab [[9; -9; 0]; [90; -90; 0]]%Z 3, 1%Z)) by reflexivity.
  cbn [bind]. change (chans (tab [[9; -9; 0]; [90; -90; 0]]%Z 3)) with 2.
  destruct hw1 as (hp & _ & hi). specialize (hp 2). specialize (hi 1 (le_n 1)).
  assert (h : d_perm w 2 = [0; 1] \/ d_perm w 2 = [1; 0]) by (apply Permutation_sym, Permutation_length_2_inv in hp; exact hp).
  assert (E : d_idx w 1 = 0%Z) by lia.
  destruct h as [h|h]; rewrite h; cbn -[getitem]; rewrite E; exact IH.
- do 2 eexists. split; [reflexivity|reflexivity].
Qed.
Lemma mute_lemma : exists x y, getitem files [wa] (mkds None 0%Z true false true false [mute]) 0 = Ok (x, y) /\
  0 < chans y /\ 0 < len y /\ forall k, silent (len y) (at_ y k).
Proof.
do 2 eexists. split; [reflexivity|]. split; [cbv; lia|]. split; [cbv; lia|].
intros [|[|k]] [|[|[|t]]] ht; try reflexivity; simpl in ht; lia.
Qed.

Definition par (c : channels) (v : option Z) (r : option bool) : params :=
  mkparams 5 (Some (2, 1%positive)%Z) true false c None v false r.
Lemma default_lemma : exists sets v x y x' y',
  data_module (par (COne (KInt 2)) None None) [good] [good] = Ok (sets, v) /\
  getitem files [wa] v 0 = Ok (x, y) /\
  getitem files [wa] (dataset_init None 0 false false true false None [good]) 0 = Ok (x', y') /\
  at_ y 0 1 = 1%Z /\ at_ y' 0 1 = 2%Z.
Proof. do 6 eexists. repeat split. Qed.

Lemma complete_good l a b : complete files (mkds l 0%Z a b true false [good; good]).
Proof.
intros r [<-|[<-|[]]]; do 3 eexists; (split; [exact good_files|]); cbn [ref_mic]; simpl; lia.
Qed.
Lemma good_unique l a b r m xs fs : In r (metadata (mkds l 0%Z a b true false [good; good])) ->
  recorded files (mix_file false r) (ref_files true r) m xs fs -> adds_up m xs.
Proof.
intros hin [h1 h2 _ _]. assert (r = good) as -> by (destruct hin as [<-|[<-|[]]]; reflexivity).
injection h1 as <- <-. inversion h2 as [|? x1 ? xs1 e1 h3]; subst. inversion h3 as [|? x2 ? xs2 e2 h4]; subst.
inversion h4; subst. injection e1 as <-. injection e2 as <-. exact good_sum.
Qed.
Lemma shuffle_ref_full : exists load w d m xs x y,
  fair w /\ complete load d /\ shuffle_ref d = true /\
  (forall r, In r (metadata d) ->
     recorded load (mix_file (noiseless d) r) (ref_files (ref_is_reverb d) r) m xs 1%Z) /\ adds_up m xs /\
  getitem load [w] d 0 = Ok (x, y) /\
  at_ x (Z.to_nat (ref_mic d)) 0 <> sum (map (fun k => at_ y k 0) (seq 0 (chans y))).
Proof.
exists files, wb, (mkds None 0%Z true true true false [good; good]). do 4 eexists.
split; [exact fair_wb|]. split; [apply complete_good|]. split; [reflexivity|].
split; [|split; [exact good_sum|split; [reflexivity|]]].
- intros r [<-|[<-|[]]]; exact good_files.
- cbv. discriminate.
Qed.
Lemma mute_full : exists load w d x y, fair w /\ max_len_s d = None /\ getitem load [w] d 0 = Ok (x, y) /\
  0 < chans y /\ 0 < len y /\ forall k, silent (len y) (at_ y k).
Proof.
destruct mute_lemma as (x & y & h). exists files, wa, (mkds None 0%Z true false true false [mute]), x, y.
split; [exact fair_wa|]. split; [reflexivity|]. exact h.
Qed.
Lemma swing_full : exists load r m fs ds,
  recorded load (mix_file false r) (ref_files true r) m [m] fs /\
  (forall c, c < chans m -> ~ silent 2 (at_ m c)) /\
  (forall rooms, max_len_s (ds rooms) = Some (2, 1%positive)%Z /\ metadata (ds rooms) = rooms /\ noiseless (ds rooms) = false /\
     ref_is_reverb (ds rooms) = true) /\
  (forall ws, Forall fair ws -> getitem load ws (ds [r]) 0 = Err RuntimeError) /\
  exists w r' x y, fair w /\ getitem load [w; w] (ds [r; r']) 0 = Ok (x, y) /\ chans y = 2.
Proof.
destruct swing_lemma as (h1 & h2 & h3 & x & y & h4 & h5).
exists files, swing, (tab [[9; -9; 0]; [90; -90; 0]]%Z 3), 1%Z,
  (fun rooms => mkds (Some (2, 1%positive))%Z 0%Z true false true false rooms).
split; [exact h2|]. split; [exact h1|]. split; [now repeat split|]. split; [exact h3|].
exists wb, good, x, y. split; [exact fair_wb|]. split; assumption.
Qed.
Lemma channels_full : exists load w q train valid b d v x y, fair w /\ complete load d /\
  p_train_n_channels q = CList [KInt 1] /\ p_valid_n_channels q = Some 1%Z /\
  data_module q train valid = Ok ([(1%Z, b, d)], v) /\
  getitem load [w] d 0 = Ok (x, y) /\ chans x = 2 /\
  exists x' y', getitem load [w] v 0 = Ok (x', y') /\ chans x' = 2.
Proof.
exists files, wa, (par (CList [KInt 1]) (Some 1%Z) (Some true)), [good; good], [good].
do 5 eexists. split; [exact fair_wa|]. split; [eapply complete_good|]. split; [reflexivity|]. split; [reflexivity|].
split; [reflexivity|]. split; [reflexivity|]. split; [reflexivity|]. do 2 eexists. split; reflexivity.
Qed.
Lemma default_full : exists load w q rooms sets v x y x' y', fair w /\ p_ref_is_reverb q = None /\
  data_module q rooms rooms = Ok (sets, v) /\ getitem load [w] v 0 = Ok (x, y) /\
  getitem load [w] (dataset_init None 0 false false true false None rooms) 0 = Ok (x', y') /\
  at_ y 0 1 <> at_ y' 0 1.
Proof.
destruct default_lemma as (sets & v & x & y & x' & y' & h1 & h2 & h3 & h4 & h5).
exists files, wa, (par (COne (KInt 2)) None None), [good], sets, v, x, y, x', y'.
split; [exact fair_wa|]. split; [reflexivity|]. repeat (split; [assumption|]). rewrite h4, h5. discriminate.
Qed.
Lemma lengths_lemma : exists load w d x y, fair w /\ max_len_s d = None /\
  getitem load [w] d 0 = Ok (x, y) /\ len x = 3 /\ len y = 2.
Proof.
exists (fun p => if path_eq p ["m"] then Some (tab [[3; 5; 7]]%Z 3, 1%Z) else Some (tab [[3; 5]]%Z 2, 1%Z)), wa,
  (mkds None 0%Z true false true false [good]).
do 2 eexists. split; [exact fair_wa|]. split; [reflexivity|]. split; [reflexivity|]. split; reflexivity.
Qed.
