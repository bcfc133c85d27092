From Coq Require Import List ZArith Bool Lia Permutation.
From Verif Require Import Py ParamProofs DataModel DataSpec.
Import ListNotations.

(* ---- loaders *)
Section Loaders.
Variable B : Type.
Implicit Types ls xs ys : list (list B).
Definition heads ls := round ls 0.
Definition tails ls := map (@tl B) ls.
Definition bounded n ls := forall l, In l ls -> length l <= n.
Lemma heads_app xs ys : heads (xs ++ ys) = heads xs ++ heads ys.
Proof. apply flat_map_app. Qed.
Lemma tails_app xs ys : tails (xs ++ ys) = tails xs ++ tails ys.
Proof. apply map_app. Qed.
Lemma round_S ls r : round ls (S r) = round (tails ls) r.
Proof.
  unfold round, tails; rewrite flat_map_concat_map, (flat_map_concat_map _ (map _ _)), map_map; f_equal.
  apply map_ext; intros [|x l]; simpl; auto. now destruct r.
Qed.
Lemma rr_S n ls : round_robin (S n) ls = heads ls ++ round_robin n (tails ls).
Proof.
  unfold round_robin; simpl; f_equal. rewrite <- seq_shift, flat_map_concat_map, map_map, (flat_map_concat_map _ (seq 0 n)).
  f_equal; apply map_ext; intros r; apply round_S.
Qed.
Lemma bounded_tails n ls : bounded (S n) ls -> bounded n (tails ls).
Proof. intros H l I; apply in_map_iff in I; destruct I as ([|x l'] & <- & I); simpl; [lia|]. apply H in I; simpl in I; lia. Qed.
Lemma bounded_app n xs ys : bounded n (xs ++ ys) <-> bounded n xs /\ bounded n ys.
Proof.
  split; [intros H; split; intros l I; apply H; apply in_or_app; auto|].
  intros [H H'] l I; apply in_app_or in I; destruct I; auto.
Qed.
Lemma heads_nil ls : (forall l, In l ls -> l = []) -> heads ls = [].
Proof. induction ls as [|l ls IH]; simpl; auto; intros H. rewrite (H l) by auto. simpl; apply IH; intros; apply H; auto. Qed.
Lemma rr_rotate n : forall xs ys, bounded n (xs ++ ys) -> round_robin n (xs ++ ys) = heads xs ++ round_robin n (ys ++ tails xs).
Proof.
  induction n as [|n IH]; intros xs ys H.
  - rewrite heads_nil; auto. intros l I. specialize (H l (in_or_app _ _ _ (or_introl I))). destruct l; simpl in *; auto; lia.
  - rewrite !rr_S, heads_app, !tails_app. apply bounded_tails in H; rewrite tails_app in H.
    rewrite IH by auto. now rewrite heads_app, !app_assoc.
Qed.
Lemma rr_empty n ls : (forall l, In l ls -> l = []) -> round_robin n ls = [].
Proof.
  revert ls; induction n as [|n IH]; intros ls H; auto. rewrite rr_S, heads_nil, IH; auto.
  intros l I; apply in_map_iff in I; destruct I as (l' & <- & I); now rewrite (H l' I).
Qed.
Lemma scan_spec (rest : list (list B)) : forall tried : list (list B), (forall l, In l tried -> l = []) ->
  match scan tried rest with
  | None => forall l, In l rest -> l = []
  | Some (b, it) => exists l1 dl r, rest = l1 ++ (b :: dl) :: r /\ (forall l, In l l1 -> l = []) /\ it = r ++ (tried ++ l1) ++ [dl]
  end.
Proof.
  induction rest as [|[|b dl] rest IH]; intros tried H; simpl; [tauto| |].
  - specialize (IH (tried ++ [[]])). destruct (scan (tried ++ [[]]) rest) as [[b it]|].
    + destruct IH as (l1 & dl & r & -> & H1 & ->).
      { intros l I; apply in_app_or in I; destruct I as [I|[<-|[]]]; auto. }
      exists ([] :: l1), dl, r; split; [auto|split]; [intros l [<-|I]; auto|]. now rewrite <- !app_assoc.
    + intros l [<-|I]; auto. apply IH; auto. intros k J; apply in_app_or in J; destruct J as [J|[<-|[]]]; auto.
  - exists [], dl, rest; split; auto. split; [intros l []|]. now rewrite app_nil_r.
Qed.
Lemma tails_nil l1 : (forall l : list B, In l l1 -> l = []) -> tails l1 = l1.
Proof. induction l1 as [|l l1 IH]; intros H; simpl; auto. rewrite IH, (H l); simpl; auto. intros; apply H; simpl; auto. Qed.
Variable contents : nat -> list (list B).
Lemma epoch_ex m : forall ls e, fold_right (fun l n => length l + n) 0 ls = m -> forall n, bounded n ls ->
  epoch contents (mkinter ls e) (round_robin n ls) (reset contents e).
Proof.
  induction m as [|m IH]; intros ls e T n H.
  - assert (E : forall l, In l ls -> l = []).
    { clear - T; induction ls as [|l ls I]; simpl in *; [tauto|]. intros k [<-|J]; [destruct l; auto; simpl in T; lia|].
      apply I; auto; lia. }
    rewrite rr_empty by auto. apply stop; unfold next; simpl.
    pose proof (scan_spec ls [] (fun l (F : In l []) => match F with end)) as S1.
    destruct (scan [] ls) as [[b it]|]; auto.
    destruct S1 as (l1 & dl & r & -> & _). specialize (E (b :: dl)). discriminate E. apply in_or_app; simpl; auto.
  - pose proof (scan_spec ls [] (fun l (F : In l []) => match F with end)) as S1.
    destruct (scan [] ls) as [[b it]|] eqn:Sc.
    + destruct S1 as (l1 & dl & r & E & H1 & ->). simpl app in *.
      assert (R : round_robin n ls = b :: round_robin n (r ++ l1 ++ [dl])).
      { rewrite E. replace (l1 ++ (b :: dl) :: r) with ((l1 ++ [b :: dl]) ++ r) by now rewrite <- app_assoc.
        rewrite rr_rotate; [|rewrite <- app_assoc; simpl; rewrite <- E; auto].
        rewrite heads_app, heads_nil, tails_app, tails_nil by auto. reflexivity. }
      rewrite R. apply more with (s1 := mkinter (r ++ l1 ++ [dl]) e).
      * unfold next; simpl; now rewrite Sc.
      * apply IH.
        -- assert (F : forall a b, fold_right (fun (l : list B) n => length l + n) 0 (a ++ b) =
               fold_right (fun l n => length l + n) 0 a + fold_right (fun l n => length l + n) 0 b).
           { intros a0 b0; induction a0; simpl; auto. rewrite IHa0; lia. }
           rewrite E in T; rewrite !F in *; simpl in *; lia.
        -- rewrite E in H; rewrite !bounded_app in *; destruct H as [Ha Hb]; split; [|split; auto].
           ++ intros l I; apply Hb; simpl; auto.
           ++ intros l [<-|[]]. specialize (Hb (b :: dl) (or_introl eq_refl)); simpl in Hb; lia.
    + exfalso. clear - T S1. assert (Z0 : fold_right (fun (l : list B) n => length l + n) 0 ls = 0).
      { clear T; induction ls as [|l ls I]; simpl; auto. rewrite (S1 l) by (simpl; auto). simpl; apply I; intros; apply S1; simpl; auto. }
      lia.
Qed.
Lemma epoch_det s bs s' : epoch contents s bs s' -> forall cs t, epoch contents s cs t -> bs = cs /\ s' = t.
Proof.
  induction 1 as [s s' N|s b s1 bs s' N E IH]; intros cs t E'; inversion E'; subst.
  - rewrite N in H; injection H; auto.
  - congruence.
  - congruence.
  - rewrite N in H; injection H as <- <-. destruct (IH _ _ H0); subst; auto.
Qed.
Lemma bound_ex ls : exists n, bounded n ls.
Proof.
  induction ls as [|l ls [n H]]; [exists 0; intros l []|]. exists (max (length l) n).
  intros k [<-|I]; [lia|]. specialize (H k I); lia.
Qed.
Lemma epoch_iff e n bs s : bounded n (contents e) ->
  (epoch contents (reset contents e) bs s <-> bs = round_robin n (contents e) /\ s = reset contents (S e)).
Proof.
  intros H. pose proof (epoch_ex _ (contents e) (S e) eq_refl n H) as E. split.
  - intros E'; exact (epoch_det _ _ _ E' _ _ E).
  - intros [-> ->]; exact E.
Qed.
(* every batch once *)
Lemma heads_tails_perm ls : Permutation (heads ls ++ concat (tails ls)) (concat ls).
Proof.
  induction ls as [|[|b l] ls IH]; simpl; auto. apply perm_skip.
  unfold heads in IH. transitivity (l ++ round ls 0 ++ concat (tails ls)); [|apply Permutation_app_head, IH].
  rewrite !app_assoc; apply Permutation_app_tail, Permutation_app_comm.
Qed.
Lemma rr_perm n : forall ls, bounded n ls -> Permutation (round_robin n ls) (concat ls).
Proof.
  induction n as [|n IH]; intros ls H.
  - replace (concat ls) with (@nil B); auto. clear - H; induction ls as [|l ls I]; simpl; auto.
    rewrite <- I; [|intros k J; apply H; simpl; auto]. specialize (H l (or_introl eq_refl)); destruct l; simpl in *; auto; lia.
  - rewrite rr_S, IH by (apply bounded_tails; auto). apply heads_tails_perm.
Qed.
Lemma concat_len ls : length (concat ls) = fold_right (fun l n => length l + n) 0 ls.
Proof. induction ls; simpl; auto. rewrite app_length; lia. Qed.
Lemma epoch_perm e bs s : epoch contents (reset contents e) bs s ->
  Permutation bs (concat (contents e)) /\ length bs = total contents e /\ s = reset contents (S e).
Proof.
  intros H; destruct (bound_ex (contents e)) as [n Hn]. apply (epoch_iff e n bs s Hn) in H; destruct H as [-> ->].
  pose proof (rr_perm n _ Hn) as P; split; auto; split; auto.
  rewrite (Permutation_length P); apply concat_len.
Qed.
(* the order within each loader *)
Section Tag.
Variable tag : B -> nat.
Lemma filter_none k (l : list B) : (forall b, In b l -> tag b <> k) -> filter (fun b => tag b =? k) l = [].
Proof.
  induction l as [|b l IH]; intros H; simpl; auto. destruct (Nat.eqb_spec (tag b) k) as [E|_]; [elim (H b); simpl; auto|].
  apply IH; intros; apply H; simpl; auto.
Qed.
Lemma heads_tag k : forall ls j, (forall i l b, nth_error ls i = Some l -> In b l -> tag b = j + i) -> j <= k ->
  filter (fun b => tag b =? k) (heads ls) = firstn 1 (nth (k - j) ls []).
Proof.
  induction ls as [|l ls IH]; intros j H L.
  - simpl; now destruct (k - j).
  - assert (Eh : heads (l :: ls) = firstn 1 l ++ heads ls) by (destruct l; reflexivity). rewrite Eh, filter_app.
    assert (H' : forall i l0 b, nth_error ls i = Some l0 -> In b l0 -> tag b = S j + i).
    { intros i l0 b N I; rewrite (H (S i) l0 b N I); lia. }
    destruct (Nat.eq_dec j k) as [->|ne].
    + rewrite Nat.sub_diag; simpl. rewrite (filter_none k (heads ls)).
      * rewrite app_nil_r. destruct l as [|b l]; simpl; auto.
        rewrite (H 0 (b :: l) b eq_refl (or_introl eq_refl)), Nat.add_0_r, Nat.eqb_refl; auto.
      * intros b I; apply in_flat_map in I; destruct I as (l0 & I0 & Ib).
        apply In_nth_error in I0; destruct I0 as [i N].
        rewrite (H' i l0 b N); [lia|]. destruct l0; simpl in *; [tauto|destruct Ib as [<-|[]]; auto].
    + replace (k - j) with (S (k - S j)) by lia; change (nth (S ?n) (l :: ls) []) with (nth n ls []). rewrite (IH (S j) H') by lia.
      rewrite (filter_none k (firstn 1 l)); auto. intros b I; destruct l as [|x l]; simpl in I; [tauto|]. destruct I as [<-|[]].
      rewrite (H 0 (x :: l) x eq_refl (or_introl eq_refl)); lia.
Qed.
Lemma rr_tag k n : forall ls, bounded n ls -> (forall i l b, nth_error ls i = Some l -> In b l -> tag b = i) ->
  filter (fun b => tag b =? k) (round_robin n ls) = nth k ls [].
Proof.
  induction n as [|n IH]; intros ls H T.
  - simpl. symmetry. destruct (nth_in_or_default k ls []) as [I| ->]; auto. apply H in I. destruct (nth k ls []); simpl in *; auto; lia.
  - rewrite rr_S, filter_app, (heads_tag k ls 0 T) by lia. rewrite IH; [|apply bounded_tails; auto|].
    + rewrite Nat.sub_0_r. unfold tails. change (nth k (map (@tl B) ls) []) with (nth k (map (@tl B) ls) (tl [])).
      rewrite (map_nth (@tl B) ls [] k). now destruct (nth k ls []).
    + intros i l b N I. unfold tails in N. rewrite nth_error_map in N. destruct (nth_error ls i) as [l0|] eqn:E; [|discriminate].
      injection N as <-. apply (T i l0 b E). destruct l0; simpl in *; auto.
Qed.
Lemma epoch_order e bs s k : epoch contents (reset contents e) bs s ->
  (forall i l b, nth_error (contents e) i = Some l -> In b l -> tag b = i) ->
  filter (fun b => tag b =? k) bs = nth k (contents e) [].
Proof.
  intros H; destruct (bound_ex (contents e)) as [n Hn]. apply (epoch_iff e n bs s Hn) in H; destruct H as [-> _].
  apply rr_tag; auto.
Qed.
End Tag.
End Loaders.

(* ---- intervals *)
Lemma list_max_spec l : forall x, is_max (x :: l) (list_max x l).
Proof.
  unfold list_max; induction l as [|y l IH]; intros x; simpl.
  - split; simpl; auto. intros z [<-|[]]; lia.
  - destruct (IH (Z.max x y)) as [I M]. split.
    + destruct I as [I|I]; [|simpl; auto]. rewrite <- I; destruct (Z.max_spec x y) as [[_ ->]|[_ ->]]; simpl; auto.
    + intros z Hz. assert (Z.max x y <= fold_left Z.max l (Z.max x y))%Z by (apply M; simpl; auto).
      destruct Hz as [<-|[<-|Hz]]; [lia..|]. apply M; simpl; auto.
Qed.
Lemma list_min_spec l : forall x, is_min (x :: l) (list_min x l).
Proof.
  unfold list_min; induction l as [|y l IH]; intros x; simpl.
  - split; simpl; auto. intros z [<-|[]]; lia.
  - destruct (IH (Z.min x y)) as [I M]. split.
    + destruct I as [I|I]; [|simpl; auto]. rewrite <- I; destruct (Z.min_spec x y) as [[_ ->]|[_ ->]]; simpl; auto.
    + intros z Hz. assert (fold_left Z.min l (Z.min x y) <= Z.min x y)%Z by (apply M; simpl; auto).
      destruct Hz as [<-|[<-|Hz]]; [lia..|]. apply M; simpl; auto.
Qed.
Lemma is_max_eq l a b : is_max l a -> is_max l b -> a = b.
Proof. intros [I H] [J K]; apply H in J; apply K in I; lia. Qed.
Lemma is_min_eq l a b : is_min l a -> is_min l b -> a = b.
Proof. intros [I H] [J K]; apply H in J; apply K in I; lia. Qed.
Section Interval.
Variables (T M : Z) (lens offs : list Z).
Hypothesis (HT : (0 <= T)%Z) (HM : (0 <= M)%Z) (Hl : length lens = length offs).
Lemma interval_ok : offs <> [] -> exists s e, compute_interval T M lens offs = Ok (s, e) /\ (0 <= s <= e)%Z /\ (e <= M)%Z /\ (e - s = Z.min T M)%Z.
Proof.
  intros N; unfold compute_interval. destruct (Z.leb_spec M T) as [L|L].
  - exists 0%Z, M; repeat split; lia.
  - destruct offs as [|o os]; [congruence|]. destruct lens as [|l ls]; [discriminate|]; cbn [combine map]; cbv zeta.
    match goal with |- context [(?x <? 0)%Z] => generalize x; intros st end.
    destruct (Z.ltb_spec st 0) as [A|A]; [exists 0%Z, T; repeat split; lia|].
    destruct (Z.leb_spec (2 * M) (st + 2 * T)) as [C|C]; [exists (M - T)%Z, M; repeat split; lia|].
    exists (Z.quot st 2), (Z.quot (st + 2 * T) 2); split; auto.
    rewrite !Z.quot_div_nonneg by lia. replace (st + 2 * T)%Z with (st + T * 2)%Z by lia.
    rewrite Z.div_add by lia. pose proof (Z.div_mod st 2) as D. pose proof (Z.mod_pos_bound st 2). lia.
Qed.
Lemma interval_overlap l r s e : (T < M)%Z ->
  is_max offs l -> is_min (map (fun p => fst p + snd p)%Z (combine offs lens)) r -> (0 <= l)%Z -> (r <= M)%Z ->
  compute_interval T M lens offs = Ok (s, e) ->
  ((r - l <= T)%Z -> (s <= l /\ r <= e)%Z) /\
  ((T <= r - l)%Z -> (l <= s /\ e <= r)%Z) /\
  ((0 < s)%Z -> (e < M)%Z -> (-1 <= (s + e) - (l + r) <= 1)%Z).
Proof.
  intros TM Ml Mr l0 rM; unfold compute_interval.
  replace (M <=? T)%Z with false by (symmetry; apply Z.leb_gt; auto).
  destruct offs as [|o os]; [destruct Ml as [[] _]|]. destruct lens as [|n ns]; [discriminate|].
  cbv zeta. remember (map _ (combine (o :: os) (n :: ns))) as ends eqn:Ee; simpl in Ee.
  destruct ends as [|e0 es]; [discriminate|].
  rewrite (is_max_eq _ _ _ (list_max_spec os o) Ml), (is_min_eq _ _ _ (list_min_spec es e0) Mr).
  pose proof (Z.div_mod T 2) as DT; pose proof (Z.mod_pos_bound T 2) as BT.
  set (st := (l + r - 2 * (T / 2))%Z) in *.
  destruct (Z.ltb_spec st 0) as [A|A]; [intros [= <- <-]; unfold st in *; lia|].
  destruct (Z.leb_spec (2 * M) (st + 2 * T)) as [C|C]; [intros [= <- <-]; unfold st in *; lia|].
  rewrite !Z.quot_div_nonneg by lia. replace (st + 2 * T)%Z with (st + T * 2)%Z by lia.
  rewrite Z.div_add by lia. pose proof (Z.div_mod st 2) as D. pose proof (Z.mod_pos_bound st 2).
  intros [= <- <-]; unfold st in *; lia.
Qed.
End Interval.

(* ---- collation *)
Section Collate.
Variables (S : Type) (zero : S).
Lemma maximum_spec l : forall x, (x <= maximum x l) /\ (forall y, In y l -> y <= maximum x l) /\ (maximum x l = x \/ In (maximum x l) l).
Proof.
  unfold maximum; induction l as [|y l IH]; intros x; simpl; [split; [lia|split; [tauto|auto]]|].
  destruct (IH (max x y)) as (A & Bd & C). split; [lia|split].
  - intros z [<-|I]; [lia|]; auto.
  - destruct C as [C|C]; auto. rewrite C. destruct (Nat.max_spec x y) as [[_ E]|[_ E]]; rewrite E; auto.
Qed.
Lemma assign_embeds nch n o (d : sig S) : chans d = nch -> o + len d <= n -> exists row,
  assign nch n o (fun _ _ => zero) d = Ok row /\ embeds zero row d o n.
Proof.
  intros <- L; unfold assign; cbv zeta. replace (Nat.min (o + len d) n - Nat.min o n) with (len d) by lia.
  rewrite !Nat.eqb_refl; simpl. eexists; split; [reflexivity|]. split; auto.
  intros c t Hc Ht. destruct (Nat.leb_spec o t) as [A|A]; simpl; auto.
  destruct (Nat.ltb_spec t (o + len d)) as [A'|A']; auto. f_equal.
  - destruct (Nat.eqb_spec (chans d) 1); lia.
  - destruct (Nat.eqb_spec (len d) 1); lia.
Qed.
Lemma fill_ok mc rc m : forall l : list (sig S * sig S),
  (forall d t, In (d, t) l -> chans d = mc /\ chans t = rc /\ len d <= m /\ len t = len d) ->
  exists r, fill zero mc rc m l = Ok r /\ length r = length l /\
  forall b d t x y, nth_error l b = Some (d, t) -> nth_error r b = Some (x, y) ->
    embeds zero x d ((m - len d) / 2) m /\ embeds zero y t ((m - len d) / 2) m.
Proof.
  induction l as [|[d t] l IH]; intros H; cbn [fill length]; cbv zeta.
  - exists []; split; auto; split; auto. intros [|b]; discriminate.
  - destruct (H d t (or_introl eq_refl)) as (Hd & Ht & L & E).
    assert (O : (m - len d) / 2 + len d <= m).
    { pose proof (Nat.div_mod (m - len d) 2 ltac:(lia)). lia. }
    destruct (assign_embeds mc m ((m - len d) / 2) d Hd O) as (x & -> & Ex).
    destruct (assign_embeds rc m ((m - len d) / 2) t Ht) as (y & -> & Ey); [rewrite E; auto|].
    rewrite !bind_ok. destruct IH as (r & -> & Lr & Hr); [intros; apply H; simpl; auto|]. rewrite bind_ok.
    exists ((x, y) :: r); split; auto; split; simpl; auto.
    intros [|b] d' t' x' y'; simpl; [intros [= <- <-] [= <- <-]; auto|apply Hr].
Qed.
Lemma collator_ok (l : list (sig S * sig S)) mc rc : l <> [] ->
  (forall d t, In (d, t) l -> chans d = mc /\ chans t = rc /\ len t = len d) ->
  exists r, collator zero l = Ok r /\ n_batch r = length l /\ mix_ch r = mc /\ ref_ch r = rc /\
  (forall d t, In (d, t) l -> len d <= n_samples r) /\ (exists d t, In (d, t) l /\ len d = n_samples r) /\
  length (rows r) = length l /\
  forall b d t x y, nth_error l b = Some (d, t) -> nth_error (rows r) b = Some (x, y) ->
    embeds zero x d ((n_samples r - len d) / 2) (n_samples r) /\ embeds zero y t ((n_samples r - len d) / 2) (n_samples r).
Proof.
  intros N H; unfold collator; destruct l as [|[d t] l]; [congruence|].
  set (m := maximum (len d) (map (fun p => len (fst p)) l)).
  destruct (maximum_spec (map (fun p => len (fst p)) l) (len d)) as (A & Bd & C); fold m in A, Bd, C.
  destruct (H d t (or_introl eq_refl)) as (Hd & Ht & E). rewrite Hd, Ht.
  assert (Bd' : forall d' t', In (d', t') ((d, t) :: l) -> len d' <= m).
  { intros d' t' [[= <- <-]|I]; auto. apply Bd. apply (in_map (fun p => len (fst p))) in I; auto. }
  destruct (fill_ok mc rc m ((d, t) :: l)) as (r & -> & Lr & Hr).
  { intros d' t' I; destruct (H d' t' I) as (? & ? & ?); do 2 (split; auto). split; auto. apply (Bd' d' t' I). }
  rewrite bind_ok. eexists; split; [reflexivity|]; simpl n_batch; simpl mix_ch; simpl ref_ch; simpl n_samples; simpl rows.
  do 3 (split; auto). split; [exact Bd'|]. split; [|split; [exact Lr|exact Hr]].
  destruct C as [C|C]; [exists d, t; simpl; auto|]. apply in_map_iff in C; destruct C as ([d' t'] & E' & I).
  exists d', t'; simpl; auto.
Qed.
(* channels that do not match the first example *)
Lemma assign_bad nch n o buf (d : sig S) : chans d <> nch -> chans d <> 1 -> assign nch n o buf d = Err RuntimeError.
Proof. intros A C; unfold assign; apply Nat.eqb_neq in A; apply Nat.eqb_neq in C; now rewrite A, C. Qed.
Lemma fill_err mc rc m l : (exists d t, In (d, t) l /\ chans d <> mc /\ chans d <> 1) -> fill zero mc rc m l = Err RuntimeError.
Proof.
  assert (Er : forall nch n o buf (d : sig S) e, assign nch n o buf d = Err e -> e = RuntimeError).
  { intros nch n o buf d e; unfold assign; cbv zeta; destruct (_ && _); [discriminate|]. congruence. }
  induction l as [|[d t] l IH]; intros (d' & t' & I & H); [destruct I|]. cbn [fill]; cbv zeta.
  destruct (assign mc m _ _ d) as [x|e] eqn:E1; [|rewrite (Er _ _ _ _ _ _ E1); auto]. rewrite bind_ok.
  destruct (assign rc m _ _ t) as [y|e] eqn:E2; [|rewrite (Er _ _ _ _ _ _ E2); auto]. rewrite bind_ok.
  destruct I as [[= <- <-]|I].
  - rewrite assign_bad in E1 by tauto; discriminate.
  - rewrite IH; auto. eauto.
Qed.
Lemma collator_err d0 t0 l : (exists d t, In (d, t) l /\ chans d <> chans d0 /\ chans d <> 1) ->
  collator zero ((d0, t0) :: l) = Err RuntimeError.
Proof.
  intros (d & t & I & H); unfold collator. rewrite fill_err; auto. exists d, t; simpl; auto.
Qed.
End Collate.
Lemma overlap_lemma T M lens offs l r s e :
  (0 <= T)%Z -> length lens = length offs -> (T < M)%Z ->
  is_max offs l -> is_min (map (fun p => fst p + snd p)%Z (combine offs lens)) r -> (0 <= l)%Z -> (r <= M)%Z ->
  compute_interval T M lens offs = Ok (s, e) ->
  ((r - l <= T)%Z -> (s <= l /\ r <= e)%Z) /\
  ((T <= r - l)%Z -> (l <= s /\ e <= r)%Z) /\
  ((0 < s)%Z -> (e < M)%Z -> (-1 <= (s + e) - (l + r) <= 1)%Z).
Proof. intros; eapply interval_overlap; eauto. Qed.
Lemma no_source :
  exists T M lens offs s e, length lens = length offs /\ compute_interval T M lens offs = Ok (s, e) /\
    Forall2 (fun o n => 0 <= o /\ 0 < n <= T /\ o + n <= M /\ (o + n <= s \/ e <= o))%Z offs lens.
Proof.
  exists 20%Z, 200%Z, [10; 10]%Z, [0; 100]%Z, 45%Z, 65%Z; split; [reflexivity|split; [reflexivity|]].
  repeat constructor; lia.
Qed.
Lemma mono S (zero : S) d0 d t : 1 < chans d0 -> chans d = 1 -> chans t = 1 -> len t = len d -> len d = len d0 ->
  exists r x y, collator zero [(d0, t); (d, t)] = Ok r /\ nth_error (rows r) 1 = Some (x, y) /\
    forall c n, c < chans d0 -> n < len d -> x c n = at_ d 0 n.
Proof.
  intros H0 H1 Ht Lt L. unfold collator, maximum; cbn [fold_left map fst fill]; cbv zeta.
  rewrite L, Nat.max_id, Nat.sub_diag. cbn [Nat.div Nat.divmod fst].
  unfold assign; cbv zeta. rewrite Lt, L, H1, Ht. rewrite Nat.add_0_l, Nat.min_id. cbn [Nat.min]. rewrite Nat.sub_0_r, !Nat.eqb_refl.
  rewrite (proj2 (Nat.eqb_neq 1 (chans d0))) by lia. simpl orb. simpl andb. cbv iota. rewrite !bind_ok.
  do 3 eexists; split; [reflexivity|]. split; [reflexivity|].
  intros c n Hc Hn; cbn beta. rewrite ?Nat.add_0_l. rewrite (proj2 (Nat.ltb_lt n (len d0))) by lia.
  simpl. f_equal. destruct (Nat.eqb_spec (len d0) 1); lia.
Qed.
