From Coq Require Import List ZArith QArith Qround Bool Lia Permutation.
From Verif Require Import Py ClipModel ClipSpec.
Import ListNotations.
Local Open Scope nat_scope.

Lemma lt_false x y : x <> NaN -> y <> NaN -> (lt x y = false <-> num_le y x).
Proof.
  destruct x, y; simpl; intros; try congruence; try tauto.
  - rewrite negb_false_iff, Qle_bool_iff; tauto.
  - split; [discriminate|tauto].
Qed.
Lemma lt_true x y : x <> NaN -> y <> NaN -> lt x y = true -> num_le x y.
Proof.
  destruct x as [a| |], y as [b| |]; simpl; intros; try congruence; try tauto.
  rewrite negb_true_iff in H1. destruct (Qlt_le_dec b a) as [L|L]; auto.
  apply Qlt_le_weak in L. apply Qle_bool_iff in L; congruence.
Qed.
Lemma num_le_refl x : x <> NaN -> num_le x x.
Proof. destruct x; simpl; intros; try congruence; auto. apply Qle_refl. Qed.
Lemma num_le_trans x y z : num_le x y -> num_le y z -> num_le x z.
Proof. destruct x, y, z; simpl; try tauto. apply Qle_trans. Qed.

Section Bisect.
Variables (a : list num) (x : num).
Hypothesis (Hx : x <> NaN) (Ha : forall y, In y a -> y <> NaN) (Hs : increasing a).
Lemma bisect_spec fuel : forall lo hi, lo <= hi <= length a -> hi - lo <= fuel ->
  (forall i y, i < lo -> nth_error a i = Some y -> num_le y x) ->
  (forall i y, hi <= i -> nth_error a i = Some y -> num_le x y) ->
  let p := bisect a x fuel lo hi in p <= length a /\
  (forall i y, i < p -> nth_error a i = Some y -> num_le y x) /\
  (forall i y, p <= i -> nth_error a i = Some y -> num_le x y).
Proof.
  induction fuel as [|f IH]; intros lo hi B F L H; cbn [bisect].
  - assert (lo = hi) as -> by lia. split; [lia|split; auto].
  - destruct (Nat.ltb_spec lo hi) as [A|A]; cbv zeta.
    + set (mid := (lo + hi) / 2). assert (M : lo <= mid < hi).
      { unfold mid; pose proof (Nat.div_mod (lo + hi) 2 ltac:(lia)); pose proof (Nat.mod_upper_bound (lo + hi) 2 ltac:(lia)). lia. }
      assert (N : nth_error a mid = Some (nth mid a NaN)) by (apply nth_error_nth'; lia).
      set (m := nth mid a NaN) in *. assert (Hm : m <> NaN) by (apply Ha; eapply nth_error_In; eauto).
      destruct (lt x m) eqn:E.
      * apply IH; auto; try lia. intros i y Hi Hy. apply lt_true in E; auto.
        destruct (Nat.eq_dec i mid) as [->|]; [congruence|]. apply num_le_trans with m; auto. apply (Hs mid i); auto; lia.
      * apply IH; auto; try lia. intros i y Hi Hy. apply lt_false in E; auto.
        destruct (Nat.eq_dec i mid) as [->|]; [congruence|]. apply num_le_trans with m; auto. apply (Hs i mid); auto; lia.
    + assert (lo = hi) as -> by lia. split; [lia|split; auto].
Qed.
Lemma insort_perm : Permutation (insort a x) (x :: a).
Proof.
  unfold insort; cbv zeta. rewrite <- Permutation_middle. apply perm_skip. now rewrite firstn_skipn.
Qed.
Lemma insort_sorted : increasing (insort a x).
Proof.
  unfold insort; cbv zeta. destruct (bisect_spec (length a) 0 (length a)) as (P & L & H); try lia.
  - intros i y Hi Hy. assert (X : nth_error a i <> None) by congruence. apply nth_error_Some in X. lia.
  - set (p := bisect a x (length a) 0 (length a)) in *.
    assert (Lf : length (firstn p a) = p) by (rewrite firstn_length; lia).
    assert (F : forall i y, i < p -> nth_error (firstn p a ++ x :: skipn p a) i = Some y -> nth_error a i = Some y).
    { intros i y Hi; rewrite nth_error_app1 by lia. rewrite <- (firstn_skipn p a) at 2. rewrite nth_error_app1 by lia. auto. }
    assert (M : nth_error (firstn p a ++ x :: skipn p a) p = Some x).
    { rewrite nth_error_app2 by lia. rewrite Lf, Nat.sub_diag; auto. }
    assert (G : forall i y, p < i -> nth_error (firstn p a ++ x :: skipn p a) i = Some y -> nth_error a (i - 1) = Some y).
    { intros i y Hi; rewrite nth_error_app2 by lia. rewrite Lf. destruct (i - p) as [|k] eqn:E; [lia|]. simpl.
      intros X. rewrite <- (firstn_skipn p a). rewrite nth_error_app2 by lia. rewrite Lf. replace (i - 1 - p) with k by lia. auto. }
    intros i j u v ij Hu Hv.
    destruct (lt_eq_lt_dec i p) as [[Li|Ei]|Li]; destruct (lt_eq_lt_dec j p) as [[Lj|Ej]|Lj]; subst; try lia.
    + apply (Hs i j); auto.
    + rewrite M in Hv; injection Hv as <-. apply (L i); auto.
    + apply F in Hu; auto. apply G in Hv; auto. apply num_le_trans with x; [apply (L i); auto|apply (H (j - 1)); auto; lia].
    + rewrite M in Hu; injection Hu as <-. apply G in Hv; auto. apply (H (j - 1)); auto; lia.
    + apply G in Hu; auto. apply G in Hv; auto. apply (Hs (i - 1) (j - 1)); auto; lia.
Qed.
End Bisect.
Lemma insort_length a x : length (insort a x) = S (length a).
Proof. unfold insort; cbv zeta. rewrite app_length; simpl. rewrite firstn_length, skipn_length. lia. Qed.

Section Calls.
Variables (fl : Q -> Q) (p : Q).
Hypothesis (Hfl : rounding fl).
Lemma trunc_bounds n : (0 <= p)%Q -> (p <= 1)%Q -> (0 <= trunc (fl (p * inject_Z (Z.of_nat n))) <= Z.of_nat n)%Z.
Proof.
  destruct Hfl as [mono ex]. intros P0 P1.
  assert (A : (0 <= fl (p * inject_Z (Z.of_nat n)))%Q).
  { apply Qle_trans with (fl (inject_Z 0)); [rewrite ex; apply Qle_refl|]. apply mono. apply Qmult_le_0_compat; auto. change 0%Q with (inject_Z 0). rewrite <- Zle_Qle; lia. }
  assert (C : (fl (p * inject_Z (Z.of_nat n)) <= inject_Z (Z.of_nat n))%Q).
  { apply Qle_trans with (fl (inject_Z (Z.of_nat n))); [|rewrite ex; apply Qle_refl]. apply mono.
    apply Qle_trans with (1 * inject_Z (Z.of_nat n))%Q; [|rewrite Qmult_1_l; apply Qle_refl]. apply Qmult_le_compat_r; auto.
    change 0%Q with (inject_Z 0). rewrite <- Zle_Qle; lia. }
  unfold trunc. rewrite (proj2 (Qle_bool_iff _ _) A). split.
  - change 0%Z with (Qfloor (inject_Z 0)). apply Qfloor_resp_le; auto.
  - apply Qfloor_resp_le in C; now rewrite Qfloor_Z in C.
Qed.
Definition rank (n : nat) : nat := Nat.min (Z.to_nat (trunc (fl (p * inject_Z (Z.of_nat n))))) (n - 1).
Lemma clip_ok h g : (0 <= p)%Q -> (p <= 1)%Q -> exists c,
  auto_clip fl p h g = (Ok (g, c), insort h g) /\ nth_error (insort h g) (rank (S (length h))) = Some c.
Proof.
  intros P0 P1; unfold auto_clip; cbv zeta. rewrite insort_length.
  pose proof (trunc_bounds (S (length h)) P0 P1) as T. unfold rank.
  set (t := trunc _) in *. set (n := S (length h)) in *.
  set (i := if (t =? Z.of_nat n)%Z then (t - 1)%Z else t).
  assert (I : (0 <= i)%Z /\ Z.to_nat i = Nat.min (Z.to_nat t) (n - 1)).
  { unfold i; destruct (Z.eqb_spec t (Z.of_nat n)); unfold n in *; lia. }
  destruct I as [I0 I1]. unfold py_index. rewrite (proj2 (Z.ltb_ge i 0) I0). cbv zeta. rewrite (proj2 (Z.ltb_ge i 0) I0), I1.
  destruct (nth_error (insort h g) _) as [c|] eqn:E; [eauto|].
  apply nth_error_None in E. rewrite insort_length in E. lia.
Qed.
Lemma run_app gs : forall h g, run fl p h (gs ++ [g]) =
  (fst (run fl p h gs) ++ [fst (auto_clip fl p (snd (run fl p h gs)) g)], snd (auto_clip fl p (snd (run fl p h gs)) g)).
Proof.
  induction gs as [|x gs IH]; intros h g; cbn [run app].
  - cbn [snd fst]; destruct (auto_clip fl p h g); reflexivity.
  - destruct (auto_clip fl p h x) as [r h1]. rewrite IH. destruct (run fl p h1 gs) as [rs h2]. auto.
Qed.
Lemma run_history gs : (forall g, In g gs -> g <> NaN) ->
  let h := snd (run fl p [] gs) in Permutation h gs /\ increasing h.
Proof.
  cbv zeta; induction gs as [|g gs IH] using rev_ind; intros H.
  - simpl; split; auto. intros [|i] j x y; discriminate.
  - rewrite run_app; simpl snd. destruct IH as [P I]; [intros; apply H; apply in_or_app; auto|].
    set (h := snd (run fl p [] gs)) in *. assert (Hh : forall y, In y h -> y <> NaN).
    { intros y Iy; apply H. apply in_or_app; left. eapply Permutation_in; eauto. }
    assert (Hg : g <> NaN) by (apply H; apply in_or_app; simpl; auto).
    replace (snd (auto_clip fl p h g)) with (insort h g) by reflexivity. split.
    + rewrite insort_perm. rewrite P. apply Permutation_cons_append.
    + apply insort_sorted; auto.
Qed.
(* the outcome of the last call of any sequence *)
Lemma last_call gs g : (0 <= p)%Q -> (p <= 1)%Q -> (forall x, In x (gs ++ [g]) -> x <> NaN) ->
  exists c h, auto_clip fl p (snd (run fl p [] gs)) g = (Ok (g, c), h) /\ Permutation h (gs ++ [g]) /\ increasing h /\
  nth_error h (rank (length (gs ++ [g]))) = Some c.
Proof.
  intros P0 P1 H. pose proof (run_history (gs ++ [g]) H) as R; cbv zeta in R. rewrite run_app in R; simpl snd in R.
  destruct (clip_ok (snd (run fl p [] gs)) g P0 P1) as (c & E & N). rewrite E in *; simpl in R.
  exists c, (insort (snd (run fl p [] gs)) g); split; auto. split; [tauto|split; [tauto|]].
  replace (length (gs ++ [g])) with (S (length (snd (run fl p [] gs)))); auto.
  rewrite <- insort_length with (x := g). apply Permutation_length; tauto.
Qed.
Lemma sorted_rank h r c : increasing h -> (forall x, In x h -> x <> NaN) -> nth_error h r = Some c ->
  at_least (S r) (fun x => num_le x c) h /\ at_least (length h - r) (fun x => num_le c x) h.
Proof.
  intros I N E. assert (L : r < length h) by (apply nth_error_Some; congruence).
  assert (Hc : c <> NaN) by (apply N; eapply nth_error_In; eauto). split.
  - exists (firstn (S r) h), (skipn (S r) h); split; [now rewrite firstn_skipn|]. split; [rewrite firstn_length; lia|].
    intros x Ix; apply In_nth_error in Ix; destruct Ix as [i Hi].
    assert (i < S r). { assert (nth_error (firstn (S r) h) i <> None) as Q1 by congruence. apply nth_error_Some in Q1. rewrite firstn_length in Q1; lia. }
    assert (Hi' : nth_error h i = Some x). { rewrite <- (firstn_skipn (S r) h). rewrite nth_error_app1; auto. rewrite firstn_length; lia. }
    destruct (Nat.eq_dec i r) as [->|]; [|apply (I i r); auto; lia]. assert (x = c) as -> by congruence. apply num_le_refl; auto.
  - exists (skipn r h), (firstn r h); split; [rewrite Permutation_app_comm; now rewrite firstn_skipn|].
    split; [rewrite skipn_length; lia|].
    intros x Ix; apply In_nth_error in Ix; destruct Ix as [i Hi].
    assert (Hi' : nth_error h (r + i) = Some x).
    { rewrite <- (firstn_skipn r h). rewrite nth_error_app2; rewrite firstn_length, Nat.min_l by lia; [|lia].
      replace (r + i - r) with i by lia; auto. }
    destruct i as [|i]; [|apply (I r (r + S i)); auto; lia].
    rewrite Nat.add_0_r in Hi'. assert (x = c) as -> by congruence. apply num_le_refl; auto.
Qed.
Lemma at_least_perm k P h h' : Permutation h h' -> at_least k P h -> at_least k P h'.
Proof. intros H (l1 & l2 & E & ? & ?); exists l1, l2; split; auto. now rewrite <- H. Qed.
(* the threshold after any sequence of calls *)
Lemma percentile gs g : (0 <= p)%Q -> (p <= 1)%Q -> (forall x, In x (gs ++ [g]) -> x <> NaN) ->
  let n := length (gs ++ [g]) in
  let r := Nat.min (Z.to_nat (trunc (fl (p * inject_Z (Z.of_nat n))))) (n - 1) in
  exists c h, auto_clip fl p (snd (run fl p [] gs)) g = (Ok (g, c), h) /\ Permutation h (gs ++ [g]) /\ increasing h /\
  In c (gs ++ [g]) /\ at_least (S r) (fun x => num_le x c) (gs ++ [g]) /\ at_least (n - r) (fun x => num_le c x) (gs ++ [g]).
Proof.
  intros P0 P1 H n r. destruct (last_call gs g P0 P1 H) as (c & h & E & P & I & N).
  exists c, h; do 3 (split; auto). assert (Hh : forall x, In x h -> x <> NaN).
  { intros x Ix; apply H. eapply Permutation_in; eauto. }
  destruct (sorted_rank h _ c I Hh N) as [A1 A2]. rewrite (Permutation_length P) in A2.
  split; [eapply Permutation_in; eauto; eapply nth_error_In; eauto|]. split; eapply at_least_perm; eauto.
Qed.
(* the 100th percentile *)
Lemma p100 gs g : (p == 1)%Q -> (forall x, In x (gs ++ [g]) -> x <> NaN) ->
  exists c h, auto_clip fl p (snd (run fl p [] gs)) g = (Ok (g, c), h) /\ In c (gs ++ [g]) /\ forall x, In x (gs ++ [g]) -> num_le x c.
Proof.
  intros P H. assert (P0 : (0 <= p)%Q) by (rewrite P; discriminate). assert (P1 : (p <= 1)%Q) by (rewrite P; apply Qle_refl).
  destruct (last_call gs g P0 P1 H) as (c & h & E & Pm & I & N). exists c, h; split; auto.
  split; [eapply Permutation_in; eauto; eapply nth_error_In; eauto|].
  assert (R : rank (length (gs ++ [g])) = length h - 1).
  { unfold rank. rewrite (Permutation_length Pm). set (n := length (gs ++ [g])) in *.
    assert (T : trunc (fl (p * inject_Z (Z.of_nat n))) = Z.of_nat n); [|rewrite T, Nat2Z.id; lia].
    destruct Hfl as [mono ex]. set (y := fl _).
    assert (Y : (y == inject_Z (Z.of_nat n))%Q).
    { apply Qeq_trans with (fl (inject_Z (Z.of_nat n))); [|apply ex]; unfold y. apply Qle_antisym; apply mono; rewrite P, Qmult_1_l; apply Qle_refl. }
    unfold trunc. rewrite (proj2 (Qle_bool_iff 0 y)).
    - rewrite (Qfloor_comp _ _ Y). apply Qfloor_Z.
    - rewrite Y. change 0%Q with (inject_Z 0). rewrite <- Zle_Qle; lia. }
  intros x Ix. assert (Ix' : In x h) by (eapply Permutation_in; [symmetry|]; eauto).
  apply In_nth_error in Ix'; destruct Ix' as [i Hi]. rewrite R in N.
  assert (Li : i < length h) by (apply nth_error_Some; congruence).
  destruct (Nat.eq_dec i (length h - 1)) as [->|]; [|apply (I i (length h - 1)); auto; lia].
  assert (x = c) as -> by congruence. apply num_le_refl; auto.
Qed.
(* out of range *)
Lemma index_error h g : (Z.of_nat (S (length h)) < trunc (fl (p * inject_Z (Z.of_nat (S (length h))))))%Z ->
  auto_clip fl p h g = (Err IndexError, insort h g).
Proof.
  intros H; unfold auto_clip; cbv zeta. rewrite insort_length. set (t := trunc _) in *.
  destruct (Z.eqb_spec t (Z.of_nat (S (length h)))); [lia|].
  unfold py_index. destruct (Z.ltb_spec t 0); [lia|]. cbv zeta. destruct (Z.ltb_spec t 0); [lia|].
  replace (nth_error (insort h g) (Z.to_nat t)) with (@None num); auto.
  symmetry; apply nth_error_None; rewrite insort_length; lia.
Qed.
(* a NaN that comes first stays first *)
Lemma nan_first_insort h g : exists h', insort (NaN :: h) g = NaN :: h'.
Proof.
  unfold insort; cbv zeta. set (a := NaN :: h).
  assert (P : forall f lo hi, lo <= hi -> (lo = 0 -> 0 < hi) -> hi - lo <= f -> bisect a g f lo hi <> 0).
  { induction f as [|f IH]; intros lo hi L H F; cbn [bisect]; [lia|].
    destruct (Nat.ltb_spec lo hi) as [A|A]; [|lia]. cbv zeta. set (mid := (lo + hi) / 2).
    assert (M : lo <= mid < hi).
    { unfold mid; pose proof (Nat.div_mod (lo + hi) 2 ltac:(lia)); pose proof (Nat.mod_upper_bound (lo + hi) 2 ltac:(lia)). lia. }
    destruct (lt g (nth mid a NaN)) eqn:E.
    - apply IH; try lia. intros ->. destruct mid as [|m]; [|lia]. simpl in E. destruct g; discriminate.
    - apply IH; lia. }
  specialize (P (length a) 0 (length a)). destruct (bisect a g (length a) 0 (length a)) as [|k]; [|simpl; eauto].
  elim P; simpl; auto; lia.
Qed.
Lemma nan_first gs : exists h', snd (run fl p [NaN] gs) = NaN :: h'.
Proof.
  induction gs as [|g gs [h IH]] using rev_ind; [simpl; eauto|]. rewrite run_app; simpl snd. rewrite IH.
  change (snd (auto_clip fl p (NaN :: h) g)) with (insort (NaN :: h) g). apply nan_first_insort.
Qed.
Lemma nan_poison gs g : (p == 0)%Q -> exists h,
  auto_clip fl p (snd (run fl p [] (NaN :: gs))) g = (Ok (g, NaN), h).
Proof.
  intros P. assert (P0 : (0 <= p)%Q) by (rewrite P; apply Qle_refl). assert (P1 : (p <= 1)%Q) by (rewrite P; discriminate).
  assert (E0 : snd (run fl p [] (NaN :: gs)) = snd (run fl p [NaN] gs)).
  { change (run fl p [] (NaN :: gs)) with (let '(r, h) := auto_clip fl p [] NaN in let '(rs, h') := run fl p h gs in (r :: rs, h')).
    unfold auto_clip; cbv zeta. change (insort [] NaN) with [NaN]. destruct (run fl p [NaN] gs); auto. }
  rewrite E0. destruct (nan_first gs) as [h ->]. destruct (clip_ok (NaN :: h) g P0 P1) as (c & E & N).
  exists (insort (NaN :: h) g); rewrite E. destruct (nan_first_insort h g) as [h' E']. rewrite E' in N.
  assert (R : forall n, rank n = 0).
  { intros n; unfold rank. destruct Hfl as [mono ex]. set (y := fl _).
    assert (Y : (y == inject_Z 0)%Q).
    { apply Qeq_trans with (fl (inject_Z 0)); [|apply ex]; unfold y. apply Qle_antisym; apply mono; rewrite P, Qmult_0_l; apply Qle_refl. }
    unfold trunc. rewrite (proj2 (Qle_bool_iff 0 y)) by (rewrite Y; apply Qle_refl).
    rewrite (Qfloor_comp _ _ Y); auto. }
  rewrite R in N. simpl in N. injection N as <-. reflexivity.
Qed.
End Calls.

Lemma factor_record g t : (0 < g)%Q -> (t == g)%Q -> exists f, clip_factor (Fin t) (Fin g) = Fin f /\ (f < 1)%Q /\ (g - (1 # 1000000) <= g * f)%Q.
Proof.
  intros G T; simpl. set (e := 1 # 1000000). assert (E : (0 < e)%Q) by reflexivity.
  assert (D : (0 < g + e)%Q). { rewrite <- (Qplus_0_l 0). apply Qplus_lt_le_compat; auto. apply Qlt_le_weak; auto. }
  assert (L : (t / (g + e) < 1)%Q).
  { apply Qlt_shift_div_r; auto. rewrite T, Qmult_1_l. rewrite <- (Qplus_0_r g) at 1. apply Qplus_lt_r; auto. }
  rewrite (proj2 (Qle_bool_iff _ _)) by (apply Qlt_le_weak; auto).
  exists (t / (g + e))%Q; split; auto; split; auto.
  assert (X : (g * (t / (g + e)) == (g * g) / (g + e))%Q).
  { rewrite T. field. intros Z0; rewrite Z0 in D; discriminate D. }
  rewrite X. apply Qle_shift_div_l; auto.
  assert (Y : ((g - e) * (g + e) == g * g - e * e)%Q) by ring. rewrite Y.
  rewrite <- (Qplus_0_r (g * g)) at 2. apply Qplus_le_r. discriminate.
Qed.
Lemma factor_small g t : (0 <= g)%Q -> (g + (1 # 1000000) <= t)%Q -> exists f, clip_factor (Fin t) (Fin g) = Fin f /\ (f == 1)%Q.
Proof.
  intros G T; simpl. set (e := 1 # 1000000) in *. assert (E : (0 < e)%Q) by reflexivity.
  assert (D : (0 < g + e)%Q). { rewrite <- (Qplus_0_l 0), (Qplus_comm g). apply Qplus_lt_le_compat; auto. }
  assert (L : (1 <= t / (g + e))%Q). { apply Qle_shift_div_l; auto. now rewrite Qmult_1_l. }
  destruct (Qle_bool (t / (g + e)) 1) eqn:B.
  - apply Qle_bool_iff in B. exists (t / (g + e))%Q; split; auto. apply Qle_antisym; auto.
  - exists 1%Q; split; auto. apply Qeq_refl.
Qed.
Lemma nan_lemma fl p gs g : rounding fl -> (p == 0)%Q ->
  exists h, auto_clip fl p (snd (run fl p [] (NaN :: gs))) g = (Ok (g, NaN), h) /\ clip_factor NaN g = NaN.
Proof. intros R P; destruct (nan_poison fl p R gs g P) as [h E]; exists h; auto. Qed.

Lemma trunc_floor q : (0 <= q)%Q -> trunc q = Qfloor q.
Proof. intros H; unfold trunc; now rewrite (proj2 (Qle_bool_iff _ _) H). Qed.
Lemma percentile_floor fl p (R : rounding fl) gs g : (0 <= p)%Q -> (p <= 1)%Q -> (forall x, In x (gs ++ [g]) -> x <> NaN) ->
  let n := length (gs ++ [g]) in
  let r := Nat.min (Z.to_nat (Qfloor (fl (p * inject_Z (Z.of_nat n))%Q))) (n - 1) in
  exists c h, auto_clip fl p (snd (run fl p [] gs)) g = (Ok (g, c), h) /\ Permutation h (gs ++ [g]) /\ increasing h /\
  In c (gs ++ [g]) /\ at_least (S r) (fun x => num_le x c) (gs ++ [g]) /\ at_least (n - r) (fun x => num_le c x) (gs ++ [g]).
Proof.
  intros P0 P1 H. pose proof (percentile fl p R gs g P0 P1 H) as X. cbv zeta in *. rewrite trunc_floor in X; auto.
  destruct R as [mono ex]. apply Qle_trans with (fl (inject_Z 0)); [rewrite ex; apply Qle_refl|]. apply mono.
  apply Qmult_le_0_compat; auto. change 0%Q with (inject_Z 0). rewrite <- Zle_Qle; lia.
Qed.
Lemma index_error_floor fl p h g : (Z.of_nat (S (length h)) < Qfloor (fl (p * inject_Z (Z.of_nat (S (length h))))%Q))%Z ->
  auto_clip fl p h g = (Err IndexError, insort h g).
Proof.
  intros H; apply index_error. rewrite trunc_floor; auto. apply Qle_trans with (inject_Z (Qfloor (fl (p * inject_Z (Z.of_nat (S (length h))))%Q))); [|apply Qfloor_le].
  change 0%Q with (inject_Z 0). rewrite <- Zle_Qle; lia.
Qed.

(* negative percentiles: int() rounds up and Python counts from the end *)
Lemma trunc_neg q : (0 < Qfloor (- q))%Z -> trunc q = (- Qfloor (- q))%Z.
Proof.
  intros H; unfold trunc. destruct (Qle_bool 0 q) eqn:E; auto. apply Qle_bool_iff in E.
  exfalso. assert (L : (Qfloor (- q) <= Qfloor 0)%Z).
  { apply Qfloor_resp_le. apply Qopp_le_compat in E. exact E. }
  change (Qfloor 0) with 0%Z in L. lia.
Qed.
Lemma clip_negative fl p h g k : Qfloor (- fl (p * inject_Z (Z.of_nat (S (length h)))))%Q = Z.of_nat (S k) ->
  auto_clip fl p h g =
    (if (k <=? length h)%nat then Ok (g, nth (length h - k) (insort h g) NaN) else Err IndexError, insort h g).
Proof.
  intros H; unfold auto_clip; cbv zeta. rewrite insort_length.
  rewrite trunc_neg by (rewrite H; lia). rewrite H.
  destruct (Z.eqb_spec (- Z.of_nat (S k)) (Z.of_nat (S (length h)))); [lia|].
  unfold py_index. destruct (Z.ltb_spec (- Z.of_nat (S k)) 0); [|lia]. cbv zeta. rewrite insort_length.
  destruct (Nat.leb_spec k (length h)) as [L|L].
  - destruct (Z.ltb_spec (Z.of_nat (S (length h)) + - Z.of_nat (S k)) 0); [lia|].
    replace (Z.to_nat (Z.of_nat (S (length h)) + - Z.of_nat (S k))) with (length h - k)%nat by lia.
    rewrite (nth_error_nth' _ NaN) by (rewrite insort_length; lia). reflexivity.
  - destruct (Z.ltb_spec (Z.of_nat (S (length h)) + - Z.of_nat (S k)) 0); [auto|lia].
Qed.
