From Coq Require Import String List ZArith Bool Arith Lia.
From Verif Require Import Py TorchShape ShapeModel ShapeSpec.
Import ListNotations.
Local Open Scope string_scope.
Local Open Scope list_scope.
Local Open Scope py_scope.
Set Implicit Arguments.

(* ---- operations *)
Lemma bc2_same n : bc2 n n = Ok n.
Proof. unfold bc2. now rewrite Nat.eqb_refl. Qed.
Lemma bc2_1l n : bc2 1 n = Ok n.
Proof. unfold bc2. destruct n as [|[|n]]; reflexivity. Qed.
Lemma bc2_1r n : bc2 n 1 = Ok n.
Proof. unfold bc2. destruct n as [|[|n]]; reflexivity. Qed.
Lemma bcast_same s : bcast s s = Ok s.
Proof. induction s as [|n s IH]; [reflexivity|]. cbn [bcast]. rewrite bc2_same. cbn [bind]. now rewrite IH. Qed.
Lemma bcast_nil_r s : bcast s [] = Ok s.
Proof. now destruct s. Qed.
Lemma bcast_nil_l s : bcast [] s = Ok s.
Proof. reflexivity. Qed.
Lemma bcast_pre s t : bcast s (s ++ t) = Ok (s ++ t).
Proof. induction s as [|n s IH]; [reflexivity|]. cbn [bcast app]. rewrite bc2_same. cbn [bind]. now rewrite IH. Qed.
Lemma bcast_pre_r s t : bcast (s ++ t) s = Ok (s ++ t).
Proof.
  induction s as [|n s IH]; cbn [app]; [apply bcast_nil_r|]. cbn [bcast]. rewrite bc2_same. cbn [bind]. now rewrite IH.
Qed.
Lemma seqb_refl s : seqb s s = true.
Proof. induction s as [|n s IH]; [reflexivity|]. cbn [seqb]. now rewrite Nat.eqb_refl. Qed.
Lemma valid_nat n k : (k < n)%nat -> valid n (Z.of_nat k) = true.
Proof. intros H. unfold valid. apply andb_true_intro. split; [apply Z.leb_le|apply Z.ltb_lt]; lia. Qed.
Lemma valid_neg1 n : (0 < n)%nat -> valid n (-1) = true.
Proof. intros H. unfold valid. apply andb_true_intro. split; [apply Z.leb_le|apply Z.ltb_lt]; lia. Qed.
Lemma valid_true n i : index_of n i -> valid n i = true.
Proof. unfold index_of. intros H. unfold valid. apply andb_true_intro. split; [apply Z.leb_le|apply Z.ltb_lt]; lia. Qed.
Lemma valid_false n i : ~ index_of n i -> valid n i = false.
Proof.
  unfold index_of. intros H. unfold valid. destruct (Z.leb_spec (- Z.of_nat n) i); destruct (Z.ltb_spec i (Z.of_nat n)); cbn; auto; lia.
Qed.
Lemma min_sub0 n k : (k <= n)%nat -> (Nat.min n k - Nat.min n 0 = k)%nat.
Proof. lia. Qed.
Lemma valid_10 : valid 1 0 = true. Proof. reflexivity. Qed.
Lemma valid_20 : valid 2 0 = true. Proof. reflexivity. Qed.
Lemma valid_21 : valid 2 1 = true. Proof. reflexivity. Qed.
#[export] Hint Rewrite valid_10 valid_20 valid_21 bc2_same bc2_1l bc2_1r bcast_same bcast_nil_r bcast_nil_l seqb_refl Nat.eqb_refl : shp.

Arguments bc2 : simpl never.
Arguments valid : simpl never.
Arguments Nat.min : simpl never.
Arguments Nat.sub : simpl never.
Arguments Nat.add : simpl never.
Arguments Nat.mul : simpl never.
Arguments Nat.ltb : simpl never.
Arguments Z.of_nat : simpl never.
Arguments Z.add : simpl never.
Arguments Z.sub : simpl never.

Ltac op := unfold expand_to, size, set, del, ins, select, pick, slice_to, slice, slice_from, slice_last, unsq, transpose,
  moveaxis, permute_213, reduce_keep, reduce, amax_keep, diagonal, cat2, stack2, matmul, square, is_vector_rhs, solve,
  inv, eigh_torch, reshape, reshape_m1, pad_left, einsum, unpack3, new_size, hermite, entry.
Ltac sh := op; repeat (progress (cbn; autorewrite with shp)).
Ltac shw H := op; repeat (progress (cbn; autorewrite with shp; rewrite ?H)).

(* loops that keep the state *)
Lemma loop_from_const A (body : Z -> A -> result A) (a : A) n : forall i,
  (forall j, (i <= j < i + n)%nat -> body (Z.of_nat j) a = Ok a) -> loop_from body i n a = Ok a.
Proof.
  induction n as [|n IH]; intros i H; [reflexivity|]. cbn [loop_from]. rewrite H by lia. cbn [bind].
  apply IH. intros j Hj. apply H. lia.
Qed.
Lemma for_range_const A (body : Z -> A -> result A) (a : A) n :
  (forall j, (j < n)%nat -> body (Z.of_nat j) a = Ok a) -> for_range body n a = Ok a.
Proof. intros H. apply loop_from_const. intros j Hj. apply H. lia. Qed.

(* ---- linalg.py *)
Lemma len_S (B : shape) : Nat.eqb (List.length B) (S (List.length B)) = false.
Proof. apply Nat.eqb_neq. lia. Qed.
Lemma len_more (B T : shape) : Nat.eqb (List.length B) (S (List.length (B ++ T))) = false.
Proof. apply Nat.eqb_neq. rewrite app_length. lia. Qed.
Lemma solve_general_mat n k B : solve_loaded_general (n :: n :: B) (k :: n :: B) = Ok (k :: n :: B).
Proof.
  unfold solve_loaded_general. sh. unfold solve. sh. unfold is_vector_rhs. sh.
  rewrite len_S. sh. reflexivity.
Qed.
Lemma solve_general_vec1 n k B : solve_loaded_general (n :: n :: B) [k; n] = Ok (k :: n :: B).
Proof.
  unfold solve_loaded_general. sh. unfold solve. sh. unfold is_vector_rhs. sh.
  rewrite len_S. sh. reflexivity.
Qed.
Lemma solve_general_more n k B T : solve_loaded_general (n :: n :: B) (k :: n :: B ++ T) = Ok (k :: n :: B ++ T).
Proof.
  unfold solve_loaded_general. sh. rewrite bcast_pre_r. sh. rewrite bcast_pre. sh.
  unfold solve. sh. unfold is_vector_rhs. sh.
  rewrite len_more.   sh. rewrite bcast_pre. reflexivity.
Qed.
Lemma solve_loaded_mat n k B : (0 < n)%nat -> solve_loaded (n :: n :: B) (k :: n :: B) = Ok (k :: n :: B).
Proof.
  intros Hn. unfold solve_loaded. destruct n as [|n]; [lia|]. sh. unfold solve. sh. unfold is_vector_rhs. sh.
  rewrite len_S. sh. reflexivity.
Qed.
Lemma solve_loaded_vec n B : (0 < n)%nat -> solve_loaded (n :: n :: B) (n :: B) = Ok (n :: B).
Proof.
  intros Hn. unfold solve_loaded. destruct n as [|n]; [lia|]. sh. unfold solve. sh. unfold is_vector_rhs. sh.
  rewrite orb_true_r. sh. reflexivity.
Qed.

(* ---- t_iss.py; B is the batch shape, last dimension first *)
Section Tiss.
Variables (B : shape) (C F N S T : nat).
Lemma derev_ok : demix_derev (N :: F :: C :: B) (N :: T :: F :: C :: B) (C :: F :: S :: B) (T :: C :: F :: S :: B)
  = Ok (N :: F :: S :: B).
Proof. unfold demix_derev. sh. reflexivity. Qed.
Lemma iss1_ok j : (j < S)%nat -> iss1 (Z.of_nat j) (N :: F :: S :: B) (N :: F :: S :: B) = Ok (F :: S :: B).
Proof. intros H. unfold iss1. shw (valid_nat H). reflexivity. Qed.
Lemma iss23_ok : iss23 (N :: F :: S :: B) (N :: F :: B) (N :: F :: S :: B) = Ok (F :: S :: B).
Proof. unfold iss23. sh. reflexivity. Qed.
Lemma src_step_ok j : (j < S)%nat ->
  src_step (N :: F :: S :: B) (Z.of_nat j) (N :: F :: S :: B, C :: F :: S :: B, T :: C :: F :: S :: B)
  = Ok (N :: F :: S :: B, C :: F :: S :: B, T :: C :: F :: S :: B).
Proof. intros H. unfold src_step. rewrite (iss1_ok H). shw (valid_nat H). reflexivity. Qed.
Lemma bak_step_ok j : (S <= C)%nat -> (j < C - S)%nat ->
  bak_step (N :: F :: S :: B) (N :: F :: (C - S) :: B) (S :: F :: (C - S) :: B) S (Z.of_nat j)
    (N :: F :: S :: B, C :: F :: S :: B) = Ok (N :: F :: S :: B, C :: F :: S :: B).
Proof.
  intros H1 H2. unfold bak_step. op. cbn -[iss23]. rewrite (valid_nat H2). cbn -[iss23]. rewrite iss23_ok.
  assert (H3 : valid C (Z.of_nat S + Z.of_nat j) = true) by (apply valid_true; unfold index_of; lia).
  repeat (progress (cbn; autorewrite with shp; rewrite ?(min_sub0 H1), ?(valid_nat H2), ?H3)). reflexivity.
Qed.
Lemma tap_step_ok i j : (i < C)%nat -> (j < T)%nat ->
  tap_step (N :: F :: S :: B) (N :: T :: F :: C :: B) (Z.of_nat i) (Z.of_nat j) (N :: F :: S :: B, T :: C :: F :: S :: B)
  = Ok (N :: F :: S :: B, T :: C :: F :: S :: B).
Proof.
  intros Hi Hj. unfold tap_step. op. cbn -[iss23]. rewrite (valid_nat Hj). cbn -[iss23]. rewrite (valid_nat Hi).
  cbn -[iss23]. rewrite iss23_ok.
  repeat (progress (cbn; autorewrite with shp; rewrite ?(valid_nat Hj), ?(valid_nat Hi))). reflexivity.
Qed.
Definition bak_parts := if Nat.ltb S C then (Some (N :: F :: (C - S) :: B), Some (S :: F :: (C - S) :: B)) else (None, None).
Lemma iss_updates_ok : (S <= C)%nat ->
  iss_updates_with_H (N :: F :: S :: B) (N :: T :: F :: C :: B) (C :: F :: S :: B) (T :: C :: F :: S :: B) (N :: F :: S :: B)
    (fst bak_parts) (snd bak_parts) = Ok (N :: F :: S :: B, C :: F :: S :: B, T :: C :: F :: S :: B).
Proof.
  intros H. unfold iss_updates_with_H.
  assert (E1 : @for_range (shape * shape * shape) (src_step (N :: F :: S :: B)) S (N :: F :: S :: B, C :: F :: S :: B, T :: C :: F :: S :: B)
               = Ok (N :: F :: S :: B, C :: F :: S :: B, T :: C :: F :: S :: B)).
  { apply for_range_const. intros j Hj. now apply src_step_ok. }
  assert (E3 : @for_range (shape * shape) (fun src => for_range (tap_step (N :: F :: S :: B) (N :: T :: F :: C :: B) src) T) C
                 (N :: F :: S :: B, T :: C :: F :: S :: B) = Ok (N :: F :: S :: B, T :: C :: F :: S :: B)).
  { apply for_range_const. intros i Hi. apply for_range_const. intros j Hj. now apply tap_step_ok. }
  unfold bak_parts. destruct (Nat.ltb_spec S C) as [L|L]; cbn [fst snd].
  - assert (E2 : @for_range (shape * shape) (bak_step (N :: F :: S :: B) (N :: F :: (C - S)%nat :: B) (S :: F :: (C - S)%nat :: B) S) (C - S)
                   (N :: F :: S :: B, C :: F :: S :: B) = Ok (N :: F :: S :: B, C :: F :: S :: B)).
    { apply for_range_const. intros j Hj. now apply bak_step_ok. }
    cbn [unpack3 bind size nth_error]. replace (S + (C - S))%nat with C by lia.
    rewrite E1. cbn [bind]. rewrite E2. cbn [bind]. rewrite E3. reflexivity.
  - assert (S = C) by lia. subst C.
    cbn [unpack3 bind size nth_error]. rewrite E1. cbn [bind]. rewrite E3. reflexivity.
Qed.
Lemma background_update_ok : (S <= C)%nat ->
  background_update (C :: F :: S :: B) (T :: C :: F :: S :: B) (C :: F :: C :: B) (C :: F :: T :: C :: B)
  = Ok (S :: F :: (C - S) :: B).
Proof.
  intros H. unfold background_update. op.
  repeat (progress (cbn; autorewrite with shp; rewrite ?(min_sub0 H), ?len_S)). reflexivity.
Qed.
Lemma demix_background_ok : (S <= C)%nat -> demix_background (N :: F :: C :: B) (snd bak_parts) = Ok (fst bak_parts).
Proof.
  intros H. unfold demix_background, bak_parts. destruct (Nat.ltb_spec S C) as [L|L]; [|reflexivity]. cbn [fst snd]. op.
  repeat (progress (cbn; autorewrite with shp; rewrite ?(min_sub0 H))). reflexivity.
Qed.
Definition cov_parts : option (shape * shape) :=
  if Nat.ltb S C then Some (C :: F :: C :: B, C :: F :: T :: C :: B) else None.

Section Model.
Variable St : Type.
Variable model : St -> shape -> result (shape * St).
Lemma one_iter_ok m m' : (S <= C)%nat -> model m (N :: F :: S :: B) = Ok (N :: F :: S :: B, m') ->
  one_iter model (N :: F :: C :: B) (N :: T :: F :: C :: B) cov_parts
    (N :: F :: S :: B, C :: F :: S :: B, T :: C :: F :: S :: B, snd bak_parts, m)
  = Ok (N :: F :: S :: B, C :: F :: S :: B, T :: C :: F :: S :: B, snd bak_parts, m').
Proof.
  intros H Hm. unfold one_iter. rewrite Hm. op.
  repeat (progress (cbn -[iss_updates_with_H background_update demix_background bak_parts cov_parts]; autorewrite with shp)).
  assert (EJ : match snd bak_parts with
    | Some _ => match cov_parts with
      | Some (C_XX, C_XbarX) => let* J := background_update (C :: F :: S :: B) (T :: C :: F :: S :: B) C_XX C_XbarX in Ok (Some J)
      | None => raise TypeError end
    | None => Ok None end = Ok (snd bak_parts)).
  { unfold cov_parts, bak_parts. destruct (Nat.ltb_spec S C) as [L|L]; [|reflexivity]. cbn [fst snd].
    rewrite background_update_ok by assumption. reflexivity. }
  rewrite EJ. cbn [bind]. rewrite demix_background_ok by assumption. cbn [bind].
  rewrite iss_updates_ok by assumption. reflexivity.
Qed.
Lemma tiss_loop_ok dmc n : (S <= C)%nat -> forall i m, keeps_shape model (N :: F :: S :: B) n m ->
  exists m', loop_from (fun _ : Z => if (dmc : bool) then one_iter_dmc model (N :: F :: C :: B) (N :: T :: F :: C :: B) cov_parts
                   else one_iter model (N :: F :: C :: B) (N :: T :: F :: C :: B) cov_parts) i n
    (N :: F :: S :: B, C :: F :: S :: B, T :: C :: F :: S :: B, snd bak_parts, m)
  = Ok (N :: F :: S :: B, C :: F :: S :: B, T :: C :: F :: S :: B, snd bak_parts, m').
Proof.
  intros H. induction n as [|n IH]; intros i m Hk; [now exists m|]. destruct Hk as (m1 & E1 & Hk).
  destruct (IH (Datatypes.S i) m1 Hk) as (m2 & E2). exists m2. cbn [loop_from]. destruct dmc.
  - unfold one_iter_dmc at 1. rewrite derev_ok. cbn [bind]. rewrite (one_iter_ok H E1). cbn [bind]. exact E2.
  - rewrite (one_iter_ok H E1). cbn [bind]. exact E2.
Qed.
End Model.

Lemma pb_det r : S = C -> index_of C r -> projection_back_weights (C :: F :: S :: B) None r = Ok (1 :: F :: S :: B).
Proof.
  intros E Hr. subst S. unfold projection_back_weights. op. cbn [bind]. rewrite Nat.ltb_irrefl.
  repeat (progress (cbn -[solve_loaded_general]; rewrite ?(valid_true Hr))).
  rewrite solve_general_vec1. reflexivity.
Qed.
Lemma pb_det_bad r : S = C -> ~ index_of C r -> projection_back_weights (C :: F :: S :: B) None r = Err IndexError.
Proof.
  intros E Hr. subst S. unfold projection_back_weights. op. cbn [bind]. rewrite Nat.ltb_irrefl.
  repeat (progress (cbn -[solve_loaded_general]; rewrite ?(valid_false Hr))). reflexivity.
Qed.
Local Notation J := (Some (S :: F :: (C - S)%nat :: B)).
Ltac pbo L := unfold projection_back_weights; op; cbn [bind]; rewrite (proj2 (Nat.ltb_lt S C) L);
  repeat (progress (cbn -[solve_loaded_general Z.ltb]; autorewrite with shp; rewrite ?(min_sub0 (Nat.lt_le_incl _ _ L)))).
Lemma pb_over r : (S < C)%nat -> index_of S r -> projection_back_weights (C :: F :: S :: B) J r = Ok (1 :: F :: S :: B).
Proof.
  intros L Hr. pbo L. rewrite (proj2 (Z.ltb_lt r (Z.of_nat S)) (proj2 Hr)).
  repeat (progress (cbn -[solve_loaded_general]; rewrite ?(valid_true Hr); autorewrite with shp)).
  rewrite solve_general_vec1. reflexivity.
Qed.
Lemma pb_over_low r : (S < C)%nat -> (r < - Z.of_nat S)%Z -> projection_back_weights (C :: F :: S :: B) J r = Err IndexError.
Proof.
  intros L Hr. pbo L.
  assert (r < Z.of_nat S)%Z as Hs by lia. rewrite (proj2 (Z.ltb_lt r (Z.of_nat S)) Hs).
  assert (V : valid S r = false) by (apply valid_false; unfold index_of; lia).
  repeat (progress (cbn -[solve_loaded_general]; rewrite ?V)). reflexivity.
Qed.
Lemma pb_over_high r : (S < C)%nat -> (Z.of_nat C <= r)%Z -> projection_back_weights (C :: F :: S :: B) J r = Err IndexError.
Proof.
  intros L Hr. pbo L. rewrite (proj2 (Z.ltb_ge r (Z.of_nat S))) by lia.
  assert (V : valid (C - S) (r - Z.of_nat S) = false) by (apply valid_false; unfold index_of; lia).
  repeat (progress (cbn -[solve_loaded_general]; rewrite ?V)). reflexivity.
Qed.
Lemma pb_over_mid r : (S < C)%nat -> (Z.of_nat S <= r < Z.of_nat C)%Z ->
  projection_back_weights (C :: F :: S :: B) J r
  = match B with [] => Ok [1; F; S] | _ => Err RuntimeError end.
Proof.
  intros L Hr. pbo L. rewrite (proj2 (Z.ltb_ge r (Z.of_nat S))) by lia.
  assert (V : valid (C - S) (r - Z.of_nat S) = true) by (apply valid_true; unfold index_of; lia).
  repeat (progress (cbn -[solve_loaded_general]; rewrite ?V)).
  destruct B as [|b B']; [|reflexivity].
  repeat (progress (cbn -[solve_loaded_general]; autorewrite with shp)).
  rewrite (solve_general_mat S 1 [F]). reflexivity.
Qed.

Section Forward.
Variable St : Type.
Variable model : St -> shape -> result (shape * St).
Definition finish (pb : option Z) (n_iter : nat) : result shape :=
  match pb with
  | Some ref => if Nat.ltb 0 n_iter then let* a := projection_back_weights (C :: F :: S :: B) (snd bak_parts) ref in
                  bcast a (N :: F :: S :: B) else Ok (N :: F :: S :: B)
  | None => Ok (N :: F :: S :: B)
  end.
End Forward.
End Tiss.

Lemma tiss_forward_eq B C F N S T delay St (model : St -> shape -> result (shape * St)) n_iter pb dmc m0 : (S <= C)%nat ->
  keeps_shape model (N :: F :: S :: B) n_iter m0 ->
  tiss_forward model n_iter T delay (Some (Z.of_nat S)) pb dmc m0 (N :: F :: C :: B) = finish B C F N S pb n_iter.
Proof.
  intros H Hk. unfold tiss_forward. cbn [unpack3 bind skipn].
  rewrite (proj2 (Z.ltb_ge (Z.of_nat C) (Z.of_nat S))) by lia. cbn [bind].
  assert (Eo : Z.ltb (Z.of_nat S) (Z.of_nat C) = Nat.ltb S C).
  { destruct (Nat.ltb_spec S C); [apply Z.ltb_lt|apply Z.ltb_ge]; lia. }
  rewrite Eo. unfold pad_left, hankel_view, slice_last. op. cbn -[einsum demix_derev background_update Z.to_nat].
  replace (Nat.ltb (T + delay + N + 1) (T + delay + 1)) with false by (symmetry; apply Nat.ltb_ge; lia).
  cbn -[einsum demix_derev background_update Z.to_nat].
  replace (T + delay + N + 1 - (T + delay + 1))%nat with N by lia.
  replace (T + delay + 1 - (delay + 1))%nat with T by lia.
  rewrite (proj2 (Z.ltb_ge (Z.of_nat S) 0)) by lia. rewrite Nat2Z.id.
  repeat (progress (cbn -[demix_derev background_update]; autorewrite with shp)).
  replace (if Nat.ltb S C then Ok (Some (C :: F :: C :: B, C :: F :: T :: C :: B)) else Ok None)
    with (Ok (cov_parts B C F S T)) by (unfold cov_parts; now destruct (Nat.ltb S C)).
  cbn [bind].
  assert (EJ : match cov_parts B C F S T with
     | Some (C_XX, C_XbarX) => let* J := background_update (C :: F :: S :: B) (T :: C :: F :: S :: B) C_XX C_XbarX in Ok (Some J)
     | None => Ok None end = Ok (snd (bak_parts B C F N S))).
  { unfold cov_parts, bak_parts. destruct (Nat.ltb S C); [|reflexivity]. rewrite background_update_ok by assumption. reflexivity. }
  rewrite EJ. cbn [bind]. rewrite derev_ok. cbn [bind].
  destruct (tiss_loop_ok B F N T model dmc n_iter H 0 m0 Hk) as (m' & E). unfold for_range. rewrite E. cbn [bind].
  rewrite derev_ok. destruct dmc; reflexivity.
Qed.
Lemma tiss_default B C F N T delay St (model : St -> shape -> result (shape * St)) n_iter pb dmc m0 :
  tiss_forward model n_iter T delay None pb dmc m0 (N :: F :: C :: B)
  = tiss_forward model n_iter T delay (Some (Z.of_nat C)) pb dmc m0 (N :: F :: C :: B).
Proof. unfold tiss_forward. cbn [unpack3 bind]. rewrite !Z.ltb_irrefl. cbn [bind]. rewrite !Z.ltb_irrefl. reflexivity. Qed.
Lemma tiss_too_many B C F N T delay St (model : St -> shape -> result (shape * St)) n_iter s pb dmc m0 :
  (Z.of_nat C < s)%Z -> tiss_forward model n_iter T delay (Some s) pb dmc m0 (N :: F :: C :: B) = Err ValueError.
Proof. intros H. unfold tiss_forward. cbn [unpack3 bind]. now rewrite (proj2 (Z.ltb_lt _ _) H). Qed.
Lemma tiss_negative B C F N T delay St (model : St -> shape -> result (shape * St)) n_iter s pb dmc m0 :
  (s < 0)%Z -> exists e, tiss_forward model n_iter T delay (Some s) pb dmc m0 (N :: F :: C :: B) = Err e.
Proof.
  intros H. unfold tiss_forward. cbn [unpack3 bind]. rewrite (proj2 (Z.ltb_ge (Z.of_nat C) s)) by lia. cbn [bind].
  rewrite (proj2 (Z.ltb_lt s (Z.of_nat C))) by lia.
  unfold pad_left, hankel_view, slice_last. op. rewrite (proj2 (Z.ltb_lt s 0)) by lia. cbn.
  destruct (Nat.ltb (T + delay + N + 1) (T + delay + 1)); cbn; [eexists; reflexivity|].
  autorewrite with shp. cbn. autorewrite with shp.
  repeat match goal with |- exists e, bind ?x _ = _ => destruct x as [?|?]; cbn; [|eexists; reflexivity] end.
  eexists; reflexivity.
Qed.
Lemma finish_ok B C F N S pb n_iter : (S <= C)%nat ->
  match pb with
  | None => True
  | Some r => n_iter = 0%nat \/ (S = C /\ index_of C r) \/ (S < C /\ index_of S r)%nat
              \/ ((S < C)%nat /\ (Z.of_nat S <= r < Z.of_nat C)%Z /\ B = [])
  end -> finish B C F N S pb n_iter = Ok (N :: F :: S :: B).
Proof.
  intros H Hpb. unfold finish. destruct pb as [r|]; [|reflexivity].
  destruct (Nat.ltb_spec 0 n_iter) as [Hn|Hn]; [|reflexivity].
  destruct Hpb as [Hpb|[[E Hr]|[[L Hr]|(L & Hr & E)]]]; [lia| | |].
  - subst S. unfold bak_parts. rewrite Nat.ltb_irrefl. cbn [snd]. rewrite (pb_det _ _ eq_refl Hr). sh. reflexivity.
  - unfold bak_parts. rewrite (proj2 (Nat.ltb_lt S C) L). cbn [snd]. rewrite (pb_over _ _ L Hr). sh. reflexivity.
  - subst B. unfold bak_parts. rewrite (proj2 (Nat.ltb_lt S C) L). cbn [snd]. rewrite (pb_over_mid _ _ L Hr). sh. reflexivity.
Qed.
Lemma finish_mid B C F N S r n_iter : (0 < n_iter)%nat -> (S < C)%nat -> (Z.of_nat S <= r < Z.of_nat C)%Z -> B <> [] ->
  finish B C F N S (Some r) n_iter = Err RuntimeError.
Proof.
  intros Hn L Hr HB. unfold finish. rewrite (proj2 (Nat.ltb_lt 0 n_iter) Hn). unfold bak_parts.
  rewrite (proj2 (Nat.ltb_lt S C) L). cbn [snd]. rewrite (pb_over_mid _ _ L Hr). destruct B; [now destruct HB|reflexivity].
Qed.
Lemma finish_bad B C F N S r n_iter : (0 < n_iter)%nat -> (S <= C)%nat ->
  (S = C /\ ~ index_of C r) \/ (S < C)%nat /\ ((r < - Z.of_nat S)%Z \/ (Z.of_nat C <= r)%Z) ->
  finish B C F N S (Some r) n_iter = Err IndexError.
Proof.
  intros Hn H Hr. unfold finish. rewrite (proj2 (Nat.ltb_lt 0 n_iter) Hn). unfold bak_parts.
  destruct Hr as [[E Hr]|[L [Hr|Hr]]].
  - subst S. rewrite Nat.ltb_irrefl. cbn [snd]. now rewrite (pb_det_bad _ _ eq_refl Hr).
  - rewrite (proj2 (Nat.ltb_lt S C) L). cbn [snd]. now rewrite (pb_over_low _ _ L Hr).
  - rewrite (proj2 (Nat.ltb_lt S C) L). cbn [snd]. now rewrite (pb_over_high _ _ L Hr).
Qed.

(* ---- auxiva_ip.py *)
Section Ip.
Variables (B : shape) (C F N S : nat).
Local Notation W := (C :: S :: F :: B).
Definition ipJ : option shape := if Nat.eqb S C then None else Some (S :: (C - S)%nat :: F :: B).
Lemma orth_ok : (S <= C)%nat -> orthogonal_constraint W (C :: C :: F :: B) = Ok ipJ.
Proof.
  intros H. unfold orthogonal_constraint, ipJ. op. cbn [nth_error bind]. destruct (Nat.eqb_spec S C) as [E|E]; [reflexivity|].
  rewrite (proj2 (Nat.ltb_ge C S) H).
  repeat (progress (cbn -[solve_loaded_general]; autorewrite with shp; rewrite ?(min_sub0 H))).
  rewrite solve_general_mat. reflexivity.
Qed.
Lemma orth_bad : (C < S)%nat -> orthogonal_constraint W (C :: C :: F :: B) = Err ValueError.
Proof.
  intros H. unfold orthogonal_constraint. op. cbn [nth_error bind]. destruct (Nat.eqb_spec S C) as [E|E]; [lia|].
  now rewrite (proj2 (Nat.ltb_lt C S) H).
Qed.
Lemma ip_source_ok j J0 : (S <= C)%nat -> (j < S)%nat ->
  ip_source (N :: F :: C :: B) (N :: F :: S :: B) (C :: C :: F :: B) (C :: C :: F :: B) S (Z.of_nat j) (W, J0) = Ok (W, ipJ).
Proof.
  intros H Hj. unfold ip_source. rewrite orth_ok by assumption. op.
  assert (Hj' : (j < C)%nat) by lia. rewrite Nat2Z.id.
  cbn -[solve_loaded_general ipJ]. rewrite (valid_nat Hj).
  repeat (progress (cbn -[solve_loaded_general ipJ]; autorewrite with shp; rewrite ?(valid_nat Hj'))).
  unfold ipJ. destruct (Nat.eqb_spec S C) as [E|E].
  - subst S. cbn -[solve_loaded_general]. rewrite solve_general_mat.
    repeat (progress (cbn; autorewrite with shp)).
    replace (Nat.min C j - Nat.min C 0 + 1 + (Nat.min C C - Nat.min C (j + 1)))%nat with C by lia. reflexivity.
  - repeat (progress (cbn -[solve_loaded_general]; autorewrite with shp; rewrite ?(min_sub0 H))).
    replace (S + (C - S))%nat with C by lia. rewrite solve_general_mat.
    repeat (progress (cbn; autorewrite with shp)).
    replace (Nat.min S j - Nat.min S 0 + 1 + (Nat.min S S - Nat.min S (j + 1)))%nat with S by lia. reflexivity.
Qed.
Lemma ip_sources_ok n : forall i, (S <= C)%nat -> (i + n <= S)%nat ->
  loop_from (ip_source (N :: F :: C :: B) (N :: F :: S :: B) (C :: C :: F :: B) (C :: C :: F :: B) S) i n (W, ipJ) = Ok (W, ipJ).
Proof.
  intros i H Hn. apply loop_from_const. intros j Hj. apply ip_source_ok; lia.
Qed.
Section Model.
Variable St : Type.
Variable model : St -> shape -> result (shape * St).
Lemma ip_iter_ok m m' : (S <= C)%nat -> model m (N :: F :: S :: B) = Ok (N :: F :: S :: B, m') ->
  ip_iter model (N :: F :: C :: B) (C :: C :: F :: B) (C :: C :: F :: B) S (N :: F :: S :: B, W, ipJ, m)
  = Ok (N :: F :: S :: B, W, ipJ, m').
Proof.
  intros H Hm. unfold ip_iter. rewrite Hm. op.
  repeat (progress (cbn -[for_range ip_source ipJ]; autorewrite with shp)).
  unfold for_range. rewrite ip_sources_ok by lia. repeat (progress (cbn; autorewrite with shp)). reflexivity.
Qed.
Lemma ip_loop_ok n : (S <= C)%nat -> forall i m, keeps_shape model (N :: F :: S :: B) n m ->
  exists m', loop_from (fun _ : Z => ip_iter model (N :: F :: C :: B) (C :: C :: F :: B) (C :: C :: F :: B) S) i n
    (N :: F :: S :: B, W, ipJ, m) = Ok (N :: F :: S :: B, W, ipJ, m').
Proof.
  intros H. induction n as [|n IH]; intros i m Hk; [now exists m|]. destruct Hk as (m1 & E1 & Hk).
  destruct (IH (Datatypes.S i) m1 Hk) as (m2 & E2). exists m2. cbn [loop_from].
  rewrite (ip_iter_ok H E1). cbn [bind]. exact E2.
Qed.
Definition ip_finish (pb : option Z) : result shape :=
  match pb with
  | Some ref => projection_back_from_demixing_matrix (N :: F :: S :: B) W ipJ ref
  | None => Ok (N :: F :: S :: B)
  end.
Lemma ip_forward_eq n_iter pb m0 : (S <= C)%nat -> keeps_shape model (N :: F :: S :: B) n_iter m0 ->
  ip_forward model n_iter (Some (Z.of_nat S)) pb m0 (N :: F :: C :: B) = ip_finish pb.
Proof.
  intros H Hk. unfold ip_forward. cbn [unpack3 bind skipn]. unfold new_size.
  rewrite (proj2 (Z.ltb_ge (Z.of_nat S) 0)) by lia. rewrite Nat2Z.id. cbn [bind].
  op. repeat (progress (cbn -[orthogonal_constraint]; autorewrite with shp; rewrite ?(min_sub0 H))).
  rewrite orth_ok by assumption. cbn [bind].
  destruct (ip_loop_ok n_iter H 0 m0 Hk) as (m' & E). unfold for_range. rewrite E. cbn [bind]. reflexivity.
Qed.
Lemma ip_forward_many n_iter pb m0 s : (Z.of_nat C < s)%Z ->
  ip_forward model n_iter (Some s) pb m0 (N :: F :: C :: B) = Err ValueError.
Proof.
  intros H. unfold ip_forward. cbn [unpack3 bind skipn]. unfold new_size.
  rewrite (proj2 (Z.ltb_ge s 0)) by lia. cbn [bind].
  op. repeat (progress (cbn -[orthogonal_constraint]; autorewrite with shp)).
  assert (L : (C < Z.to_nat s)%nat) by lia.
  unfold orthogonal_constraint. op. cbn [nth_error bind]. destruct (Nat.eqb_spec (Z.to_nat s) C) as [E|E]; [lia|].
  now rewrite (proj2 (Nat.ltb_lt C (Z.to_nat s)) L).
Qed.
Lemma ip_forward_negative n_iter pb m0 s : (s < 0)%Z ->
  ip_forward model n_iter (Some s) pb m0 (N :: F :: C :: B) = Err RuntimeError.
Proof.
  intros H. unfold ip_forward. cbn [unpack3 bind skipn]. unfold new_size. now rewrite (proj2 (Z.ltb_lt s 0)) by lia.
Qed.
End Model.
Lemma ip_pb_det r : S = C -> index_of C r -> ip_finish (Some r) = Ok (N :: F :: S :: B).
Proof.
  intros E Hr. unfold ip_finish, projection_back_from_demixing_matrix, ipJ. subst S. rewrite Nat.eqb_refl. op.
  repeat (progress (cbn -[solve_loaded_general]; rewrite ?(valid_true Hr); autorewrite with shp)).
  rewrite solve_general_mat. repeat (progress (cbn; autorewrite with shp)). reflexivity.
Qed.
Lemma ip_pb_det_bad r : S = C -> ~ index_of C r -> ip_finish (Some r) = Err IndexError.
Proof.
  intros E Hr. unfold ip_finish, projection_back_from_demixing_matrix, ipJ. subst S. rewrite Nat.eqb_refl. op.
  repeat (progress (cbn -[solve_loaded_general]; rewrite ?(valid_false Hr); autorewrite with shp)). reflexivity.
Qed.
Ltac ipo L := unfold ip_finish, projection_back_from_demixing_matrix, ipJ;
  rewrite (proj2 (Nat.eqb_neq S C) (Nat.lt_neq _ _ L)); op;
  repeat (progress (cbn -[solve_loaded_general Z.ltb bcast]; autorewrite with shp; rewrite ?(min_sub0 (Nat.lt_le_incl _ _ L)), ?(min_sub0 (le_n S)))).
Lemma ip_pb_over r : (S < C)%nat -> index_of S r -> ip_finish (Some r) = Ok (N :: F :: S :: B).
Proof.
  intros L Hr. ipo L. rewrite (proj2 (Z.ltb_lt r (Z.of_nat S)) (proj2 Hr)).
  repeat (progress (cbn -[solve_loaded_general]; rewrite ?(valid_true Hr); autorewrite with shp)).
  rewrite solve_general_mat. repeat (progress (cbn; autorewrite with shp)). reflexivity.
Qed.
Lemma ip_pb_low r : (S < C)%nat -> (r < - Z.of_nat S)%Z -> ip_finish (Some r) = Err IndexError.
Proof.
  intros L Hr. ipo L. rewrite (proj2 (Z.ltb_lt r (Z.of_nat S))) by lia.
  assert (V : valid S r = false) by (apply valid_false; unfold index_of; lia).
  repeat (progress (cbn -[solve_loaded_general]; rewrite ?V)). reflexivity.
Qed.
Lemma ip_pb_high r : (S < C)%nat -> (Z.of_nat C <= r)%Z -> ip_finish (Some r) = Err IndexError.
Proof.
  intros L Hr. ipo L. rewrite (proj2 (Z.ltb_ge r (Z.of_nat S))) by lia.
  assert (V : valid (C - S) (r - Z.of_nat S) = false) by (apply valid_false; unfold index_of; lia).
  repeat (progress (cbn -[solve_loaded_general]; rewrite ?V)). reflexivity.
Qed.
Lemma ip_pb_mid r : (S < C)%nat -> (Z.of_nat S <= r < Z.of_nat C)%Z -> ip_finish (Some r) = Ok (N :: F :: S :: B ++ F :: B).
Proof.
  intros L Hr. ipo L. rewrite (proj2 (Z.ltb_ge r (Z.of_nat S))) by lia.
  assert (V : valid (C - S) (r - Z.of_nat S) = true) by (apply valid_true; unfold index_of; lia).
  repeat (progress (cbn -[solve_loaded_general]; rewrite ?V; autorewrite with shp)).
  rewrite bcast_pre. repeat (progress (cbn -[solve_loaded_general]; autorewrite with shp)).
  pose proof (solve_general_more S 1 (F :: B) (F :: B)) as E. cbn [app] in E. rewrite E.
  repeat (progress (cbn; autorewrite with shp)). rewrite bcast_pre. reflexivity.
Qed.
End Ip.

(* ---- eigendecompositions *)
Lemma eigh_2x2_ok B : eigh_2x2 (2 :: 2 :: B) None = Ok (2 :: B, 2 :: 2 :: B).
Proof. unfold eigh_2x2. sh. reflexivity. Qed.
Lemma geigh_2x2_ok B : eigh_2x2 (2 :: 2 :: B) (Some (2 :: 2 :: B)) = Ok (2 :: B, 2 :: 2 :: B).
Proof. unfold eigh_2x2. sh. reflexivity. Qed.
Lemma eigh_ok n B : eigh (n :: n :: B) None = Ok (n :: B, n :: n :: B).
Proof.
  unfold eigh. cbn [size nth_error bind]. destruct (Nat.eqb_spec n 2) as [E|E]; [subst; apply eigh_2x2_ok|]. sh. reflexivity.
Qed.
Lemma geigh_ok n B : eigh (n :: n :: B) (Some (n :: n :: B)) = Ok (n :: B, n :: n :: B).
Proof.
  unfold eigh. cbn [size nth_error bind]. destruct (Nat.eqb_spec n 2) as [E|E]; [subst; apply geigh_2x2_ok|]. sh. reflexivity.
Qed.
Lemma inv_2x2_ok n B : inv_2x2 (2 :: 2 :: n :: B) = Ok (2 :: 2 :: n :: B).
Proof. unfold inv_2x2. sh. reflexivity. Qed.

(* ---- auxiva_ip2.py *)
Section Ip2.
Variables (B : shape) (F N : nat).
Lemma ip2_update_ok WA : spatial_model_update_ip2 (N :: F :: 2 :: B) (N :: F :: 2 :: B) WA
  = Ok (N :: F :: 2 :: B, match WA with Some _ => Some (2 :: 2 :: F :: B, 2 :: 2 :: F :: B) | None => None end).
Proof.
  unfold spatial_model_update_ip2. op. repeat (progress (cbn -[eigh_2x2 inv_2x2]; autorewrite with shp)).
  rewrite geigh_2x2_ok. repeat (progress (cbn -[inv_2x2]; autorewrite with shp)). rewrite inv_2x2_ok.
  destruct WA; repeat (progress (cbn; autorewrite with shp)); reflexivity.
Qed.
Variable St : Type.
Variable model : St -> shape -> result (shape * St).
Lemma ip2_loop_ok (b : bool) n : forall i m, keeps_shape model (N :: F :: 2 :: B) n m ->
  exists m', loop_from (fun _ : Z => ip2_iter model (N :: F :: 2 :: B)) i n
    (N :: F :: 2 :: B, if b then Some (2 :: 2 :: F :: B, 2 :: 2 :: F :: B) else None, m)
  = Ok (N :: F :: 2 :: B, if b then Some (2 :: 2 :: F :: B, 2 :: 2 :: F :: B) else None, m').
Proof.
  induction n as [|n IH]; intros i m Hk; [now exists m|]. destruct Hk as (m1 & E1 & Hk).
  destruct (IH (S i) m1 Hk) as (m2 & E2). exists m2. cbn [loop_from]. unfold ip2_iter at 1. rewrite E1. op.
  repeat (progress (cbn -[spatial_model_update_ip2 loop_from]; autorewrite with shp)).
  rewrite ip2_update_ok. cbn [bind]. destruct b; exact E2.
Qed.
Lemma ip2_ok n_iter pb m0 : keeps_shape model (N :: F :: 2 :: B) n_iter m0 ->
  match pb with Some r => (0 <= r < 2)%Z | None => True end ->
  ip2_forward model n_iter pb m0 (N :: F :: 2 :: B) = Ok (N :: F :: 2 :: B).
Proof.
  intros Hk Hpb. unfold ip2_forward. cbn [unpack3 bind Nat.eqb negb]. unfold for_range. destruct pb as [r|].
  - rewrite (proj2 (Z.leb_le 0 r)) by lia. rewrite (proj2 (Z.ltb_lt r (Z.of_nat 2))) by lia.
    op. repeat (progress (cbn -[loop_from]; autorewrite with shp)).
    destruct (ip2_loop_ok true n_iter 0 m0 Hk) as (m' & E). rewrite E.
    assert (V : valid 2 r = true) by (apply valid_true; unfold index_of; lia).
    repeat (progress (cbn; autorewrite with shp; rewrite ?V)). now destruct (Nat.ltb 0 n_iter).
  - cbn [bind]. destruct (ip2_loop_ok false n_iter 0 m0 Hk) as (m' & E). rewrite E. reflexivity.
Qed.
Lemma ip2_channels C n_iter pb m0 : C <> 2 -> ip2_forward model n_iter pb m0 (N :: F :: C :: B) = Err AssertionError.
Proof. intros H. unfold ip2_forward. cbn [unpack3 bind]. now rewrite (proj2 (Nat.eqb_neq C 2) H). Qed.
Lemma ip2_mic n_iter r m0 : ~ (0 <= r < 2)%Z -> ip2_forward model n_iter (Some r) m0 (N :: F :: 2 :: B) = Err AssertionError.
Proof.
  intros H. unfold ip2_forward. cbn [unpack3 bind Nat.eqb negb].
  destruct (Z.leb_spec 0 r); destruct (Z.ltb_spec r (Z.of_nat 2)); try reflexivity; lia.
Qed.
End Ip2.

(* ---- five.py *)
Section Five.
Variables (B : shape) (C F N : nat).    (* F: frequencies without DC *)
Hypothesis HC : (0 < C)%nat.
Lemma smallest_eigh_ok : smallest_eigh (C :: C :: F :: B) = Ok (C :: F :: B).
Proof. unfold smallest_eigh. assert (V : valid C 0 = true) by (apply (valid_nat HC)). shw V. reflexivity. Qed.
Lemma inv_loaded_ok n D : (0 < n)%nat -> inv_loaded (n :: n :: D) = Ok (n :: n :: D).
Proof. intros H. destruct n as [|n]; [lia|]. unfold inv_loaded. sh. reflexivity. Qed.
Lemma smallest_power_ok p : smallest_power (C :: C :: F :: B) p
  = if Nat.leb p 1 then Err UnboundLocalError else Ok (C :: F :: B).
Proof.
  assert (V : valid C 0 = true) by (apply (valid_nat HC)).
  unfold smallest_power. op. cbn [negb]. rewrite Nat.eqb_refl. cbn [negb].
  rewrite inv_loaded_ok by assumption. cbn [bind].
  repeat (progress (cbn -[for_range]; autorewrite with shp; rewrite ?V)).
  rewrite for_range_const.
  2:{ intros j Hj. unfold power_step. sh. reflexivity. }
  repeat (progress (cbn; autorewrite with shp; rewrite ?V)). reflexivity.
Qed.
Variable St : Type.
Variable model : St -> shape -> result (shape * St).
Definition good_power (np : option nat) := match np with Some p => (2 <= p)%nat | None => True end.
Lemma five_iter_ok np m m' : good_power np -> model m (N :: F :: B) = Ok (N :: F :: B, m') ->
  five_iter model (N :: F :: C :: B) (C :: F :: B) np (N :: F :: B, m) = Ok (N :: F :: B, m').
Proof.
  intros Hp Hm. unfold five_iter. rewrite Hm. op.
  repeat (progress (cbn -[smallest_eigh smallest_power]; autorewrite with shp)).
  assert (E : match np with None => smallest_eigh (C :: C :: F :: B) | Some p => smallest_power (C :: C :: F :: B) p end
              = Ok (C :: F :: B)).
  { destruct np as [p|]; [|apply smallest_eigh_ok]. rewrite smallest_power_ok. cbn in Hp.
    now rewrite (proj2 (Nat.leb_gt p 1)) by lia. }
  rewrite E. repeat (progress (cbn; autorewrite with shp)). reflexivity.
Qed.
Lemma five_loop_ok np n : good_power np \/ n = 0%nat -> forall i m, keeps_shape model (N :: F :: B) n m ->
  exists m', loop_from (fun _ : Z => five_iter model (N :: F :: C :: B) (C :: F :: B) np) i n (N :: F :: B, m)
    = Ok (N :: F :: B, m').
Proof.
  intros Hp. destruct Hp as [Hp|Hp]; [|subst; intros i m _; now exists m].
  induction n as [|n IH]; intros i m Hk; [now exists m|]. destruct Hk as (m1 & E1 & Hk).
  destruct (IH (S i) m1 Hk) as (m2 & E2). exists m2. cbn [loop_from].
  rewrite (five_iter_ok np Hp E1). cbn [bind]. exact E2.
Qed.
Lemma five_ok n_iter r np m0 : index_of C r -> good_power np \/ n_iter = 0%nat ->
  keeps_shape model (N :: F :: B) n_iter m0 ->
  five_forward model n_iter (Some r) np m0 (N :: S F :: C :: B) = Ok (N :: S F :: 1 :: B).
Proof.
  intros Hr Hp Hk. unfold five_forward. cbn [unpack3 bind]. op. cbn [nth_error bind].
  assert (EF : (S F - 1 = F)%nat) by lia.
  assert (V : valid C 0 = true) by (apply (valid_nat HC)).
  repeat (progress (cbn -[eigh for_range]; autorewrite with shp; rewrite ?EF)). rewrite eigh_ok.
  repeat (progress (cbn -[for_range]; autorewrite with shp; rewrite ?V, ?(valid_true Hr))).
  destruct (five_loop_ok np Hp 0 m0 Hk) as (m' & E). unfold for_range. rewrite E.
  repeat (progress (cbn; autorewrite with shp)). reflexivity.
Qed.
Lemma five_power n_iter r p m0 : (0 < n_iter)%nat -> (p <= 1)%nat -> index_of C r ->
  keeps_shape model (N :: F :: B) n_iter m0 ->
  five_forward model n_iter (Some r) (Some p) m0 (N :: S F :: C :: B) = Err UnboundLocalError.
Proof.
  intros Hn Hp Hr Hk. destruct n_iter as [|n]; [lia|]. destruct Hk as (m1 & E1 & _).
  unfold five_forward. cbn [unpack3 bind]. op. cbn [nth_error bind].
  assert (EF : (S F - 1 = F)%nat) by lia.
  assert (V : valid C 0 = true) by (apply (valid_nat HC)).
  repeat (progress (cbn -[eigh for_range]; autorewrite with shp; rewrite ?EF)). rewrite eigh_ok.
  repeat (progress (cbn -[for_range]; autorewrite with shp; rewrite ?V, ?(valid_true Hr))).
  unfold for_range. cbn [loop_from]. unfold five_iter at 1. rewrite E1. op.
  repeat (progress (cbn -[smallest_power loop_from]; autorewrite with shp)).
  rewrite smallest_power_ok. rewrite (proj2 (Nat.leb_le p 1) Hp). reflexivity.
Qed.
Lemma five_none_zero np m0 :
  five_forward model 0 None np m0 (N :: S F :: C :: B) = Ok (N :: S F :: 1 :: B).
Proof.
  unfold five_forward. cbn [unpack3 bind]. op. cbn [nth_error bind].
  assert (EF : (S F - 1 = F)%nat) by lia.
  assert (V : valid C 0 = true) by (apply (valid_nat HC)).
  repeat (progress (cbn -[eigh for_range]; autorewrite with shp; rewrite ?EF)). rewrite eigh_ok.
  repeat (progress (cbn; autorewrite with shp; rewrite ?V)). reflexivity.
Qed.
End Five.

(* rank of a broadcast and of an einsum *)
Lemma bcast_length a : forall b r, bcast a b = Ok r -> List.length r = Nat.max (List.length a) (List.length b).
Proof.
  induction a as [|x a IH]; intros [|y b] r; cbn [bcast]; intros H.
  - now inversion H.
  - now inversion H.
  - now inversion H.
  - destruct (bc2 x y) as [z|]; [|discriminate]. cbn [bind] in H. destruct (bcast a b) as [t|] eqn:E; [|discriminate].
    inversion H; subst. cbn [List.length]. rewrite (IH _ _ E). lia.
Qed.
Lemma bind_labels_length ls : forall s e e' r, bind_labels ls s e = Ok (e', r) ->
  (List.length ls + List.length r = List.length s)%nat.
Proof.
  induction ls as [|c ls IH]; intros s e e' r H; [cbn in H; inversion H; reflexivity|].
  destruct s as [|n s]; [discriminate|]. cbn [bind_labels] in H.
  destruct (match lookup c e with Some m => bc2 m n | None => Ok n end); [|discriminate].
  cbn [bind] in H. apply IH in H. cbn [List.length]. lia.
Qed.
Lemma bind_operands_length subs : forall ops e ell e' r, bind_operands subs ops e ell = Ok (e', r) ->
  (List.length ell <= List.length r)%nat.
Proof.
  induction subs as [|l subs IH]; intros [|s ops] e ell e' r H; cbn [bind_operands] in H; try discriminate.
  - now inversion H.
  - destruct (bind_labels _ s e) as [[e1 r1]|]; [|discriminate]. cbn [bind] in H.
    destruct (bcast ell r1) as [ell1|] eqn:E; [|discriminate]. cbn [bind] in H. apply IH in H. apply bcast_length in E. lia.
Qed.
Lemma read_labels_length ls : forall e r, read_labels ls e = Ok r -> List.length r = List.length ls.
Proof.
  induction ls as [|c ls IH]; intros e r H; cbn [read_labels] in H; [now inversion H|].
  destruct (lookup c e); [|discriminate]. destruct (read_labels ls e) as [t|] eqn:E; [|discriminate].
  cbn [bind] in H. inversion H. cbn [List.length]. f_equal. now apply (IH e).
Qed.
Lemma einsum_rank l subs out s ops r : einsum (l :: subs) out (s :: ops) = Ok r ->
  (List.length (chars out) + List.length s <= List.length r + List.length (chars l))%nat.
Proof.
  unfold einsum. cbn [bind_operands]. intros H.
  destruct (bind_labels _ s []) as [[e1 r1]|] eqn:E1; [|discriminate]. cbn [bind] in H. rewrite bcast_nil_l in H. cbn [bind] in H.
  destruct (bind_operands subs ops e1 r1) as [[e2 r2]|] eqn:E2; [|discriminate]. cbn [bind] in H.
  destruct (read_labels _ e2) as [t|] eqn:E3; [|discriminate]. cbn [bind] in H. inversion H; subst.
  apply bind_labels_length in E1. apply bind_operands_length in E2. apply read_labels_length in E3.
  rewrite app_length. rewrite rev_length in *. lia.
Qed.
Lemma bind_ok A B0 (x : result A) (f : A -> result B0) b : bind x f = Ok b -> exists a, x = Ok a /\ f a = Ok b.
Proof. destruct x as [a|e]; [|discriminate]. intros H. now exists a. Qed.
Lemma unsq_rank p s r : unsq p s = Ok r -> List.length r = S (List.length s).
Proof.
  unfold unsq, ins. destruct (Nat.leb_spec p (List.length s)) as [H|H]; [|discriminate]. intros E. inversion E.
  rewrite app_length. cbn [List.length]. rewrite firstn_length, skipn_length. lia.
Qed.
Lemma set_length p n s : (p < List.length s)%nat -> List.length (set p n s) = List.length s.
Proof.
  intros H. unfold set. rewrite app_length. cbn [List.length]. rewrite firstn_length, skipn_length. lia.
Qed.
Lemma cat2_rank p a b r : cat2 p a b = Ok r -> List.length r = List.length a.
Proof.
  unfold cat2. intros H. apply bind_ok in H. destruct H as (x & E & H). apply bind_ok in H. destruct H as (y & _ & H).
  destruct (seqb _ _); [|discriminate]. inversion H. apply set_length. unfold size in E.
  destruct (nth_error a p) eqn:En; [|discriminate]. apply nth_error_Some. congruence.
Qed.

Section FiveNone.
Variables (B : shape) (C F N : nat).
Variable St : Type.
Variable model : St -> shape -> result (shape * St).
Lemma five_iter_rank X Q np x Y m : five_iter model X Q np x = Ok (Y, m) -> (List.length Q <= List.length Y)%nat.
Proof.
  unfold five_iter. destruct x as [Y0 m1]. intros H.
  apply bind_ok in H. destruct H as ([w m2] & _ & H).
  do 4 (apply bind_ok in H; destruct H as (? & _ & H)).
  apply bind_ok in H; destruct H as (z & Ez & H). apply einsum_rank in Ez.
  apply bind_ok in H; destruct H as (z1 & Ez1 & H). apply unsq_rank in Ez1.
  apply bind_ok in H; destruct H as (v & Ev & H). apply bcast_length in Ev.
  apply bind_ok in H; destruct H as (Y1 & EY & H). apply einsum_rank in EY. inversion H; subst. cbn in *. lia.
Qed.
Lemma five_loop_rank X Q np n : forall i x Y m, (0 < n)%nat ->
  loop_from (fun _ : Z => five_iter model X Q np) i n x = Ok (Y, m) -> (List.length Q <= List.length Y)%nat.
Proof.
  induction n as [|n IH]; intros i x Y m Hn H; [lia|]. cbn [loop_from] in H. apply bind_ok in H. destruct H as ([Y1 m1] & E & H).
  destruct n as [|n]; [cbn in H; inversion H; subst; eapply five_iter_rank; exact E|]. eapply IH; [lia|exact H].
Qed.
Lemma five_none_rank n_iter np m0 Y : (0 < n_iter)%nat ->
  five_forward model n_iter None np m0 (N :: S F :: C :: B) = Ok Y -> (List.length B + 5 <= List.length Y)%nat.
Proof.
  intros Hn H. unfold five_forward in H. cbn [unpack3 bind] in H.
  apply bind_ok in H; destruct H as (X & EX & H).
  apply bind_ok in H; destruct H as (Cx & EC & H).
  apply bind_ok in H; destruct H as (h & Eh & H).
  apply bind_ok in H; destruct H as (Cx2 & EC2 & H).
  assert (D : X = N :: F :: C :: B /\ Cx2 = C :: C :: F :: B).
  { revert EX EC Eh EC2. op. cbn. replace (S F - 1)%nat with F by lia. intros E. inversion E; subst.
    cbn. autorewrite with shp. cbn. autorewrite with shp. cbn. intros E2. inversion E2; subst. cbn. intros E3. inversion E3; subst.
    cbn. autorewrite with shp. cbn. autorewrite with shp. cbn. intros E4. inversion E4. now split. }
  destruct D as [-> ->]. rewrite eigh_ok in H. cbn [bind] in H.
  apply bind_ok in H; destruct H as (l & _ & H). apply bind_ok in H; destruct H as (h2 & _ & H).
  apply bind_ok in H; destruct H as (Q & _ & H). apply bind_ok in H; destruct H as (r & Er & H).
  apply bind_ok in H; destruct H as (Qinv & EQ & H). apply bind_ok in H; destruct H as (Qr & EQr & H).
  apply bind_ok in H; destruct H as (X2 & _ & H). apply bind_ok in H; destruct H as (Y1 & _ & H). cbn [bind] in H.
  apply bind_ok in H; destruct H as ([Y2 m2] & EY & H). unfold for_range in EY. apply five_loop_rank in EY; [|exact Hn].
  apply bind_ok in H; destruct H as (t & _ & H). apply bind_ok in H; destruct H as (Y3 & EY3 & H).
  apply cat2_rank in EY3. apply unsq_rank in H. unfold index_mic in EQr. apply unsq_rank in EQr. apply bcast_length in EQ.
  cbn [List.length] in *. rewrite skipn_length in EY3. lia.
Qed.
End FiveNone.

(* ---- wpe.py *)
Lemma reshape_ok t s : numel s = numel t -> reshape t s = Ok t.
Proof. intros H. unfold reshape. now rewrite H, Nat.eqb_refl. Qed.
Lemma reshape_bad t s : numel s <> numel t -> reshape t s = Err RuntimeError.
Proof. intros H. unfold reshape. now rewrite (proj2 (Nat.eqb_neq _ _) H). Qed.
Section Wpe.
Variables (B : shape) (C F N T : nat).
Variable St : Type.
Variable model : St -> shape -> result (shape * St).
Lemma wpe_iter_ok m : (0 < C)%nat -> (0 < T)%nat ->
  wpe_one_iter model false (N :: F :: C :: B) (N :: F :: C :: B) (N :: T :: F :: C :: B) m
  = Ok (C :: T :: C :: F :: B, m).
Proof.
  intros HC HT. unfold wpe_one_iter, wpe_default_weights, einsum, size, set, del, reduce, reduce_keep.
  repeat (progress (cbn -[solve_loaded reshape]; autorewrite with shp)).
  rewrite reshape_ok by (cbn [numel fold_right]; ring). cbn [bind].
  rewrite reshape_ok by (cbn [numel fold_right]; ring). cbn [bind].
  rewrite solve_loaded_mat by nia. cbn [bind].
  rewrite reshape_ok by (cbn [numel fold_right]; ring). reflexivity.
Qed.
Lemma derev_wpe_ok : derev (C :: T :: C :: F :: B) (N :: F :: C :: B) (N :: T :: F :: C :: B) = Ok (N :: F :: C :: B).
Proof. unfold derev. sh. reflexivity. Qed.
Lemma wpe_reduce n_iter delay has_model m0 :
  wpe_forward model n_iter delay T has_model m0 (N :: F :: C :: B)
  = let* (Y, m) := for_range (fun _ (x : shape * St) =>
                   let '(Y, m) := x in
                   let* (H, m) := wpe_one_iter model has_model Y (N :: F :: C :: B) (N :: T :: F :: C :: B) m in
                   let* Y := derev H (N :: F :: C :: B) (N :: T :: F :: C :: B) in Ok (Y, m)) n_iter (N :: F :: C :: B, m0) in
    Ok Y.
Proof.
  unfold wpe_forward, pad_left, hankel_view, slice_last. op. cbn -[for_range].
  replace (Nat.ltb (T + delay + N + 1) (T + delay + 1)) with false by (symmetry; apply Nat.ltb_ge; lia).
  cbn -[for_range].
  replace (T + delay + N + 1 - (T + delay + 1))%nat with N by lia.
  replace (T + delay + 1 - (delay + 1))%nat with T by lia. reflexivity.
Qed.
Lemma wpe_ok n_iter delay m0 : (0 < C)%nat -> (0 < T)%nat ->
  wpe_forward model n_iter delay T false m0 (N :: F :: C :: B) = Ok (N :: F :: C :: B).
Proof.
  intros HC HT. rewrite wpe_reduce. rewrite for_range_const; [reflexivity|].
  intros j Hj. rewrite wpe_iter_ok by assumption. cbn [bind]. rewrite derev_wpe_ok. reflexivity.
Qed.
Lemma wpe_zero delay has_model m0 :
  wpe_forward model 0 delay T has_model m0 (N :: F :: C :: B) = Ok (N :: F :: C :: B).
Proof. rewrite wpe_reduce. reflexivity. Qed.

Lemma numel_pos s : (forall n, In n s -> (0 < n)%nat) -> (0 < numel s)%nat.
Proof.
  induction s as [|x s IH]; intros H; [cbn; lia|]. change (numel (x :: s)) with (x * numel s)%nat.
  assert (0 < x)%nat by (apply H; now left). assert (0 < numel s)%nat by (apply IH; intros n Hn; apply H; now right). nia.
Qed.
Lemma bc2_ge x y z : (0 < x)%nat -> (0 < y)%nat -> bc2 x y = Ok z -> (x <= z)%nat.
Proof.
  intros Hx Hy. unfold bc2. destruct (Nat.eqb_spec x y); [intros E; inversion E; lia|].
  destruct (Nat.eqb_spec x 1); [intros E; inversion E; lia|]. destruct (Nat.eqb_spec y 1); [intros E; inversion E; lia|discriminate].
Qed.
Lemma bcast_ge a : forall b r, (forall n, In n a -> (0 < n)%nat) -> (forall n, In n b -> (0 < n)%nat) ->
  bcast a b = Ok r -> (numel a <= numel r)%nat.
Proof.
  induction a as [|x a IH]; intros b r Ha Hb H.
  - cbn in H. inversion H; subst. apply numel_pos in Hb. cbn. lia.
  - destruct b as [|y b]; cbn [bcast] in H; [inversion H; subst; lia|].
    destruct (bc2 x y) as [z|] eqn:E1; [|discriminate]. cbn [bind] in H.
    destruct (bcast a b) as [t|] eqn:E2; [|discriminate]. inversion H; subst.
    apply bc2_ge in E1; [|apply Ha; now left|apply Hb; now left].
    apply IH in E2; [|intros n Hn; apply Ha; now right|intros n Hn; apply Hb; now right].
    change (x * numel a <= z * numel t)%nat. nia.
Qed.
Lemma bc2_pos x y z : (0 < x)%nat -> (0 < y)%nat -> bc2 x y = Ok z -> (0 < z)%nat.
Proof. intros Hx Hy E. pose proof (bc2_ge Hx Hy E). lia. Qed.
Lemma bcast_pos a : forall b r, (forall n, In n a -> (0 < n)%nat) -> (forall n, In n b -> (0 < n)%nat) ->
  bcast a b = Ok r -> forall n, In n r -> (0 < n)%nat.
Proof.
  induction a as [|x a IH]; intros b r Ha Hb H.
  - cbn in H. inversion H; subst. exact Hb.
  - destruct b as [|y b]; cbn [bcast] in H; [inversion H; subst; exact Ha|].
    destruct (bc2 x y) as [z|] eqn:E1; [|discriminate]. cbn [bind] in H.
    destruct (bcast a b) as [t|] eqn:E2; [|discriminate]. inversion H; subst.
    intros n [<-|Hn]; [eapply bc2_pos; [| |exact E1]; [apply Ha; now left|apply Hb; now left]|].
    eapply IH; [| |exact E2|exact Hn]; intros k Hk; [apply Ha|apply Hb]; now right.
Qed.
End Wpe.
Section WpeModel.
Variables (B : shape) (C F N T : nat).
Variable St : Type.
Variable model : St -> shape -> result (shape * St).
Lemma wpe_model_raises n_iter delay m0 : (2 <= C)%nat -> (0 < F)%nat -> (forall n, In n B -> (0 < n)%nat) ->
  (0 < n_iter)%nat -> keeps_shape model (N :: F :: C :: B) n_iter m0 ->
  exists e, wpe_forward model n_iter delay T true m0 (N :: F :: C :: B) = Err e.
Proof.
  intros HC HF HB Hn Hk. destruct n_iter as [|n]; [lia|]. destruct Hk as (m1 & E1 & _).
  rewrite wpe_reduce. unfold for_range. cbn [loop_from].
  assert (HE : exists e, wpe_one_iter model true (N :: F :: C :: B) (N :: F :: C :: B) (N :: T :: F :: C :: B) m0 = Err e).
  { unfold wpe_one_iter. rewrite E1. unfold einsum.
    repeat (progress (cbn -[bcast solve_loaded reshape]; autorewrite with shp)).
    destruct (bcast (C :: B) B) as [r|e] eqn:Er; [|eexists; reflexivity].
    repeat (progress (cbn -[bcast solve_loaded reshape]; autorewrite with shp)).
    assert (HCB : forall n0, In n0 (C :: B) -> (0 < n0)%nat) by (intros k [<-|Hk']; [lia|now apply HB]).
    assert (Hr : forall n0, In n0 r -> (0 < n0)%nat) by exact (bcast_pos _ _ HCB HB Er).
    apply (bcast_ge _ _ HCB HB) in Er. change (C * numel B <= numel r)%nat in Er. pose proof (numel_pos _ HB) as HP.
    destruct (bcast r B) as [r2|e] eqn:Er2; [|eexists; reflexivity].
    apply (bcast_ge _ _ Hr HB) in Er2.
    repeat (progress (cbn -[bcast solve_loaded reshape]; autorewrite with shp)).
    destruct (Nat.eq_dec T 0) as [ET|ET].
    - subst T. rewrite reshape_ok by reflexivity. cbn [bind].
      destruct (reshape _ _) as [xcv|e]; [|eexists; reflexivity]. cbn [bind]. unfold solve_loaded. sh. eexists; reflexivity.
    - rewrite reshape_bad; [eexists; reflexivity|]. cbn [numel fold_right]. fold (numel r2). fold (numel B).
      assert (numel B < numel r2)%nat by nia. 
      assert (0 < T * C * (T * C * F))%nat by nia. nia. }
  destruct HE as (e & E). rewrite E. exists e. reflexivity.
Qed.
End WpeModel.
Lemma wpe_no_taps B C F N St (model : St -> shape -> result (shape * St)) n_iter delay m0 : (0 < n_iter)%nat ->
  wpe_forward model n_iter delay 0 false m0 (N :: F :: C :: B) = Err IndexError.
Proof.
  intros Hn. destruct n_iter as [|n]; [lia|]. rewrite wpe_reduce. unfold for_range. cbn [loop_from].
  unfold wpe_one_iter, wpe_default_weights, einsum, size, set, del, reduce, reduce_keep.
  repeat (progress (cbn -[solve_loaded reshape]; autorewrite with shp)).
  rewrite reshape_ok by reflexivity. cbn [bind].
  rewrite reshape_ok by (cbn [numel fold_right]; ring). cbn [bind]. unfold solve_loaded. sh. reflexivity.
Qed.

(* ---- models/classic.py *)
Lemma laplace_ok N F B : laplace_shape tt (N :: F :: B) = Ok (N :: F :: B, tt).
Proof. unfold laplace_shape. sh. reflexivity. Qed.
Lemma gauss_ok N F B : gauss_shape tt (N :: F :: B) = Ok (N :: F :: B, tt).
Proof. unfold gauss_shape. sh. reflexivity. Qed.
Lemma laplace_keeps N F B k : keeps_shape laplace_shape (N :: F :: B) k tt.
Proof. induction k as [|k IH]; [exact I|]. exists tt. split; [apply laplace_ok|exact IH]. Qed.
Lemma gauss_keeps N F B k : keeps_shape gauss_shape (N :: F :: B) k tt.
Proof. induction k as [|k IH]; [exact I|]. exists tt. split; [apply gauss_ok|exact IH]. Qed.
Definition nmf_state (n_basis F N b : nat) : option (shape * shape * shape) :=
  Some ([n_basis; F; b], [n_basis; N; b], [N; F; b]).
Lemma nmf_ok n_basis N F B m : (0 < F)%nat -> (0 < N)%nat -> m = None \/ m = nmf_state n_basis F N (numel B) ->
  nmf_shape n_basis m (N :: F :: B) = Ok (N :: F :: B, nmf_state n_basis F N (numel B)).
Proof.
  intros HF HN Hm. unfold nmf_shape.
  assert (E1 : reshape_m1 [N; F] (N :: F :: B) = Ok [N; F; numel B]).
  { unfold reshape_m1. cbn [numel fold_right]. fold (numel B). replace (N * (F * 1))%nat with (N * F)%nat by ring.
    rewrite (proj2 (Nat.eqb_neq _ 0)) by nia. replace (N * (F * numel B))%nat with (numel B * (N * F))%nat by ring.
    rewrite Nat.mod_mul by nia. rewrite Nat.eqb_refl. rewrite Nat.div_mul by nia. reflexivity. }
  rewrite E1. cbn [bind]. unfold nmf_state in *.
  destruct Hm as [-> | ->]; unfold transpose, matmul, size, set;
  repeat (progress (cbn -[reshape]; autorewrite with shp));
  (rewrite reshape_ok; [reflexivity|]); cbn [numel fold_right]; fold (numel B); ring.
Qed.
Lemma nmf_keeps n_basis N F B k : (0 < F)%nat -> (0 < N)%nat -> keeps_shape (nmf_shape n_basis) (N :: F :: B) k None.
Proof.
  intros HF HN.
  assert (H : forall m, m = None \/ m = nmf_state n_basis F N (numel B) -> keeps_shape (nmf_shape n_basis) (N :: F :: B) k m).
  { induction k as [|k IH]; intros m Hm; [exact I|]. exists (nmf_state n_basis F N (numel B)). split; [now apply nmf_ok|].
    apply IH. now right. }
  apply H. now left.
Qed.
Lemma nmf_empty n_basis N F B m : (N * F = 0)%nat -> nmf_shape n_basis m (N :: F :: B) = Err RuntimeError.
Proof.
  intros H. unfold nmf_shape, reshape_m1. cbn [numel fold_right]. replace (N * (F * 1))%nat with 0%nat by nia. reflexivity.
Qed.

(* ---- beamformer.py *)
Section Beam.
Variables (B : shape) (C F N M S : nat).
Hypothesis HC : (0 < C)%nat.
Notation X := (N :: F :: C :: B).
Notation masks := (N :: F :: M :: S :: B).
Notation R := (C :: C :: F :: S :: B).
Lemma bf_cov_ok i : index_of M i -> bf_cov masks X i = Ok R.
Proof. intros Hi. unfold bf_cov. shw (valid_true Hi). reflexivity. Qed.
Lemma mwf_bf_ok D r : index_of C r -> mwf_bf (C :: C :: D) (C :: C :: D) r = Ok (C :: D).
Proof.
  intros Hr. unfold mwf_bf. op. repeat (progress (cbn -[solve_loaded]; autorewrite with shp; rewrite ?(valid_true Hr))).
  apply solve_loaded_vec. exact HC.
Qed.
Lemma mvdr_rtf_ok D r p : index_of C r -> mvdr_rtf (C :: C :: D) (C :: C :: D) r p = Ok (C :: D).
Proof.
  intros Hr. unfold mvdr_rtf.
  assert (E : match p with
      | None => let* (eigval, eigvec) := eigh (C :: C :: D) (Some (C :: C :: D)) in select 0 (-1) eigvec
      | Some p => let* Phi := solve_loaded (C :: C :: D) (C :: C :: D) in
                let* v := select 0 0 Phi in
                for_range (fun _ v => einsum ["cd"; "d"] "c" [Phi; v]) (p - 1) v
      end = Ok (C :: D)).
  { destruct p as [p|].
    - rewrite solve_loaded_mat by exact HC. cbn [bind].
      assert (V : valid C 0 = true) by (apply (valid_nat HC)).
      unfold select. op. repeat (progress (cbn -[for_range]; autorewrite with shp; rewrite ?V)).
      apply for_range_const. intros j _. sh. reflexivity.
    - rewrite geigh_ok. cbn [bind]. op. cbn. now rewrite (valid_neg1 HC). }
  rewrite E. op. repeat (progress (cbn; autorewrite with shp; rewrite ?(valid_true Hr))). reflexivity.
Qed.
Lemma mvdr_bf_ok D : mvdr_bf (C :: C :: D) (C :: D) = Ok (C :: D).
Proof. unfold mvdr_bf. rewrite solve_loaded_vec by exact HC. sh. reflexivity. Qed.
Lemma solve_mat n k D : solve (n :: n :: D) (k :: n :: D) = Ok (k :: n :: D).
Proof. unfold solve. sh. unfold is_vector_rhs. sh. rewrite len_S. sh. reflexivity. Qed.
Lemma mvdr_bf2_ok D r : index_of C r -> mvdr_bf2 (C :: C :: D) (C :: C :: D) r = Ok (C :: D).
Proof.
  intros Hr. unfold mvdr_bf2. rewrite solve_mat. op. repeat (progress (cbn; autorewrite with shp; rewrite ?(valid_true Hr), ?Nat.min_id)).
  repeat (progress (cbn; autorewrite with shp; rewrite ?(valid_true Hr))). reflexivity.
Qed.
Lemma gev_bf_ok r : index_of C r -> gev_bf R R r = Ok (C :: S :: F :: B).
Proof.
  intros Hr. unfold gev_bf. rewrite geigh_ok. op. cbn. rewrite (valid_neg1 HC).
  repeat (progress (cbn; autorewrite with shp; rewrite ?(valid_true Hr), ?(valid_neg1 HC))). reflexivity.
Qed.
Lemma bmm_ok a b k D : bmm (k :: a :: D) (b :: k :: D) = Ok (b :: a :: D).
Proof. unfold bmm. sh. reflexivity. Qed.
Variable mask_model : shape -> result shape.
Hypothesis Hmask : mask_model (N :: F :: B) = Ok masks.
Lemma ref_ok r : index_of C r -> select 2 r X = Ok (N :: F :: B).
Proof. intros Hr. op. cbn. now rewrite (valid_true Hr). Qed.
Lemma mvdr_apply : einsum ["cfn"; "sfc"] "sfn" [X; C :: F :: S :: B] = Ok (N :: F :: S :: B).
Proof. sh. reflexivity. Qed.
Lemma mvdr_ok ty r p : index_of C r -> (M = 2 /\ ty <> OtherType) \/ M = 3 ->
  mvdr_forward mask_model ty r p X = Ok (N :: F :: S :: B).
Proof.
  intros Hr HM. unfold mvdr_forward. rewrite (ref_ok Hr). cbn [bind]. rewrite Hmask. cbn [bind size nth_error].
  destruct HM as [[E Ht]|E].
  - rewrite E. cbn [Nat.eqb]. rewrite <- E. rewrite !bf_cov_ok by (unfold index_of; lia). cbn [bind].
    destruct ty; [|..|congruence].
    + rewrite mvdr_rtf_ok by exact Hr. cbn [bind]. rewrite mvdr_bf_ok. cbn [bind]. exact mvdr_apply.
    + rewrite mvdr_bf2_ok by exact Hr. cbn [bind]. exact mvdr_apply.
  - rewrite E. cbn [Nat.eqb]. rewrite <- E. rewrite !bf_cov_ok by (unfold index_of; lia). cbn [bind].
    rewrite mvdr_rtf_ok by exact Hr. cbn [bind]. rewrite mvdr_bf_ok. cbn [bind]. exact mvdr_apply.
Qed.
Lemma mvdr_unbound ty r p : index_of C r -> M <> 3 -> (M <> 2 \/ ty = OtherType) ->
  mvdr_forward mask_model ty r p X = Err UnboundLocalError.
Proof.
  intros Hr H3 H. unfold mvdr_forward. rewrite (ref_ok Hr). cbn [bind]. rewrite Hmask. cbn [bind size nth_error].
  rewrite (proj2 (Nat.eqb_neq M 3) H3). destruct (Nat.eqb_spec M 2) as [E|E]; [|reflexivity].
  destruct H as [H|H]; [lia|]. subst ty. rewrite !bf_cov_ok by (unfold index_of; lia). reflexivity.
Qed.
Lemma mwf_ok r : index_of C r -> (2 <= M)%nat -> mwf_forward mask_model true r X = Ok (N :: F :: S :: B).
Proof.
  intros Hr HM. unfold mwf_forward. rewrite (ref_ok Hr). cbn [bind]. rewrite Hmask. cbn [bind].
  rewrite !bf_cov_ok by (unfold index_of; lia). cbn [bind]. rewrite mwf_bf_ok by exact Hr. cbn [bind]. exact mvdr_apply.
Qed.
Lemma mwf_tv_ok r : index_of C r -> M = 4 -> mwf_forward mask_model false r X = Ok (N :: F :: S :: B).
Proof.
  intros Hr HM. unfold mwf_forward. rewrite (ref_ok Hr). cbn [bind]. rewrite Hmask. cbn [bind].
  rewrite !bf_cov_ok by (unfold index_of; lia). cbn [bind size nth_error]. rewrite HM. cbn [Nat.eqb negb]. rewrite <- HM.
  assert (V2 : valid M 2 = true) by (apply valid_true; unfold index_of; lia).
  assert (V3 : valid M 3 = true) by (apply valid_true; unfold index_of; lia).
  op. repeat (progress (cbn -[mwf_bf]; autorewrite with shp; rewrite ?V2, ?V3)).
  rewrite mwf_bf_ok by exact Hr. sh. reflexivity.
Qed.
Lemma mwf_tv_masks r : index_of C r -> (2 <= M)%nat -> M <> 4 -> mwf_forward mask_model false r X = Err AssertionError.
Proof.
  intros Hr HM H4. unfold mwf_forward. rewrite (ref_ok Hr). cbn [bind]. rewrite Hmask. cbn [bind].
  rewrite !bf_cov_ok by (unfold index_of; lia). cbn [bind size nth_error]. rewrite (proj2 (Nat.eqb_neq M 4) H4). reflexivity.
Qed.
Lemma gev_ok r : index_of C r -> (2 <= M)%nat -> gev_forward mask_model r X = Ok (N :: F :: S :: B).
Proof.
  intros Hr HM. unfold gev_forward. rewrite (ref_ok Hr). cbn [bind]. rewrite Hmask. cbn [bind].
  rewrite !bf_cov_ok by (unfold index_of; lia). cbn [bind]. rewrite gev_bf_ok by exact Hr. cbn [bind].
  unfold transpose, size, set. cbn [nth_error bind firstn skipn app]. rewrite bmm_ok. sh. reflexivity.
Qed.
Lemma few_masks r : index_of C r -> (M <= 1)%nat ->
  mwf_forward mask_model true r X = Err IndexError /\ mwf_forward mask_model false r X = Err IndexError
  /\ gev_forward mask_model r X = Err IndexError.
Proof.
  intros Hr HM. unfold mwf_forward, gev_forward. rewrite (ref_ok Hr). cbn [bind]. rewrite Hmask. cbn [bind].
  assert (E1 : bf_cov masks X 1 = Err IndexError).
  { unfold bf_cov. op. cbn. rewrite valid_false; [reflexivity|]. unfold index_of. lia. }
  assert (E : forall f : shape -> shape -> result shape,
             (let* R_tgt := bf_cov masks X 0 in let* R_noise := bf_cov masks X 1 in f R_tgt R_noise) = Err IndexError).
  { intros f. rewrite E1. destruct (Nat.eq_dec M 0) as [E0|E0].
    - unfold bf_cov. op. cbn. rewrite valid_false; [reflexivity|]. unfold index_of. lia.
    - rewrite bf_cov_ok by (unfold index_of; lia). reflexivity. }
  repeat split; apply E.
Qed.
End Beam.
