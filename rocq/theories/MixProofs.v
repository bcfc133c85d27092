(* Proofs of C79: the conversion to files. *)
From Coq Require Import List ZArith QArith Qabs Qminmax Bool String Lia Lqa Qround.
From Verif Require Import Py DataModel MixModel MixSpec.
Import ListNotations.
Set Implicit Arguments.

Lemma trunc_opp q : trunc (- q) = (- trunc q)%Z.
Proof. unfold trunc. simpl. apply Z.quot_opp_l. discriminate. Qed.
Lemma trunc_floor q : 0 <= q -> trunc q = Qfloor q.
Proof.
destruct q as [n d]. unfold Qle. simpl. intros h. unfold trunc. simpl. apply Z.quot_div_nonneg; lia.
Qed.
Lemma trunc_comp p q : p == q -> trunc p = trunc q.
Proof.
intros h. destruct (Qlt_le_dec p 0) as [hp|hp].
- assert (hq : 0 <= - q) by lra. assert (hp' : 0 <= - p) by lra.
  assert (E : trunc (- p) = trunc (- q)).
  { rewrite !trunc_floor by assumption. apply Qfloor_comp. now rewrite h. }
  rewrite !trunc_opp in E. lia.
- rewrite !trunc_floor; [now apply Qfloor_comp|lra|lra].
Qed.
Lemma trunc_pos q : 0 <= q -> inject_Z (trunc q) <= q /\ q < inject_Z (trunc q) + 1 /\ (0 <= trunc q)%Z.
Proof.
intros h. rewrite trunc_floor by assumption. split; [apply Qfloor_le|].
split; [generalize (Qlt_floor q); rewrite inject_Z_plus; auto|].
change 0%Z with (Qfloor 0). now apply Qfloor_resp_le.
Qed.
Lemma trunc_neg q : q <= 0 -> q <= inject_Z (trunc q) /\ inject_Z (trunc q) - 1 < q /\ (trunc q <= 0)%Z.
Proof.
intros h. assert (h' : 0 <= - q) by lra. destruct (trunc_pos h') as (h1 & h2 & h3).
rewrite trunc_opp in h1, h2, h3. rewrite inject_Z_opp in h1, h2. split; [lra|]. split; [lra|lia].
Qed.
Lemma trunc_near q : Qabs (inject_Z (trunc q) - q) < 1.
Proof.
apply Qabs_case; intros _; destruct (Qlt_le_dec q 0) as [h|h];
  [destruct (@trunc_neg q)|destruct (trunc_pos h)|destruct (@trunc_neg q)|destruct (trunc_pos h)]; lra.
Qed.
Lemma trunc_le q k : (0 <= k)%Z -> Qabs q < inject_Z (k + 1) -> (Z.abs (trunc q) <= k)%Z.
Proof.
intros hk h. rewrite inject_Z_plus in h. change (inject_Z 1) with 1 in h. destruct (Qlt_le_dec q 0) as [hq|hq].
- destruct (@trunc_neg q) as (h1 & h2 & h3); [lra|]. rewrite Z.abs_neq by lia.
  rewrite Qabs_neg in h by lra. assert (H : inject_Z (- trunc q) < inject_Z (k + 1)) by (rewrite inject_Z_opp, inject_Z_plus; change (inject_Z 1) with 1; lra).
  rewrite <- Zlt_Qlt in H. lia.
- destruct (trunc_pos hq) as (h1 & h2 & h3). rewrite Z.abs_eq by lia.
  rewrite Qabs_pos in h by lra. assert (H : inject_Z (trunc q) < inject_Z (k + 1)) by (rewrite inject_Z_plus; change (inject_Z 1) with 1; lra).
  rewrite <- Zlt_Qlt in H. lia.
Qed.
Lemma trunc_ge q k : (0 <= k)%Z -> inject_Z k <= Qabs q -> (k <= Z.abs (trunc q))%Z.
Proof.
intros hk h. destruct (Qlt_le_dec q 0) as [hq|hq].
- destruct (@trunc_neg q) as (h1 & h2 & h3); [lra|]. rewrite Z.abs_neq by lia.
  rewrite Qabs_neg in h by lra. assert (H : inject_Z k < inject_Z (- trunc q + 1)) by (rewrite inject_Z_plus, inject_Z_opp; change (inject_Z 1) with 1; lra).
  rewrite <- Zlt_Qlt in H. lia.
- destruct (trunc_pos hq) as (h1 & h2 & h3). rewrite Z.abs_eq by lia.
  rewrite Qabs_pos in h by lra. assert (H : inject_Z k < inject_Z (trunc q + 1)) by (rewrite inject_Z_plus; change (inject_Z 1) with 1; lra).
  rewrite <- Zlt_Qlt in H. lia.
Qed.

(* sums of cut numbers *)
Definition sumQ (l : list Q) : Q := fold_right Qplus 0 l.
Lemma sum_frac l : inject_Z (sumZ (map trunc l)) - inject_Z (Z.of_nat (List.length l)) <= sumQ l <=
  inject_Z (sumZ (map trunc l)) + inject_Z (Z.of_nat (List.length l)).
Proof.
induction l as [|q l IH]; [simpl; split; discriminate|].
change (List.length (q :: l)) with (S (List.length l)).
cbn [map sumQ sumZ fold_right]. rewrite Nat2Z.inj_succ, <- Z.add_1_r.
fold (sumZ (map trunc l)). fold (sumQ l). rewrite !inject_Z_plus. pose proof (trunc_near q) as h.
apply Qabs_Qlt_condition in h. change (inject_Z 1) with 1. lra.
Qed.
Lemma sum_frac_lt l : l <> [] -> inject_Z (sumZ (map trunc l)) - inject_Z (Z.of_nat (List.length l)) < sumQ l <
  inject_Z (sumZ (map trunc l)) + inject_Z (Z.of_nat (List.length l)).
Proof.
destruct l as [|q l]; [congruence|intros _].
change (List.length (q :: l)) with (S (List.length l)).
cbn [map sumQ sumZ fold_right]. rewrite Nat2Z.inj_succ, <- Z.add_1_r.
fold (sumZ (map trunc l)). fold (sumQ l). rewrite !inject_Z_plus. pose proof (trunc_near q) as h.
apply Qabs_Qlt_condition in h. pose proof (sum_frac l). change (inject_Z 1) with 1. lra.
Qed.
Lemma sum_frac_one l q : In q l -> 0 <= q ->
  inject_Z (sumZ (map trunc l)) - inject_Z (Z.of_nat (List.length l)) + 1 <= sumQ l.
Proof.
induction l as [|r l IH]; intros hin hq; [destruct hin|].
change (List.length (r :: l)) with (S (List.length l)).
cbn [map sumQ sumZ fold_right]. rewrite Nat2Z.inj_succ, <- Z.add_1_r.
fold (sumZ (map trunc l)). fold (sumQ l). rewrite !inject_Z_plus. change (inject_Z 1) with 1.
destruct hin as [->|hin].
- destruct (trunc_pos hq) as (h & _). pose proof (sum_frac l). lra.
- specialize (IH hin hq). pose proof (trunc_near r) as h. apply Qabs_Qlt_condition in h. lra.
Qed.
Lemma sum_pos_in l : l <> [] -> 0 <= sumQ l -> exists q, In q l /\ 0 <= q.
Proof.
induction l as [|q l IH]; [congruence|]. intros _ h. cbn [sumQ fold_right] in h. fold (sumQ l) in h.
destruct (Qlt_le_dec q 0) as [hq|hq]; [|exists q; split; [now left|assumption]].
destruct l as [|r l]; [cbn in h; lra|]. destruct IH as (z & h1 & h2); [discriminate|lra|].
exists z. split; [now right|assumption].
Qed.
Lemma sumZ_opp l : sumZ (map (fun q => trunc (- q)) l) = (- sumZ (map trunc l))%Z.
Proof.
induction l as [|q l IH]; [reflexivity|]. cbn [map sumZ fold_right].
fold (sumZ (map (fun q => trunc (- q)) l)). fold (sumZ (map trunc l)). rewrite IH, trunc_opp. lia.
Qed.
Lemma sumQ_opp l : sumQ (map Qopp l) == - sumQ l.
Proof.
induction l as [|q l IH]; [reflexivity|]. cbn [map sumQ fold_right].
fold (sumQ (map Qopp l)). fold (sumQ l). rewrite IH. ring.
Qed.
Lemma sum_trunc_pos l : l <> [] -> 0 <= sumQ l ->
  (Z.abs (trunc (sumQ l) - sumZ (map trunc l)) < Z.of_nat (List.length l))%Z.
Proof.
intros hl hs. destruct (sum_pos_in hl hs) as (q & h1 & h2).
pose proof (sum_frac_one _ h1 h2) as h3. destruct (sum_frac_lt hl) as (_ & h4).
destruct (trunc_pos hs) as (h5 & h6 & _).
assert (A : inject_Z (trunc (sumQ l)) < inject_Z (sumZ (map trunc l) + Z.of_nat (List.length l))) by (rewrite inject_Z_plus; change (inject_Z 1) with 1; lra).
assert (B : inject_Z (sumZ (map trunc l) - Z.of_nat (List.length l) + 1) < inject_Z (trunc (sumQ l) + 1)).
{ unfold Z.sub. rewrite !inject_Z_plus, inject_Z_opp. change (inject_Z 1) with 1. lra. }
rewrite <- Zlt_Qlt in A, B. lia.
Qed.
Lemma sum_trunc l : l <> [] -> (Z.abs (trunc (sumQ l) - sumZ (map trunc l)) < Z.of_nat (List.length l))%Z.
Proof.
intros hl. destruct (Qlt_le_dec (sumQ l) 0) as [h|h]; [|now apply sum_trunc_pos].
assert (hl' : map Qopp l <> []) by (destruct l; [congruence|discriminate]).
assert (h' : 0 <= sumQ (map Qopp l)) by (rewrite sumQ_opp; lra).
pose proof (sum_trunc_pos hl' h') as H. rewrite (trunc_comp (sumQ_opp l)), trunc_opp, map_map, sumZ_opp, map_length in H. lia.
Qed.

(* the largest magnitude *)
Lemma qmax_cases x y : Qmax x y = x \/ Qmax x y = y.
Proof. unfold Qmax, GenericMinMax.gmax. destruct (x ?= y); auto. Qed.
Lemma fold_max l x : In (fold_left Qmax l x) (x :: l) /\ (forall z, In z (x :: l) -> z <= fold_left Qmax l x).
Proof.
revert x. induction l as [|y l IH]; intros x; cbn [fold_left].
- split; [now left|]. intros z [->|[]]. apply Qle_refl.
- destruct (IH (Qmax x y)) as (h1 & h2). split.
  + destruct h1 as [<-|h1]; [|now right; right]. destruct (qmax_cases x y) as [->| ->]; [now left|now right; left].
  + intros z [->|[->|hz]].
    * eapply Qle_trans; [apply Q.le_max_l|apply h2; now left].
    * eapply Qle_trans; [apply Q.le_max_r|apply h2; now left].
    * apply h2. now right.
Qed.
Lemma largest_ok l M : largest l = Ok M -> In M l /\ forall z, In z l -> z <= M.
Proof. destruct l as [|x l]; [discriminate|]. intros [= <-]. apply fold_max. Qed.
Lemma in_magnitudes ch n l z : In z (magnitudes ch n l) <->
  exists f c t, In f l /\ (c < ch)%nat /\ (t < n)%nat /\ z = Qabs (f c t).
Proof.
unfold magnitudes. rewrite in_flat_map. split.
- intros (f & hf & h). apply in_flat_map in h. destruct h as (c & hc & h). apply in_map_iff in h.
  destruct h as (t & <- & ht). apply in_seq in hc. apply in_seq in ht. exists f, c, t. repeat split; auto; lia.
- intros (f & c & t & h1 & h2 & h3 & ->). exists f. split; [assumption|]. apply in_flat_map. exists c.
  split; [apply in_seq; lia|]. apply in_map_iff. exists t. split; [reflexivity|]. apply in_seq. lia.
Qed.

(* conversion *)
Definition gain (M : Q) : Q := (95 # 100) / M * 32768.
Lemma scaled_abs M x : 0 < M -> Qabs (x * ((95 # 100) / M) * 32768) == Qabs x / M * (3112960 # 100).
Proof.
intros h. rewrite !Qabs_Qmult. rewrite (Qabs_pos ((95 # 100) / M)), (Qabs_pos 32768); [|discriminate|].
- field. lra.
- apply Qlt_le_weak. apply Qlt_shift_div_l; [assumption|]. ring_simplify. reflexivity.
Qed.
Lemma scaled_le M x : 0 < M -> Qabs x <= M -> Qabs (x * ((95 # 100) / M) * 32768) <= 3112960 # 100.
Proof.
intros h hx. rewrite scaled_abs by assumption.
assert (h1 : Qabs x / M <= 1) by (apply Qle_shift_div_r; lra).
setoid_replace (3112960 # 100) with (1 * (3112960 # 100)) at 2 by ring.
apply Qmult_le_compat_r; [assumption|discriminate].
Qed.
Lemma convert_trunc M x : 0 < M -> Qabs x <= M ->
  convert16 ((95 # 100) / M) x = trunc (x * ((95 # 100) / M) * 32768) /\
  (Z.abs (convert16 ((95 # 100) / M) x) <= 31129)%Z.
Proof.
intros h hx. pose proof (@scaled_le M x h hx) as hs. unfold convert16.
assert (ht : (Z.abs (trunc (x * ((95 # 100) / M) * 32768)) <= 31129)%Z).
{ apply trunc_le; [lia|]. eapply Qle_lt_trans; [exact hs|]. reflexivity. }
assert (E : int16 (trunc (x * ((95 # 100) / M) * 32768)) = trunc (x * ((95 # 100) / M) * 32768)).
{ unfold int16. rewrite Z.mod_small; lia. }
rewrite E. auto.
Qed.
Lemma convert_peak M x : 0 < M -> Qabs x = M -> Z.abs (convert16 ((95 # 100) / M) x) = 31129%Z.
Proof.
intros h hx. assert (hle : Qabs x <= M) by (rewrite hx; apply Qle_refl).
destruct (@convert_trunc M x h hle) as (h1 & h2). rewrite h1 in h2 |- *.
apply Z.le_antisymm; [assumption|]. apply trunc_ge; [lia|].
rewrite scaled_abs by assumption. rewrite hx.
setoid_replace (M / M * (3112960 # 100)) with (3112960 # 100) by (field; lra). discriminate.
Qed.

Section Run.
Variables (dry wet : premix).
Let n := Nat.max (p_len dry) (p_len wet).
Lemma make_mix_inv ds ws m : make_mix dry wet = Ok (ds, ws, m) ->
  exists M, 0 < M /\
   (forall f c t, In f (map (pad (p_len dry)) (p_src dry)) -> (c < p_ch dry)%nat -> (t < n)%nat -> Qabs (f c t) <= M) /\
   (forall f c t, In f (pad (p_len wet) (total wet) :: map (pad (p_len wet)) (p_src wet)) -> (c < p_ch wet)%nat -> (t < n)%nat -> Qabs (f c t) <= M) /\
   ((exists f c t, In f (map (pad (p_len dry)) (p_src dry)) /\ (c < p_ch dry)%nat /\ (t < n)%nat /\ M = Qabs (f c t)) \/
    (exists f c t, In f (pad (p_len wet) (total wet) :: map (pad (p_len wet)) (p_src wet)) /\ (c < p_ch wet)%nat /\ (t < n)%nat /\ M = Qabs (f c t))) /\
   ds = map (fun f => mksig (p_ch dry) n (fun c t => convert16 ((95 # 100) / M) (f c t))) (map (pad (p_len dry)) (p_src dry)) /\
   ws = map (fun f => mksig (p_ch wet) n (fun c t => convert16 ((95 # 100) / M) (f c t))) (map (pad (p_len wet)) (p_src wet)) /\
   m = mksig (p_ch wet) n (fun c t => convert16 ((95 # 100) / M) (pad (p_len wet) (total wet) c t)).
Proof.
unfold make_mix. fold n.
destruct (largest (magnitudes (p_ch wet) n [pad (p_len wet) (total wet)])) as [a|] eqn:Ea; [|discriminate]. cbn [bind].
destruct (largest (magnitudes (p_ch dry) n _)) as [b|] eqn:Eb; [|discriminate]. cbn [bind].
destruct (largest (magnitudes (p_ch wet) n (map _ _))) as [c|] eqn:Ec; [|discriminate]. cbn [bind].
destruct (Qeq_bool _ 0) eqn:E0; [discriminate|]. intros [= <- <- <-].
apply largest_ok in Ea. apply largest_ok in Eb. apply largest_ok in Ec.
destruct Ea as (a1 & a2), Eb as (b1 & b2), Ec as (c1 & c2).
exists (Qmax (Qmax a b) c).
assert (la : a <= Qmax (Qmax a b) c) by (eapply Qle_trans; [apply Q.le_max_l|apply Q.le_max_l]).
assert (lb : b <= Qmax (Qmax a b) c) by (eapply Qle_trans; [apply Q.le_max_r|apply Q.le_max_l]).
assert (lc : c <= Qmax (Qmax a b) c) by apply Q.le_max_r.
split; [|split; [|split; [|split; [|repeat split]]]].
- apply Qeq_bool_neq in E0. apply in_magnitudes in a1. destruct a1 as (f & c0 & t & _ & _ & _ & ha).
  assert (h0 : 0 <= a) by (rewrite ha; apply Qabs_nonneg).
  destruct (Qlt_le_dec 0 (Qmax (Qmax a b) c)); [assumption|]. exfalso. apply E0. lra.
- intros f c0 t h1 h2 h3. eapply Qle_trans; [|exact lb]. apply b2. apply in_magnitudes. exists f, c0, t. auto.
- intros f c0 t [<-|h1] h2 h3.
  + eapply Qle_trans; [|exact la]. apply a2. apply in_magnitudes. eexists _, c0, t. split; [now left|auto].
  + eapply Qle_trans; [|exact lc]. apply c2. apply in_magnitudes. exists f, c0, t. auto.
- apply in_magnitudes in a1. apply in_magnitudes in b1. apply in_magnitudes in c1.
  destruct (qmax_cases (Qmax a b) c) as [->| ->]; [destruct (qmax_cases a b) as [->| ->]|].
  + right. destruct a1 as (f & c0 & t & [<-|[]] & h). eexists _, c0, t. split; [now left|exact h].
  + left. exact b1.
  + right. destruct c1 as (f & c0 & t & hf & h). exists f, c0, t. split; [now right|exact h].
Qed.

Lemma written_lemma ch k M (f : nat -> nat -> Q) : 0 < M ->
  (forall c t, (c < ch)%nat -> (t < n)%nat -> Qabs (pad k f c t) <= M) ->
  written (gain M) ch n k f (mksig ch n (fun c t => convert16 ((95 # 100) / M) (pad k f c t))).
Proof.
intros hM h. split; [reflexivity|]. split; [reflexivity|]. intros c t hc ht. cbn [at_].
destruct (@convert_trunc M (pad k f c t) hM (h c t hc ht)) as (h1 & h2). split; [|exact h2]. rewrite h1.
fold (pad k f c t).
setoid_replace (inject_Z (trunc (pad k f c t * ((95 # 100) / M) * 32768)) - pad k f c t * gain M)
  with (inject_Z (trunc (pad k f c t * ((95 # 100) / M) * 32768)) - pad k f c t * ((95 # 100) / M) * 32768)
  by (unfold gain; ring).
apply trunc_near.
Qed.
Lemma peak_lemma ch M (f : nat -> nat -> Q) c t : 0 < M -> (c < ch)%nat -> (t < n)%nat -> M = Qabs (f c t) ->
  peaks (mksig ch n (fun c t => convert16 ((95 # 100) / M) (f c t))).
Proof. intros hM hc ht E. exists c, t. cbn [chans len at_]. split; [auto|]. split; [auto|]. now apply convert_peak. Qed.

(* one gain for all files, no overflow, and the full range *)
Lemma files_lemma ds ws m : make_mix dry wet = Ok (ds, ws, m) ->
  exists g, 0 < g /\
    Forall2 (written g (p_ch dry) n (p_len dry)) (p_src dry) ds /\
    Forall2 (written g (p_ch wet) n (p_len wet)) (p_src wet) ws /\
    written g (p_ch wet) n (p_len wet) (total wet) m /\
    exists y, In y (m :: ds ++ ws) /\ peaks y.
Proof.
intros h. destruct (make_mix_inv h) as (M & hM & hd & hw & hp & -> & -> & ->).
exists (gain M). split.
{ unfold gain. apply Qmult_lt_0_compat; [|reflexivity]. apply Qlt_shift_div_l; [assumption|]. ring_simplify. reflexivity. }
assert (F : forall ch k fs, (forall f c t, In f (map (pad k) fs) -> (c < ch)%nat -> (t < n)%nat -> Qabs (f c t) <= M) ->
  Forall2 (written (gain M) ch n k) fs
    (map (fun f => mksig ch n (fun c t => convert16 ((95 # 100) / M) (f c t))) (map (pad k) fs))).
{ intros ch k fs hf. induction fs as [|f fs IH]; [constructor|]. cbn [map]. constructor.
  - apply written_lemma; [assumption|]. intros. apply hf; auto. now left.
  - apply IH. intros. apply hf; auto. now right. }
split; [apply F; exact hd|]. split; [apply F; intros; apply hw; auto; now right|].
split; [apply written_lemma; [assumption|]; intros; apply hw; auto; now left|].
destruct hp as [(f & c & t & hf & hc & ht & E)|(f & c & t & [<-|hf] & hc & ht & E)].
- eexists. split; [|eapply (@peak_lemma (p_ch dry) M f c t); eauto]. right. apply in_or_app. left.
  apply in_map_iff. exists f. split; [reflexivity|assumption].
- eexists. split; [|eapply (@peak_lemma (p_ch wet) M _ c t); eauto]. now left.
- eexists. split; [|eapply (@peak_lemma (p_ch wet) M f c t); eauto]. right. apply in_or_app. right.
  apply in_map_iff. exists f. split; [reflexivity|assumption].
Qed.
(* the mixture against the sum of the references *)
Lemma sum_lemma ds ws m c t : make_mix dry wet = Ok (ds, ws, m) -> (c < p_ch wet)%nat -> (t < n)%nat ->
  (Z.abs (at_ m c t - sumZ (map (fun y => at_ y c t) ws)) <= Z.of_nat (List.length ws) - 1)%Z.
Proof.
intros h hc ht. destruct (make_mix_inv h) as (M & hM & hd & hw & hp & -> & -> & ->). cbn [at_].
rewrite map_length, map_length, !map_map. cbn [at_].
set (s := (95 # 100) / M) in *.
assert (hne : p_src wet <> []).
{ intros h0. unfold make_mix in h. rewrite h0 in h. cbn [map] in h.
  replace (magnitudes (p_ch wet) (Nat.max (p_len dry) (p_len wet)) []) with (@nil Q) in h by reflexivity.
  destruct (largest _); [|discriminate]. cbn [bind] in h. destruct (largest _); discriminate. }
set (l := map (fun f => pad (p_len wet) f c t * s * 32768) (p_src wet)).
assert (E1 : convert16 s (pad (p_len wet) (total wet) c t) = trunc (sumQ l)).
{ destruct (@convert_trunc M (pad (p_len wet) (total wet) c t) hM) as (h1 & _); [apply hw; auto; now left|].
  fold s in h1. rewrite h1. apply trunc_comp. unfold l, pad, total. clear. destruct (t <? p_len wet)%nat.
  - induction (p_src wet) as [|f fs IH]; cbn [map fold_right sumQ]; [ring|].
    fold (sumQ (map (fun f => f c t * s * 32768) fs)). rewrite <- IH. ring.
  - induction (p_src wet) as [|f fs IH]; cbn [map fold_right sumQ]; [ring|].
    fold (sumQ (map (fun f : nat -> nat -> Q => 0 * s * 32768) fs)). rewrite <- IH. ring. }
assert (E2 : sumZ (map (fun x => convert16 s (pad (p_len wet) x c t)) (p_src wet)) = sumZ (map trunc l)).
{ f_equal. unfold l. rewrite map_map. apply map_ext_in. intros f hf.
  destruct (@convert_trunc M (pad (p_len wet) f c t) hM) as (h1 & _); [|exact h1].
  apply hw; auto. right. now apply in_map. }
rewrite E1, E2. assert (hl : l <> []) by (unfold l; destruct (p_src wet); [congruence|discriminate]).
pose proof (sum_trunc hl) as H. unfold l in H at 3. rewrite map_length in H. lia.
Qed.
End Run.

(* it fails exactly for empty or silent recordings *)
Lemma largest_err l e : largest l = Err e -> l = [] /\ e = ValueError.
Proof. destruct l; [intros [= <-]; auto|discriminate]. Qed.
Lemma magnitudes_nil ch n l : l <> [] -> (0 < ch)%nat -> (0 < n)%nat -> magnitudes ch n l <> [].
Proof.
intros hl hc hn h. destruct l as [|f l]; [congruence|].
assert (hin : In (Qabs (f 0%nat 0%nat)) (magnitudes ch n (f :: l))) by (apply in_magnitudes; exists f, 0%nat, 0%nat; repeat split; auto; now left).
rewrite h in hin. destruct hin.
Qed.
Lemma total_lemma dry wet : p_src dry <> [] -> p_src wet <> [] -> (0 < p_ch dry)%nat -> (0 < p_ch wet)%nat ->
  sounding dry \/ sounding wet -> exists r, make_mix dry wet = Ok r.
Proof.
intros h1 h2 h3 h4 hs. unfold make_mix. set (n := Nat.max (p_len dry) (p_len wet)).
assert (hn : (0 < n)%nat) by (destruct hs as [(f & c & t & _ & _ & h & _)|(f & c & t & _ & _ & h & _)]; unfold n; lia).
destruct (largest (magnitudes (p_ch wet) n [_])) as [a|e] eqn:Ea;
  [|apply largest_err in Ea; destruct Ea as (Ea & _); apply magnitudes_nil in Ea; [destruct Ea|discriminate|assumption|assumption]].
cbn [bind]. destruct (largest (magnitudes (p_ch dry) n _)) as [b|e] eqn:Eb;
  [|apply largest_err in Eb; destruct Eb as (Eb & _); apply magnitudes_nil in Eb; [destruct Eb| |assumption|assumption]; destruct (p_src dry); [congruence|discriminate]].
cbn [bind]. destruct (largest (magnitudes (p_ch wet) n (map _ _))) as [c|e] eqn:Ec;
  [|apply largest_err in Ec; destruct Ec as (Ec & _); apply magnitudes_nil in Ec; [destruct Ec| |assumption|assumption]; destruct (p_src wet); [congruence|discriminate]].
cbn [bind]. destruct (Qeq_bool _ 0) eqn:E0; [|eauto]. exfalso. apply Qeq_bool_eq in E0.
apply largest_ok in Ea. apply largest_ok in Eb. apply largest_ok in Ec.
destruct Ea as (a1 & a2), Eb as (b1 & b2), Ec as (c1 & c2).
assert (lb : b <= 0) by (rewrite <- E0; eapply Qle_trans; [apply Q.le_max_r|apply Q.le_max_l]).
assert (lc : c <= 0) by (rewrite <- E0; apply Q.le_max_r).
assert (Z0 : forall x, Qabs x <= 0 -> x == 0).
{ intros x hx. apply Qabs_Qle_condition in hx. lra. }
destruct hs as [(f & c0 & t & f1 & f2 & f3 & f4)|(f & c0 & t & f1 & f2 & f3 & f4)]; apply f4, Z0.
- eapply Qle_trans; [|exact lb]. apply b2. apply in_magnitudes. exists (pad (p_len dry) f), c0, t.
  split; [now apply in_map|]. split; [auto|]. split; [unfold n; lia|]. unfold pad. now apply Nat.ltb_lt in f3 as ->.
- eapply Qle_trans; [|exact lc]. apply c2. apply in_magnitudes. exists (pad (p_len wet) f), c0, t.
  split; [now apply in_map|]. split; [auto|]. split; [unfold n; lia|]. unfold pad. now apply Nat.ltb_lt in f3 as ->.
Qed.
Lemma silent_lemma dry wet r : ~ sounding dry -> ~ sounding wet -> make_mix dry wet <> Ok r.
Proof.
intros h1 h2 h. destruct r as [[ds ws] m]. destruct (@make_mix_inv dry wet ds ws m h) as (M & hM & _ & _ & hp & _).
assert (P : forall p, ~ sounding p -> forall f c t, In f (p_src p) -> (c < p_ch p)%nat -> pad (p_len p) f c t == 0).
{ intros p hs f c t hf hc. unfold pad. destruct (Nat.ltb_spec t (p_len p)); [|reflexivity].
  destruct (Qeq_dec (f c t) 0) as [E|E]; [assumption|]. exfalso. apply hs. exists f, c, t. auto. }
assert (A : forall x, M = Qabs x -> x == 0 -> False).
{ intros x -> hx. rewrite hx in hM. discriminate. }
destruct hp as [(f & c & t & hf & hc & ht & E)|(f & c & t & [<-|hf] & hc & ht & E)].
- apply in_map_iff in hf. destruct hf as (g & <- & hg). apply (A _ E). now apply P.
- apply (A _ E). clear E. unfold pad. destruct (t <? p_len wet)%nat eqn:Et; [|reflexivity]. unfold total.
  assert (Q0 : forall fs, incl fs (p_src wet) -> fold_right Qplus 0 (map (fun f => f c t) fs) == 0).
  { induction fs as [|g fs IH]; intros hi; [reflexivity|]. cbn [map fold_right].
    rewrite IH by (intros z hz; apply hi; now right). assert (hg : In g (p_src wet)) by (apply hi; now left).
    pose proof (P wet h2 g c t hg hc) as hz. unfold pad in hz. rewrite Et in hz. rewrite hz. reflexivity. }
  apply Q0. apply incl_refl.
- apply in_map_iff in hf. destruct hf as (g & <- & hg). apply (A _ E). now apply P.
Qed.
Lemma save_lemma names signals k f y :
  nth_error (save_files names signals) k = Some (f, y) <-> nth_error names k = Some f /\ nth_error signals k = Some y.
Proof.
unfold save_files. revert signals k. induction names as [|a names IH]; intros signals k.
- split; [destruct k; discriminate|]. intros (h & _). destruct k; discriminate.
- destruct signals as [|s signals]; [split; [destruct k; discriminate|intros (_ & h); destruct k; discriminate]|].
  destruct k as [|k]; cbn [combine nth_error]; [|apply IH]. split; [intros [= -> ->]; auto|intros ([= ->] & [= ->]); auto].
Qed.
