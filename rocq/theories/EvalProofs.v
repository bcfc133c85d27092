From Coq Require Import String Ascii List ZArith QArith Qabs Qround Bool DecimalString Lia Lqa DecimalNat.
From Verif Require Import Py EvalModel EvalSpec.
Import ListNotations.
Local Open Scope list_scope.
Set Implicit Arguments.

(* ---- the loop *)
Lemma run_none A idx (ds : list A) : run None idx ds = ds.
Proof. revert idx; induction ds as [|x ds IH]; intros idx; [reflexivity|]; cbn; now rewrite IH. Qed.
Lemma run_some A l idx (ds : list A) : (idx <= l)%Z -> run (Some l) idx ds = firstn (S (Z.to_nat (l - idx))) ds.
Proof.
revert idx; induction ds as [|x ds IH]; intros idx h; [reflexivity|]; cbn [run firstn]; f_equal.
destruct (Z.eqb_spec idx l) as [->|ne]; [now rewrite Z.sub_diag|].
rewrite IH by lia; replace (Z.to_nat (l - idx)) with (S (Z.to_nat (l - (idx + 1)))) by lia; reflexivity.
Qed.
Lemma run_neg A l idx (ds : list A) : (l < idx)%Z -> run (Some l) idx ds = ds.
Proof.
revert idx; induction ds as [|x ds IH]; intros idx h; [reflexivity|]; cbn.
destruct (Z.eqb_spec idx l) as [->|ne]; [lia|]; rewrite IH by lia; reflexivity.
Qed.
Lemma run_limit A n (ds : list A) : (n < length ds)%nat -> length (run (Some (Z.of_nat n)) 0 ds) = S n.
Proof. intros h; rewrite run_some by lia; rewrite Z.sub_0_r, Nat2Z.id, firstn_length; lia. Qed.

(* ---- means *)
Lemma fold_sum (l : list Q) a : (fold_left Qplus l a == a + sum l)%Q.
Proof. revert a; induction l as [|x l IH]; intros a; unfold sum in *; cbn [fold_left fold_right map]; [ring|]; rewrite IH; ring. Qed.
Lemma len_pos A (l : list A) : l <> [] -> ~ (inject_Z (Z.of_nat (length l)) == 0)%Q.
Proof. destruct l as [|x l]; [easy|]; intros _ h; unfold Qeq in h; cbn [inject_Z Qnum Qden length] in h; lia. Qed.
Lemma mean_is l : l <> [] -> is_mean (mean_of l) l.
Proof.
intros h; split; [exact h|]; unfold mean_of; rewrite fold_sum; field; now apply len_pos.
Qed.
Lemma fold_map A (g : A -> Q) l a : (fold_left (fun t x => t + g x)%Q l a == a + sum (map g l))%Q.
Proof. revert a; induction l as [|x l IH]; intros a; unfold sum in *; cbn [fold_left fold_right map]; [ring|]; rewrite IH; ring. Qed.
Lemma fold_map_neg A (g : A -> Q) l a : (fold_left (fun t x => t - g x)%Q l a == a - sum (map g l))%Q.
Proof. revert a; induction l as [|x l IH]; intros a; unfold sum in *; cbn [fold_left fold_right map]; [ring|]; rewrite IH; ring. Qed.
Lemma total_mean A (f : A -> list Q) (l : list A) : l <> [] -> Forall (fun x => f x <> []) l ->
  mean_of_means f l (fold_left (fun t x => t + mean_of (f x))%Q l 0%Q / inject_Z (Z.of_nat (length l))).
Proof.
intros h hf; exists (map (fun x => mean_of (f x)) l); split.
- clear h; induction hf as [|x l hx _ IH]; cbn; constructor; [now apply mean_is|exact IH].
- split; [destruct l; easy|]; rewrite map_length, fold_map; field; now apply len_pos.
Qed.

(* ---- rows *)
Lemma rows_in A tag (it : item A) p : forall src spk tr r,
  In r (rows_of tag it src p spk tr) <->
  exists k o s t, nth_error p k = Some o /\ nth_error spk k = Some s /\ nth_error tr k = Some t /\
    r = mkrow (tag ++ "_" ++ data_id it ++ "_" ++ str_nat (src + k)) (tag ++ "_" ++ data_id it ++ "_ch" ++ str_nat (src + k) ++ ".wav")
       (nth_error (signals it) o) s t.
Proof.
induction p as [|o p IH]; intros src spk tr r; cbn [rows_of].
- split; [easy|]; intros (k & o & s & t & h & _); now destruct k.
- destruct spk as [|s spk]; [split; [easy|]; intros (k & ? & ? & ? & _ & h & _); now destruct k|].
  destruct tr as [|t tr]; [split; [easy|]; intros (k & ? & ? & ? & _ & _ & h & _); now destruct k|].
  cbn [In]; rewrite IH; split.
  + intros [<-|(k & o' & s' & t' & h1 & h2 & h3 & ->)].
    * exists 0%nat, o, s, t; rewrite Nat.add_0_r; repeat split.
    * exists (S k), o', s', t'; rewrite <- Nat.add_succ_comm; repeat split; assumption.
  + intros (k & o' & s' & t' & h1 & h2 & h3 & ->); destruct k as [|k].
    * left; cbn in h1, h2, h3; injection h1 as <-; injection h2 as <-; injection h3 as <-; now rewrite Nat.add_0_r.
    * right; exists k, o', s', t'; rewrite Nat.add_succ_comm; repeat split; assumption.
Qed.

(* ---- identifiers *)
Lemma app_inv_l a b c : (a ++ b = a ++ c)%string -> b = c.
Proof. induction a as [|x a IH]; cbn; intros h; [exact h|]; injection h as h; auto. Qed.
Lemma app_nil_r s : (s ++ "" = s)%string.
Proof. induction s as [|x s IH]; cbn; congruence. Qed.
Lemma app_assoc a b c : ((a ++ b) ++ c = a ++ (b ++ c))%string.
Proof. induction a as [|x a IH]; cbn; congruence. Qed.
(* c does not occur in s *)
Fixpoint free (c : ascii) (s : string) : bool :=
  match s with EmptyString => true | String d s' => negb (Ascii.eqb c d) && free c s' end.
Lemma free_app c a b : free c (a ++ b) = free c a && free c b.
Proof. induction a as [|x a IH]; cbn; [reflexivity|]; now rewrite IH, andb_assoc. Qed.
(* the last underscore splits a string in one way *)
Lemma free_sep c a b : free c (a ++ String c b) = true -> False.
Proof. rewrite free_app; cbn; rewrite Ascii.eqb_refl; cbn; now rewrite andb_false_r. Qed.
Lemma split_last c a b a' b' : free c b = true -> free c b' = true ->
  (a ++ String c b = a' ++ String c b')%string -> a = a' /\ b = b'.
Proof.
revert a'; induction a as [|x a IH]; intros [|x' a'] h h'; cbn; intros e.
- now injection e as ->.
- injection e as -> e; subst b; now apply free_sep in h.
- injection e as -> e; subst b'; now apply free_sep in h'.
- injection e as -> e; destruct (IH a' h h' e) as [-> ->]; now split.
Qed.
Lemma uint_free c u : In c ["_"; "."; "c"; "h"]%char -> free c (NilEmpty.string_of_uint u) = true.
Proof. intros h; induction u; cbn; auto; rewrite IHu, andb_true_r; destruct h as [<-|[<-|[<-|[<-|[]]]]]; reflexivity. Qed.
Lemma nat_free c n : In c ["_"; "."; "c"; "h"]%char -> free c (str_nat n) = true.
Proof.
intros h; unfold str_nat, NilZero.string_of_uint; destruct (Nat.to_uint n) eqn:E; try (rewrite <- E; now apply uint_free); try now apply uint_free.
destruct h as [<-|[<-|[<-|[<-|[]]]]]; reflexivity.
Qed.
Lemma nil_to_uint n : Nat.to_uint n <> Decimal.Nil.
Proof.
intros h; pose proof (DecimalNat.Unsigned.of_to n) as e; rewrite h in e; cbn in e; subst n; discriminate h.
Qed.
Lemma str_nat_inj m n : str_nat m = str_nat n -> m = n.
Proof.
intros h; apply DecimalNat.Unsigned.to_uint_inj.
pose proof (NilZero.usu _ (nil_to_uint m)) as hm; pose proof (NilZero.usu _ (nil_to_uint n)) as hn.
unfold str_nat in h; rewrite h in hm; rewrite hn in hm; now injection hm.
Qed.
Lemma id_inj tag d d' k k' :
  (tag ++ "_" ++ d ++ "_" ++ str_nat k = tag ++ "_" ++ d' ++ "_" ++ str_nat k')%string -> d = d' /\ k = k'.
Proof.
intros h; apply app_inv_l in h; apply app_inv_l in h; cbn in h.
apply split_last in h; [|apply nat_free; cbn; tauto|apply nat_free; cbn; tauto].
destruct h as [-> h]; split; [reflexivity|now apply str_nat_inj].
Qed.
Lemma wav_inj tag d d' k k' :
  (tag ++ "_" ++ d ++ "_ch" ++ str_nat k ++ ".wav" = tag ++ "_" ++ d' ++ "_ch" ++ str_nat k' ++ ".wav")%string -> d = d' /\ k = k'.
Proof.
intros h; apply app_inv_l in h; apply app_inv_l in h; cbn in h.
assert (f : forall n, free "_" (String "c" (String "h" (str_nat n ++ ".wav"))) = true).
{ intros n; cbn; rewrite free_app, nat_free by (cbn; tauto); reflexivity. }
apply split_last in h; try apply f; destruct h as [-> h]; split; [reflexivity|].
injection h as h; apply split_last in h; [|reflexivity|reflexivity]; apply str_nat_inj, h.
Qed.
Lemma nodup_app A (l l' : list A) : NoDup l -> NoDup l' -> (forall x, In x l -> In x l' -> False) -> NoDup (l ++ l').
Proof.
intros h h' d; induction h as [|x l hx hl IH]; cbn; [exact h'|]; constructor.
- intros i; apply in_app_or in i; destruct i as [i|i]; [easy|]; now apply (d x); [left|].
- apply IH; intros y hy; apply d; now right.
Qed.
Section Nodup.
Variables (A : Type) (tag : string) (g : row A -> string) (mk : string -> nat -> string).
Hypothesis gE : forall (it : item A) k o s t, g (mkrow (tag ++ "_" ++ data_id it ++ "_" ++ str_nat k)
   (tag ++ "_" ++ data_id it ++ "_ch" ++ str_nat k ++ ".wav") (nth_error (signals it) o) s t) = mk (data_id it) k.
Hypothesis inj : forall d d' k k', mk d k = mk d' k' -> d = d' /\ k = k'.
Lemma rows_nodup it p : forall src spk tr, NoDup (map g (rows_of tag it src p spk tr)).
Proof.
induction p as [|o p IH]; intros src spk tr; cbn [rows_of]; [constructor|].
destruct spk as [|s spk]; [constructor|]; destruct tr as [|t tr]; [constructor|]; cbn [map]; constructor; [|apply IH].
rewrite gE; intros h; apply in_map_iff in h; destruct h as (r & h & hr).
apply rows_in in hr; destruct hr as (k & o' & s' & t' & _ & _ & _ & ->).
rewrite gE in h; apply inj in h; lia.
Qed.
Lemma all_nodup (its : list (item A)) : NoDup (map (@data_id A) its) ->
  NoDup (map g (flat_map (fun it => rows_of tag it 0 (perm it) (speaker_id it) (transcript it)) its)).
Proof.
induction its as [|it its IH]; intros h; cbn; [constructor|]; inversion h as [|? ? h1 h2]; subst.
rewrite map_app; apply nodup_app; [apply rows_nodup|now apply IH|].
intros x hx hy; apply in_map_iff in hx; destruct hx as (r & <- & hr); apply in_map_iff in hy; destruct hy as (r' & e & hr').
apply in_flat_map in hr'; destruct hr' as (it' & hi & hr').
apply rows_in in hr; destruct hr as (k & o & s & t & _ & _ & _ & ->).
apply rows_in in hr'; destruct hr' as (k' & o' & s' & t' & _ & _ & _ & ->).
rewrite !gE in e; apply inj in e; destruct e as [e _]; apply h1; rewrite <- e; now apply in_map.
Qed.
End Nodup.

(* ---- evaluate *)
Lemma evaluate_ok A tag limit (ds : list (item A)) o : evaluate tag limit ds = Ok o ->
  run limit 0 ds <> [] /\ o_rows o = flat_map (fun it => rows_of tag it 0 (perm it) (speaker_id it) (transcript it)) (run limit 0 ds) /\
  (exists r, nth_error (o_rows o) 0 = Some r /\ o_speaker o = r_speaker r) /\
  let n := inject_Z (Z.of_nat (length (run limit 0 ds))) in
  o_summary o = mksum (totals (@sdr A) (run limit 0 ds) / n) (totals (@sir A) (run limit 0 ds) / n)
     (totals (@mix_sdr A) (run limit 0 ds) / n) (totals (@mix_sir A) (run limit 0 ds) / n).
Proof.
unfold evaluate; generalize (run limit 0 ds); intros [|it its]; [discriminate|].
set (n := inject_Z _); destruct (flat_map _ (it :: its)) as [|r rs]; [discriminate|]; intros h; injection h as <-.
split; [discriminate|]; split; [reflexivity|]; split; [now exists r|reflexivity].
Qed.
Lemma evaluate_err A tag limit (ds : list (item A)) :
  is_ok (evaluate tag limit ds) = negb (match flat_map (fun it => rows_of tag it 0 (perm it) (speaker_id it) (transcript it)) (run limit 0 ds) with [] => true | _ => false end).
Proof.
unfold evaluate; generalize (run limit 0 ds); intros [|it its]; [reflexivity|].
now destruct (flat_map _ (it :: its)).
Qed.
Lemma summary_means A tag limit (ds : list (item A)) o : evaluate tag limit ds = Ok o ->
  Forall (fun it => sdr it <> [] /\ sir it <> [] /\ mix_sdr it <> [] /\ mix_sir it <> []) (run limit 0 ds) ->
  mean_of_means (@sdr A) (run limit 0 ds) (s_sdr (o_summary o)) /\ mean_of_means (@sir A) (run limit 0 ds) (s_sir (o_summary o)) /\
  mean_of_means (@mix_sdr A) (run limit 0 ds) (s_mix_sdr (o_summary o)) /\ mean_of_means (@mix_sir A) (run limit 0 ds) (s_mix_sir (o_summary o)).
Proof.
intros h hf; apply evaluate_ok in h; destruct h as (h0 & _ & _ & ->); cbn.
repeat split; apply total_mean; auto; revert hf; apply Forall_impl; tauto.
Qed.
Lemma rows_iff A tag limit (ds : list (item A)) o : evaluate tag limit ds = Ok o -> forall r,
  In r (o_rows o) <-> exists it k c s t, In it (run limit 0 ds) /\ nth_error (perm it) k = Some c /\
    nth_error (speaker_id it) k = Some s /\ nth_error (transcript it) k = Some t /\
    r = mkrow (tag ++ "_" ++ data_id it ++ "_" ++ str_nat k) (tag ++ "_" ++ data_id it ++ "_ch" ++ str_nat k ++ ".wav")
       (nth_error (signals it) c) s t.
Proof.
intros h r; apply evaluate_ok in h; destruct h as (_ & -> & _); rewrite in_flat_map; split.
- intros (it & hi & hr); apply rows_in in hr; destruct hr as (k & c & s & t & ? & ? & ? & ->).
  now exists it, k, c, s, t.
- intros (it & k & c & s & t & hi & ? & ? & ? & ->); exists it; split; [exact hi|]; apply rows_in.
  now exists k, c, s, t.
Qed.
Lemma rows_distinct A tag limit (ds : list (item A)) o : evaluate tag limit ds = Ok o ->
  NoDup (map (@data_id A) (run limit 0 ds)) ->
  NoDup (map (@utterance_id A) (o_rows o)) /\ NoDup (map (@wav_name A) (o_rows o)).
Proof.
intros h hn; apply evaluate_ok in h; destruct h as (_ & -> & _); split.
- apply all_nodup with (mk := fun d k => (tag ++ "_" ++ d ++ "_" ++ str_nat k)%string); auto; intros d d' k k'; apply id_inj.
- apply all_nodup with (mk := fun d k => (tag ++ "_" ++ d ++ "_ch" ++ str_nat k ++ ".wav")%string); auto; intros d d' k k'; apply wav_inj.
Qed.

(* ---- checkpoints *)
Lemma prefix_iff pat s : prefix pat s = true <-> exists b, s = (pat ++ b)%string.
Proof.
revert s; induction pat as [|c pat IH]; intros s; [split; [now exists s|now destruct s]|].
destruct s as [|d s]; [split; [discriminate|intros [b h]; discriminate]|].
cbn; destruct (ascii_dec c d) as [->|ne].
- rewrite IH; split; intros [b h]; exists b; [now rewrite h|now injection h].
- split; [discriminate|]; intros [b h]; injection h as h _; congruence.
Qed.
Lemma contains_iff pat s : contains pat s = true <-> occurs pat s.
Proof.
induction s as [|c s IH]; cbn [contains]; rewrite orb_true_iff, prefix_iff.
- split; [intros [[b h]|h]; [|discriminate]; now exists ""%string, b|].
  intros (a & b & h); left; destruct a; [now exists b|discriminate].
- rewrite IH; split.
  + intros [[b h]|(a & b & h)]; [now exists ""%string, b|]; exists (String c a), b; cbn; now rewrite h.
  + intros (a & b & h); destruct a as [|d a]; [left; now exists b|].
    right; exists a, b; now injection h.
Qed.
Lemma pick_iff ckpts e c : pick_checkpoint ckpts e = Ok c <->
  exists l r, ckpts = l ++ c :: r /\ occurs ("epoch=" ++ e ++ "-") c /\ forall x, In x l -> ~ occurs ("epoch=" ++ e ++ "-") x.
Proof.
unfold pick_checkpoint; induction ckpts as [|x xs IH]; cbn [find].
- split; [discriminate|]; intros (l & r & h & _); now destruct l.
- destruct (contains _ x) eqn:E.
  + split.
    * intros h; injection h as <-; exists [], xs; split; [reflexivity|]; split; [now apply contains_iff|easy].
    * intros (l & r & h & hc & hl); destruct l as [|y l]; [now injection h as ->|].
      injection h as -> h; exfalso; apply (hl y); [now left|now apply contains_iff].
  + rewrite IH; split.
    * intros (l & r & -> & hc & hl); exists (x :: l), r; split; [reflexivity|]; split; [exact hc|].
      intros y [<-|hy]; [intros h; apply contains_iff in h; congruence|now apply hl].
    * intros (l & r & h & hc & hl); destruct l as [|y l].
      -- injection h as -> h; apply contains_iff in hc; congruence.
      -- injection h as -> h; exists l, r; split; [exact h|]; split; [exact hc|]; intros z hz; apply hl; now right.
Qed.
Lemma pick_err ckpts e : pick_checkpoint ckpts e = Err UnboundLocalError <->
  forall x, In x ckpts -> ~ occurs ("epoch=" ++ e ++ "-") x.
Proof.
unfold pick_checkpoint; destruct (find _ ckpts) eqn:E.
- split; [discriminate|]; intros h; apply find_some in E; destruct E as [i E]; exfalso; apply (h _ i); now apply contains_iff.
- split; [|reflexivity]; intros _ x hx ho; apply contains_iff in ho; rewrite (find_none _ _ E x hx) in ho; discriminate.
Qed.

(* ---- checkpoints named by their epoch *)
Lemma free_iff c s : free c s = true <-> ~ occurs (String c "") s.
Proof.
split.
- intros h (a & b & ->); cbn in h; now apply free_sep in h.
- induction s as [|d s IH]; cbn; intros h; [reflexivity|]; rewrite IH.
  + destruct (Ascii.eqb_spec c d) as [->|ne]; [|reflexivity]; exfalso; apply h; now exists ""%string, s.
  + intros (a & b & ->); apply h; now exists (String d a), b.
Qed.
Lemma split_first c a b a' b' : free c a = true -> free c a' = true ->
  (a ++ String c b = a' ++ String c b')%string -> a = a' /\ b = b'.
Proof.
revert a'; induction a as [|x a IH]; intros [|x' a'] h h'; cbn; intros e.
- now injection e as ->.
- injection e as -> _; cbn in h'; now rewrite Ascii.eqb_refl in h'.
- injection e as -> _; cbn in h; now rewrite Ascii.eqb_refl in h.
- injection e as -> e; cbn in h, h'; apply andb_prop in h, h'.
  destruct (IH a' (proj2 h) (proj2 h') e) as [-> ->]; now split.
Qed.
Lemma app_cases a x d y : (a ++ x = d ++ y)%string ->
  (exists t, d = (a ++ t)%string /\ x = (t ++ y)%string) \/ (exists t, a = (d ++ t)%string /\ y = (t ++ x)%string).
Proof.
revert d; induction a as [|c a IH]; intros d; cbn; intros h; [left; now exists d|].
destruct d as [|c' d]; cbn in h; [right; now exists (String c a)|].
injection h as -> h; destruct (IH d h) as [(t & -> & ->)|(t & -> & ->)]; [left|right]; now exists t.
Qed.
Lemma skip_free c t z f y : free c f = true -> (t ++ String c z = f ++ y)%string -> exists t', y = (t' ++ String c z)%string.
Proof.
intros hf h; destruct (app_cases _ _ _ _ h) as [(u & -> & e)|(u & -> & ->)]; [|now exists u].
destruct u as [|c' u]; [now exists ""%string|]; injection e as <- _; exfalso; now apply free_sep in hf.
Qed.
Lemma occurs_epoch dir f rest e : ~ occurs "=" dir -> ~ occurs "-" f -> ~ occurs "e" f -> ~ occurs "epoch=" rest ->
  ~ occurs "-" e -> (occurs ("epoch=" ++ e ++ "-") (ckpt_path dir (f, rest)) <-> e = f).
Proof.
rewrite <- !free_iff; intros hd hf he hr hm; split; [|intros ->; exists dir, rest; unfold ckpt_path; now rewrite !app_assoc].
unfold ckpt_path; intros (a & b & h); cbn [fst snd] in h; rewrite !app_assoc in h.
assert (h' : ((dir ++ "epoch") ++ String "=" (f ++ "-" ++ rest) = (a ++ "epoch") ++ String "=" (e ++ "-" ++ b))%string) by (rewrite !app_assoc; exact h).
destruct (free "=" a) eqn:fa.
- apply split_first in h'; [|now rewrite free_app, hd|now rewrite free_app, fa]; destruct h' as [_ h'].
  apply split_first in h'; [now symmetry|exact hf|exact hm].
- exfalso; symmetry in h'; rewrite app_assoc in h'.
  destruct (app_cases _ _ _ _ h') as [(t & h1 & h2)|(t & -> & h2)].
  + assert (free "=" (dir ++ "epoch") = true) as hh by (now rewrite free_app, hd); rewrite h1, free_app, fa in hh; discriminate.
  + destruct t as [|c t]; [rewrite free_app in fa; cbn in fa; rewrite free_app, hd in fa; discriminate|].
    injection h2 as <- h2; apply hr.
    assert (h3 : (t ++ String "e" ("poch=" ++ e ++ "-" ++ b) = (f ++ "-") ++ rest)%string) by (rewrite app_assoc; symmetry; exact h2).
    apply skip_free in h3; [|now rewrite free_app, he].
    destruct h3 as [t' ->]; now exists t', (e ++ "-" ++ b)%string.
Qed.
Lemma pick_named dir l e : ~ occurs "=" dir -> ~ occurs "-" e ->
  (forall f r, In (f, r) l -> ~ occurs "-" f /\ ~ occurs "e" f /\ ~ occurs "epoch=" r) ->
  (forall c, pick_checkpoint (map (ckpt_path dir) l) e = Ok c -> exists r, In (e, r) l /\ c = ckpt_path dir (e, r)) /\
  (forall r, In (e, r) l -> is_ok (pick_checkpoint (map (ckpt_path dir) l) e) = true).
Proof.
intros hd he hl; split.
- intros c h; apply pick_iff in h; destruct h as (a & b & h & ho & _).
  assert (hi : In c (map (ckpt_path dir) l)) by (rewrite h; apply in_or_app; right; now left).
  apply in_map_iff in hi; destruct hi as ([f r] & <- & hi); destruct (hl f r hi) as (h1 & h2 & h3).
  apply occurs_epoch in ho; auto; subst f; now exists r.
- intros r hi; destruct (pick_checkpoint _ e) eqn:E; [reflexivity|].
  assert (E' : pick_checkpoint (map (ckpt_path dir) l) e = Err UnboundLocalError).
  { revert E; unfold pick_checkpoint; now destruct (find _ _). }
  destruct (hl e r hi) as (h1 & h2 & h3).
  exfalso; apply (proj1 (pick_err _ _) E' (ckpt_path dir (e, r))); [now apply in_map|]; now apply occurs_epoch.
Qed.

(* ---- number of sources *)
Lemma last_app d p c : last_char d (p ++ String c "") = c.
Proof. revert d; induction p as [|x p IH]; intros d; cbn; [reflexivity|apply IH]. Qed.
Lemma n_src_digit p k : (k < 10)%nat -> n_src_of (p ++ str_nat k) = Z.of_nat k.
Proof. intros h; unfold n_src_of; do 10 (destruct k as [|k]; [unfold str_nat; cbn [Nat.to_uint Nat.to_little_uint Decimal.Little.succ Decimal.rev Decimal.revapp NilZero.string_of_uint NilEmpty.string_of_uint]; now rewrite last_app|]); lia. Qed.
Lemma n_src_other p c : ~ (48 <= nat_of_ascii c <= 57)%nat -> n_src_of (p ++ String c "") = 2%Z.
Proof.
intros h; unfold n_src_of; rewrite last_app; unfold digit.
destruct (Z.leb_spec 48 (Z.of_nat (nat_of_ascii c))), (Z.leb_spec (Z.of_nat (nat_of_ascii c)) 57); cbn; auto; lia.
Qed.
Lemma channels_ok n l : channels n = Ok l -> (2 <= n <= 6)%Z /\ Z.of_nat (length l) = n /\ NoDup l /\
  hd_error l = Some 0%nat /\ forall c, In c l -> (c < 6)%nat.
Proof.
assert (h : forall l, (if list_eq_dec Nat.eq_dec (nodup Nat.eq_dec l) l then true else false) = true -> NoDup l).
{ intros l0; destruct (list_eq_dec _ _ _) as [e|]; [|discriminate]; intros _; rewrite <- e; apply NoDup_nodup. }
unfold channels; destruct n as [|n|n]; try discriminate.
do 3 (try (destruct n as [n|n|]; try discriminate)); intros e; injection e as <-;
 (split; [lia|]; split; [reflexivity|]; split; [now apply h|]; split; [reflexivity|]; cbn; intuition lia).
Qed.
Lemma channels_err n : ~ (2 <= n <= 6)%Z -> channels n = Err NameError.
Proof.
intros h; unfold channels; destruct n as [|n|n]; try reflexivity.
do 3 (try (destruct n as [n|n|]; try reflexivity)); lia.
Qed.

(* ---- write_wav *)
Local Open Scope Q_scope.
Lemma peak_ge_acc x m : m <= fold_left (fun m v => if Qle_bool m (Qabs v) then Qabs v else m) x m.
Proof.
revert m; induction x as [|v x IH]; intros m; cbn; [apply Qle_refl|].
destruct (Qle_bool m (Qabs v)) eqn:E; [|apply IH].
apply Qle_bool_iff in E; eapply Qle_trans; [exact E|apply IH].
Qed.
Lemma peak_ge x v m : In v x -> Qabs v <= fold_left (fun m v => if Qle_bool m (Qabs v) then Qabs v else m) x m.
Proof.
revert m; induction x as [|w x IH]; intros m; [easy|]; intros [->|h]; cbn; [|now apply IH].
destruct (Qle_bool m (Qabs v)) eqn:E; [apply peak_ge_acc|].
eapply Qle_trans; [|apply peak_ge_acc]; apply Qlt_le_weak, Qnot_le_lt; intros h; apply Qle_bool_iff in h; congruence.
Qed.
Lemma peak_in x m : fold_left (fun m v => if Qle_bool m (Qabs v) then Qabs v else m) x m = m \/
  exists v, In v x /\ fold_left (fun m v => if Qle_bool m (Qabs v) then Qabs v else m) x m = Qabs v.
Proof.
revert m; induction x as [|w x IH]; intros m; cbn; [now left|].
destruct (Qle_bool m (Qabs w)).
- destruct (IH (Qabs w)) as [->|(v & h & ->)]; right; [exists w|exists v]; tauto.
- destruct (IH m) as [->|(v & h & ->)]; [now left|right; exists v; tauto].
Qed.
Lemma peak_pos x : (exists v, In v x /\ ~ v == 0) -> 0 < peak x.
Proof.
intros (v & h & ne); eapply Qlt_le_trans; [|apply (peak_ge x v 0 h)].
destruct (Qlt_le_dec 0 (Qabs v)) as [l|l]; [exact l|]; exfalso; apply ne.
pose proof (Qabs_nonneg v) as nn; revert l nn; apply Qabs_case; intros; lra.
Qed.
Lemma sample_bound v m : 0 < m -> Qabs v <= m -> (Z.abs (trunc (((95 # 100) * v / m) * inject_Z (2 ^ 15))) <= 31129)%Z.
Proof.
intros hm hv; set (q := _ * inject_Z _).
assert (hb : - (31129 + (6#10)) <= q <= 31129 + (6#10)).
{ apply Qabs_Qle_condition; unfold q.
  setoid_replace ((95 # 100) * v / m * inject_Z (2 ^ 15)) with ((v / m) * (31129 + (6#10))) by (change (inject_Z (2 ^ 15)) with 32768; field; lra).
  rewrite Qabs_Qmult; setoid_replace (Qabs (31129 + (6 # 10))) with (31129 + (6#10)) by reflexivity.
  assert (Qabs (v / m) <= 1).
  { unfold Qdiv; rewrite Qabs_Qmult, Qabs_Qinv, (Qabs_pos m) by lra.
    apply Qle_shift_div_r; lra. }
  assert (0 <= Qabs (v/m)) by apply Qabs_nonneg. nra. }
unfold trunc; destruct (Qle_bool 0 q) eqn:E.
- assert (Qfloor q <= 31129)%Z.
  { assert (Qfloor q < 31130)%Z; [|lia]. rewrite Zlt_Qlt; eapply Qle_lt_trans; [apply Qfloor_le|]. change (inject_Z 31130) with 31130; lra. }
  assert (0 <= Qfloor q)%Z by (apply Qle_bool_iff in E; change 0%Z with (Qfloor 0); now apply Qfloor_resp_le). lia.
- assert (q <= 0) by (apply Qlt_le_weak, Qnot_le_lt; intros h; apply Qle_bool_iff in h; congruence).
  assert (- 31129 <= Qceiling q)%Z.
  { assert (-31130 < Qceiling q)%Z; [|lia]. rewrite Zlt_Qlt; eapply Qlt_le_trans; [|apply Qle_ceiling]. change (inject_Z (-31130)) with (-31130); lra. }
  assert (Qceiling q <= 0)%Z by (change 0%Z with (Qceiling 0); now apply Qceiling_resp_le). lia.
Qed.
Lemma trunc_comp p q : p == q -> trunc p = trunc q.
Proof. intros h; unfold trunc; rewrite (Qfloor_comp _ _ h), (Qceiling_comp _ _ h).
assert (e : Qle_bool 0 p = Qle_bool 0 q); [|now rewrite e].
apply eq_true_iff_eq; rewrite !Qle_bool_iff, h; reflexivity. Qed.
Lemma sample_peak v : ~ v == 0 -> (Z.abs (trunc (((95 # 100) * v / Qabs v) * inject_Z (2 ^ 15))) = 31129)%Z.
Proof.
intros ne; destruct (Qlt_le_dec 0 v) as [l|l].
- rewrite (@trunc_comp _ (31129 + (6#10))); [reflexivity|]; rewrite Qabs_pos by lra; change (inject_Z (2 ^ 15)) with 32768; field; lra.
- rewrite (@trunc_comp _ (- (31129 + (6#10)))); [reflexivity|]; rewrite Qabs_neg by lra; change (inject_Z (2 ^ 15)) with 32768; field; lra.
Qed.
Lemma wav_range x : (exists v, In v x /\ ~ v == 0) ->
  (forall z, In z (write_wav x) -> (Z.abs z <= 31129)%Z) /\ exists z, In z (write_wav x) /\ (Z.abs z = 31129)%Z.
Proof.
intros h; pose proof (peak_pos x h) as hp; split.
- intros z hz; apply in_map_iff in hz; destruct hz as (v & <- & hv); apply sample_bound; [exact hp|now apply peak_ge].
- destruct (peak_in x 0) as [e|(v & hv & e)]; [unfold peak in hp; rewrite e in hp; now apply Qlt_irrefl in hp|].
  exists (trunc (((95 # 100) * v / peak x) * inject_Z (2 ^ 15))); split; [apply (in_map (fun v => trunc (((95 # 100) * v / peak x) * inject_Z (2 ^ 15)))); exact hv|].
  unfold peak; rewrite e; apply sample_peak; intros h0; unfold peak in hp; rewrite e, h0 in hp; now apply Qlt_irrefl in hp.
Qed.

(* ---- validation *)
Lemma val_neg b : val_cisdr b == - val_loss b.
Proof. unfold val_cisdr, val_loss; rewrite fold_map, fold_map_neg; unfold Qdiv; ring. Qed.
Lemma val_means b : b <> [] -> Forall (fun l => l <> []) b -> mean_of_means (fun l => l) b (val_loss b).
Proof. intros h1 h2; exact (total_mean (fun l => l) h1 h2). Qed.
Lemma sum_app l l' : sum (l ++ l') == sum l + sum l'.
Proof. unfold sum; induction l as [|x l IH]; cbn [app fold_right]; [ring|]; rewrite IH; ring. Qed.
Lemma val_equal b k : b <> [] -> Forall (fun l => length l = S k) b -> is_mean (val_loss b) (concat b).
Proof.
intros h0 h.
assert (hl : length (concat b) = (length b * S k)%nat).
{ clear h0; induction h as [|l b e _ IH]; [reflexivity|]; cbn [concat length]; rewrite app_length, IH, e; reflexivity. }
assert (hs : sum (map mean_of b) * inject_Z (Z.of_nat (S k)) == sum (concat b)).
{ clear h0 hl; induction h as [|l b e _ IH]; [unfold sum; cbn [map concat fold_right]; ring|].
  cbn [concat map]; rewrite sum_app, <- IH; unfold sum at 1; cbn [fold_right]; fold (sum (map mean_of b)).
  assert (l <> []) as hn by (intros ->; discriminate e); destruct (mean_is hn) as [_ hm]; rewrite <- hm, e; ring. }
split.
- intros e; rewrite e in hl; destruct b; [easy|discriminate hl].
- rewrite hl, Nat2Z.inj_mul, inject_Z_mult; unfold val_loss; rewrite fold_map, <- hs; field; now apply len_pos.
Qed.

(* ---- collected *)
Lemma run_all A (ds : list A) : run None 0 ds = ds /\ (forall l, (l < 0)%Z -> run (Some l) 0 ds = ds) /\
  (forall n, run (Some (Z.of_nat n)) 0 ds = firstn (S n) ds).
Proof.
split; [apply run_none|]; split; [intros l; apply run_neg|]; intros n; rewrite run_some by lia; now rewrite Z.sub_0_r, Nat2Z.id.
Qed.
Lemma run_nil A limit i (ds : list A) : run limit i ds = [] <-> ds = [].
Proof. destruct ds; cbn; split; easy. Qed.
Lemma rows_nil A tag (it : item A) : rows_of tag it 0 (perm it) (speaker_id it) (transcript it) = [] <->
  perm it = [] \/ speaker_id it = [] \/ transcript it = [].
Proof. destruct (perm it), (speaker_id it), (transcript it); cbn; split; try tauto; try easy; intuition discriminate. Qed.
Lemma flat_nil A B (f : A -> list B) l : flat_map f l = [] <-> forall x, In x l -> f x = [].
Proof.
induction l as [|x l IH]; cbn; [split; easy|]; split.
- intros h; apply app_eq_nil in h; destruct h as [h1 h2]; intros y [<-|hy]; [exact h1|now apply IH].
- intros h; rewrite (h x (or_introl eq_refl)); cbn; apply IH; intros y hy; apply h; now right.
Qed.
Lemma evaluate_errors A tag limit (ds : list (item A)) :
  (evaluate tag limit ds = Err NameError <-> ds = []) /\
  (evaluate tag limit ds = Err IndexError <-> ds <> [] /\
     forall it, In it (run limit 0 ds) -> perm it = [] \/ speaker_id it = [] \/ transcript it = []) /\
  (forall e, evaluate tag limit ds = Err e -> e = NameError \/ e = IndexError).
Proof.
assert (hr : (forall it, In it (run limit 0 ds) -> perm it = [] \/ speaker_id it = [] \/ transcript it = []) <->
  flat_map (fun it => rows_of tag it 0 (perm it) (speaker_id it) (transcript it)) (run limit 0 ds) = []).
{ rewrite flat_nil; split; intros h it hi; apply (rows_nil tag it), h, hi. }
rewrite hr, <- (run_nil limit 0 ds); clear hr; unfold evaluate.
generalize (run limit 0 ds); intros [|it its].
- repeat split; try easy; try (intros [h _]; now destruct h); intros e h; injection h as <-; now left.
- destruct (flat_map _ (it :: its)) as [|r rs]; repeat split; try easy; intros e h; injection h as <-; now right.
Qed.
Lemma val_all b : b <> [] -> Forall (fun l => l <> []) b ->
  val_cisdr b == - val_loss b /\ mean_of_means (fun l => l) b (val_loss b) /\
  (forall k, Forall (fun l => length l = S k) b -> is_mean (val_loss b) (concat b)).
Proof. intros h1 h2; split; [apply val_neg|]; split; [now apply val_means|]; intros k; now apply val_equal. Qed.
Lemma val_refuted : exists b : list (list Q), b <> [] /\ Forall (fun l => l <> []) b /\ ~ is_mean (val_loss b) (concat b).
Proof.
exists [[0; 0]; [6]]%list; split; [easy|]; split; [repeat constructor; easy|]; intros [_ h]; vm_compute in h; discriminate h.
Qed.
