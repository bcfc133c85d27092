(* Proofs of C82. *)
From Coq Require Import String List ZArith Bool.
From Verif Require Import Py PyObj ParamModel ParamSpec ParamProofs SepModel SepSpec SepProofs ChoiceModel ChoiceSpec.
Import ListNotations.
Local Open Scope string_scope.

Lemma window_lemma s : parse_window s = None.
Proof.
unfold parse_window. destruct (find _ _) as [p|] eqn:E; [|reflexivity].
apply find_some in E. destruct E as [E _]. simpl in E. repeat (destruct E as [<-|E]; [reflexivity|]). contradiction.
Qed.
Section P.
Variable gw : string -> Z -> result nat.
Variable fn : nat -> nat.
Variable td : nat -> val -> result nat.
Variable vl : nat -> option Z.
Variable dd : val.
Variable inst : dict -> result nat.
Variables (idm ids idt idsrc : nat).
Variable load : string -> list string -> result (sep * string * string).
Local Notation choose := (choose gw fn td vl dd inst idm ids idt idsrc load).
Local Notation init := (sep_init gw fn td vl dd inst idm ids idt).
Lemma gauss_lemma o n : o_ilrma o = false -> o_gauss o = true -> choose o n = Err TypeError.
Proof. intros h1 h2. unfold ChoiceModel.choose. now rewrite h1, h2. Qed.
Lemma ignored_lemma o o' n : o_ilrma o = false -> o_gauss o = false -> o_iss o = None ->
  o_ilrma o' = false -> o_gauss o' = false -> o_iss o' = None ->
  o_n_fft o = o_n_fft o' -> o_hop o = o_hop o' -> o_window o = o_window o' -> o_n_iter o = o_n_iter o' -> o_algo o = o_algo o' ->
  choose o n = choose o' n.
Proof.
intros h1 h2 h3 h1' h2' h3' e1 e2 e3 e4 e5. unfold ChoiceModel.choose, hop_of.
now rewrite h1, h2, h3, h1', h2', h3', e1, e2, e3, e4, e5.
Qed.
Lemma epoch_lemma o n p : o_ilrma o = false -> o_gauss o = false -> o_iss o = Some p -> o_epoch o = None ->
  choose o n = Err TypeError.
Proof. intros h1 h2 h3 h4. unfold ChoiceModel.choose. now rewrite h1, h2, h3, h4. Qed.
Local Notation classic_args := (asked idsrc).
Lemma classicE o n : o_gauss o = false -> o_iss o = None -> choose o n =
  bind (init (classic_args o n)) (fun s => Ok (if o_ilrma o then mkchosen s true "ilrma" "nmf" (o_algo o)
     else mkchosen s false "iva" "laplace" "iva_laplace")).
Proof. intros h1 h2. unfold ChoiceModel.choose. rewrite h1, h2. now destruct (o_ilrma o). Qed.

(* an attribute which is not a registered module *)
Definition free (o : obj) k := dget (mods o) k = None.
Lemma free_set o k v o' j : setattr [] o j v = Ok o' -> j <> k \/ (forall i, v <> VMod i) -> free o k -> free o' k.
Proof.
unfold free; intros h ne f.
assert (M : mods o' = mods o \/ mods o' = dset (mods o) j v /\ (j <> k)).
{ unfold setattr in h. destruct v as [| | | | |i| | | |]; try (destruct (dget (mods o) j) as [u|] eqn:E; [try discriminate h|injection h as <-; now left]).
  - injection h as <-. right. split; [reflexivity|]. congruence.
  - injection h as <-. right. split; [reflexivity|]. destruct ne as [ne|ne]; [exact ne|now elim (ne i)]. }
destruct M as [->|[-> n]]; [exact f|]. rewrite dget_dset_ne by congruence. exact f.
Qed.
Lemma free_algo o v o' w k : set_algo o v = Ok (o', w) -> k <> "_algo" -> k <> "algo" -> free o k -> free o' k.
Proof.
intros h n1 n2 f.
assert ((exists i, v = VMod i) \/ forall i, v <> VMod i) as [[i ->]|nv] by (destruct v; eauto; right; discriminate).
- simpl in h. injection h as <- _. unfold free; simpl. rewrite dget_dset_ne by congruence. exact f.
- rewrite set_algoE in h by auto.
  destruct (sepalgo_member v) as [m|]; [rewrite bind_ok in h|discriminate h].
  destruct (setattr [] o "_algo" (VMember "SepAlgo" m)) as [o1|] eqn:E; [rewrite bind_ok in h|discriminate h].
  assert (o1 = o') as <-.
  { destruct (is_five v); [|now injection h].
    destruct (raw_get o1 "n_src") as [n|]; [rewrite bind_ok in h|discriminate h].
    destruct (is_none n); [now injection h|].
    destruct (gt1 n); [rewrite bind_ok in h; now injection h|discriminate h]. }
  eapply free_set; [exact E|left; congruence|exact f].
Qed.
Lemma free_init a s i : a_n_iter a = VInt i -> init a = Ok s -> free (self s) "n_iter" /\ recorded_n_iter s = Ok (VInt i).
Proof.
intros Hi h. unfold sep_init in h.
match type of h with bind ?x _ = _ => destruct x as [m|]; [rewrite bind_ok in h|discriminate h] end.
destruct (setattr [] empty_obj "source_model" m) as [o1|] eqn:E1; [rewrite bind_ok in h|discriminate h].
destruct (setattr [] o1 "n_src" (a_n_src a)) as [o2|] eqn:E2; [rewrite bind_ok in h|discriminate h].
destruct (set_algo o2 (a_algo a)) as [[o3 w]|] eqn:E3; [rewrite bind_ok in h|discriminate h].
destruct (setattr [] o3 "n_iter" (a_n_iter a)) as [o4|] eqn:E4; [rewrite bind_ok in h|discriminate h].
match type of h with bind ?x _ = _ => destruct x as [so|]; [rewrite bind_ok in h|discriminate h] end.
destruct (setattr [] o4 "stft" (VMod idt)) as [o5|] eqn:E5; [rewrite bind_ok in h|discriminate h].
destruct (get_algo o5) as [alg|]; [rewrite bind_ok in h|discriminate h].
destruct (raw_get o5 "source_model") as [m'|]; [rewrite bind_ok in h|discriminate h].
destruct (dispatch alg a m') as [[c kw]|]; [|discriminate h].
destruct (construct c idm _) as [s'|]; [rewrite bind_ok in h|discriminate h].
destruct (setattr [] o5 "separator" (VMod ids)) as [o6|] eqn:E6; [rewrite bind_ok in h|discriminate h].
injection h as <-. simpl. split.
2:{ unfold recorded_n_iter; simpl.
  destruct (setattr_view _ _ _ _ _ disj0 E1) as (D1 & _). destruct (setattr_view _ _ _ _ _ D1 E2) as (D2 & _).
  destruct (set_algo_frame _ _ _ _ D2 E3) as (D3 & _). destruct (setattr_view _ _ _ _ _ D3 E4) as (D4 & V4 & _).
  destruct (setattr_view _ _ _ _ _ D4 E5) as (D5 & _ & V5). destruct (setattr_view _ _ _ _ _ D5 E6) as (D6 & _ & V6).
  rewrite raw_getE, V6, V5, V4 by discriminate. now rewrite Hi. }
eapply free_set; [exact E6|left; discriminate|].
eapply free_set; [exact E5|left; discriminate|].
eapply free_set; [exact E4|right; rewrite Hi; discriminate|].
eapply free_algo; [exact E3|discriminate|discriminate|].
eapply free_set; [exact E2|left; discriminate|].
eapply free_set; [exact E1|left; discriminate|]. reflexivity.
Qed.
Lemma write_other o k j v u : disj o -> j <> k -> k <> "algo" -> raw_get o j = Ok u -> disj (write o k v) /\ raw_get (write o k v) j = Ok u.
Proof.
intros D n na h. unfold write. apply String.eqb_neq in na. rewrite na.
destruct (setattr [] o k v) as [o'|] eqn:E; [|auto].
destruct (setattr_view _ _ _ _ _ D E) as (D' & _ & V). split; [exact D'|]. rewrite raw_getE, V, <- raw_getE by congruence. exact h.
Qed.
Lemma write_n_iter o i : disj o -> free o "n_iter" -> disj (write o "n_iter" (VInt i)) /\ raw_get (write o "n_iter" (VInt i)) "n_iter" = Ok (VInt i).
Proof.
intros D f. unfold write; simpl String.eqb; cbv iota.
destruct (setattr_plain [] o "n_iter" (VInt i)) as [o' H]; [discriminate|exact f|reflexivity|].
rewrite H. destruct (setattr_view _ _ _ _ _ D H) as (D' & V & _). split; [exact D'|]. now rewrite raw_getE, V.
Qed.
Definition adjust o n : list event :=
  [Write "n_iter" (VInt (o_n_iter o)); Write "n_src" (VInt n); Write "bss_nchan" (VInt (o_n_chan o));
   Write "bss_n_iter" (VInt 0); Write "dnn_nchan" (VInt (o_n_chan o))].
(* the separator of a training run: its processing keeps the configuration, the results show the option *)
Lemma trained_lemma o n p es a c m so s alg name i :
  o_ilrma o = false -> o_gauss o = false -> o_iss o = Some p -> o_epoch o = Some es ->
  named (a_algo a) c -> source_is inst idm (a_source a) m -> (iva c -> callable m = true) -> m <> VNone ->
  (a_n_src a = VNone \/ exists z, a_n_src a = VInt z) -> a_n_iter a = VInt i ->
  stft_init gw fn td vl dd (a_n_fft a) (a_hop a) (a_window a) VNone = Ok so ->
  init a = Ok s -> load p es = Ok (s, alg, name) ->
  exists ch, choose o n = Ok ch /\ c_reset ch = false /\ c_algo ch = alg /\ c_model ch = name /\
    recorded_n_iter (c_sep ch) = Ok (VInt (o_n_iter o)) /\
    forall h, Forall harmless h -> exists env, processing (fold_left step h (c_sep ch)) = Ok (c, env) /\
      (forall q, In q (map fst env) <-> is_param c q) /\ forall q v, dget env q = Some v -> wanted c a m q v.
Proof.
intros h1 h2 h3 h4 Na Sm Cm nm Ns Hi St Hs Hl.
eexists. split; [unfold ChoiceModel.choose; rewrite h1, h2, h3, h4, Hl; reflexivity|].
split; [reflexivity|]. split; [reflexivity|]. split; [reflexivity|]. split.
- destruct (sep_ok gw fn td vl dd inst idm ids idt a c m so Na Sm Cm nm Ns St) as (al & kw & s0 & E0 & _ & (D & _) & _).
  assert (s0 = s) as -> by congruence.
  destruct (free_init a s i Hi Hs) as [F _]. unfold recorded_n_iter; simpl.
  destruct (write_n_iter (self s) (o_n_iter o) D F) as (D1 & R1).
  destruct (write_other _ "n_src" "n_iter" (VInt n) _ D1 ltac:(discriminate) ltac:(discriminate) R1) as (D2 & R2).
  destruct (write_other _ "bss_nchan" "n_iter" (VInt (o_n_chan o)) _ D2 ltac:(discriminate) ltac:(discriminate) R2) as (D3 & R3).
  destruct (write_other _ "bss_n_iter" "n_iter" (VInt 0) _ D3 ltac:(discriminate) ltac:(discriminate) R3) as (D4 & R4).
  exact (proj2 (write_other _ "dnn_nchan" "n_iter" (VInt (o_n_chan o)) _ D4 ltac:(discriminate) ltac:(discriminate) R4)).
- intros h Hh.
  destruct (sep_lemma gw fn td vl dd inst idm ids idt a c m so Na Sm Cm nm Ns St) as (s0 & E0 & P).
  assert (s0 = s) as -> by congruence.
  destruct (P (adjust o n ++ h)%list) as (env & E & I1 & _ & I2).
  { apply Forall_app; split; [|exact Hh]. unfold adjust. repeat constructor; simpl; discriminate. }
  exists env. rewrite fold_left_app in E. auto.
Qed.
Lemma classic_lemma o n c so : o_gauss o = false -> o_iss o = None -> named (VStr (o_algo o)) c ->
  stft_init gw fn td vl dd (o_n_fft o) (VInt (asked_hop o)) (o_window o) VNone = Ok so ->
  exists s, choose o n = Ok (if o_ilrma o then mkchosen s true "ilrma" "nmf" (o_algo o)
                             else mkchosen s false "iva" "laplace" "iva_laplace") /\
    recorded_n_iter s = Ok (VInt (o_n_iter o)) /\
    forall h, Forall harmless h -> exists env, processing (fold_left step h s) = Ok (c, env) /\
      (forall q, In q (map fst env) <-> is_param c q) /\ forall q v, dget env q = Some v -> wanted c (classic_args o n) (VMod idsrc) q v.
Proof.
intros h1 h2 Na St.
destruct (sep_lemma gw fn td vl dd inst idm ids idt (classic_args o n) c (VMod idsrc) so) as (s & E & P); simpl; eauto; [discriminate|].
exists s. split; [rewrite classicE, E by auto; reflexivity|]. split.
- exact (proj2 (free_init (classic_args o n) s (o_n_iter o) eq_refl E)).
- intros h Hh. destruct (P h Hh) as (env & X1 & X2 & _ & X3). eauto.
Qed.
Lemma unknown_lemma o n : o_gauss o = false -> o_iss o = None -> (forall c, ~ named (VStr (o_algo o)) c) ->
  choose o n = Err ValueError.
Proof.
intros h1 h2 hn. rewrite classicE by auto.
rewrite (sep_unknown gw fn td vl dd inst idm ids idt (classic_args o n) (VMod idsrc)); simpl; auto. discriminate.
Qed.
End P.
(* a witness: a network trained with 20 iterations, evaluated with 5 *)
Definition w_gw (_ : string) (_ : Z) : result nat := Ok 1.
Definition w_td (i : nat) (_ : val) : result nat := Ok i.
Definition w_vl (_ : nat) : option Z := Some 16%Z.
Definition w_inst (_ : dict) : result nat := Ok 4.
Definition w_args := mkargs 16 (VInt 20) (VInt 4) VNone (VInt 0) (VInt 0) VNone (VStr "tiss") (SVal (VMod 9)) (VInt 0) (VBool false) VNone (VFloat 1 (-5)).
Definition w_load (_ : string) (_ : list string) : result (sep * string * string) :=
  bind (sep_init w_gw (fun i => i) w_td w_vl VNone w_inst 1 2 3 w_args) (fun s => Ok (s, "tiss", "glu")).
Definition w_opt := mkopt 16 None VNone 5 2 false false false (Some "hparams.yaml") None None (Some ["12"]) "tiss".
Lemma iterations_lemma : exists ch env, choose w_gw (fun i => i) w_td w_vl VNone w_inst 1 2 3 8 w_load w_opt 2 = Ok ch /\
  recorded_n_iter (c_sep ch) = Ok (VInt 5) /\ processing (c_sep ch) = Ok (TISS, env) /\
  dget env "n_iter" = Some (VInt 20) /\ dget env "n_src" = Some VNone.
Proof.
eexists. eexists. split; [lazy; reflexivity|]. split; [lazy; reflexivity|]. split; [lazy; reflexivity|]. split; lazy; reflexivity.
Qed.
(* README.rst:58 with the network of examples/configs/tiss.json *)
Definition r_args := mkargs 2048 (VInt 20) (VInt 512) VNone (VInt 5) (VInt 1) (VInt 2) (VStr "tiss") (SVal (VMod 9)) (VInt 0) (VBool false)
  (VInt 0) (VFloat 1 (-5)).
Definition r_vl (_ : nat) : option Z := Some 2048%Z.
Definition r_load (_ : string) (_ : list string) : result (sep * string * string) :=
  bind (sep_init w_gw (fun i => i) w_td r_vl VNone w_inst 1 2 3 r_args) (fun s => Ok (s, "tiss", "torchiva.models.GLUMask")).
Definition r_opt := mkopt 2048 (Some 512%Z) VNone 40 2 false false false
  (Some "checkpoints/tiss_delay1tap5_2ch/lightning_logs/version_0/hparams.yaml") None None (Some ["128"]) "tiss".
Lemma readme_lemma : exists ch env, choose w_gw (fun i => i) w_td r_vl VNone w_inst 1 2 3 8 r_load r_opt 2 = Ok ch /\
  recorded_n_iter (c_sep ch) = Ok (VInt 40) /\ processing (c_sep ch) = Ok (TISS, env) /\
  dget env "n_iter" = Some (VInt 20) /\ dget env "n_taps" = Some (VInt 5).
Proof.
eexists. eexists. split; [lazy; reflexivity|]. split; [lazy; reflexivity|]. split; [lazy; reflexivity|]. split; lazy; reflexivity.
Qed.
