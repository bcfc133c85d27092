From Coq Require Import String List ZArith Bool.
From Verif Require Import Py PyObj ParamModel ParamSpec ParamProofs SepModel SepSpec.
Import ListNotations.
Local Open Scope string_scope.

Section S.
Variable get_window : string -> Z -> result nat.
Variable from_numpy : nat -> nat.
Variable to_dtype : nat -> val -> result nat.
Variable vec_len : nat -> option Z.
Variable default_dtype : val.
Variable inst : dict -> result nat.
Notation stft_init := (stft_init get_window from_numpy to_dtype vec_len default_dtype).
Notation sep_init := (sep_init get_window from_numpy to_dtype vec_len default_dtype inst).

Definition stft_list (n : Z) (hop d : val) : dict :=
  [("_n_fft", VInt n); ("_n_freq", VInt (n / 2 + 1)); ("_hop_length", hop); ("dtype", d)].
Lemma stft_start n hop d : exists o, setattrs stft_props empty_obj (stft_list n hop d) = Ok o /\ disj o /\
  forall k, view o k = dget (stft_list n hop d) k.
Proof.
  destruct (setattrs_view stft_props (stft_list n hop d) _ disj0) as [o [H [D V]]].
  { nodup. } { inl; split; reflexivity. }
  exists o; split; auto; split; auto. intros k; rewrite V; now destruct (dget _ k).
Qed.
Lemma stft_named n hop window dtype s a t :
  (window = VNone /\ s = "hann" \/ window = VStr s) -> get_window s n = Ok a ->
  to_dtype (from_numpy a) (if is_none dtype then default_dtype else dtype) = Ok t -> vec_len t = Some n ->
  exists o, stft_init n hop window dtype = Ok o /\
    getattr stft_props o "n_fft" = Ok (VInt n) /\ getattr stft_props o "n_freq" = Ok (VInt (n / 2 + 1)) /\
    getattr stft_props o "hop_length" = Ok hop /\ getattr stft_props o "window_type" = Ok (VStr s) /\
    getattr stft_props o "window" = Ok (VTensor t).
Proof.
  intros W G T L; unfold SepModel.stft_init; cbv zeta.
  replace (if is_none dtype && _ then default_dtype else dtype) with (if is_none dtype then default_dtype else dtype)
    by (destruct W as [[-> _]| ->]; destruct (is_none dtype); reflexivity).
  set (d := if is_none dtype then default_dtype else dtype) in *.
  fold (stft_list n hop d).
  destruct (stft_start n hop d) as [o [H [D V]]]; rewrite H, bind_ok.
  replace (if is_none window then VStr "hann" else window) with (VStr s) by (destruct W as [[-> ->]| ->]; reflexivity).
  destruct (setattr_fresh stft_props o "_window_type" (VStr s)) as [o1 H1]; [rewrite V; reflexivity|reflexivity|].
  rewrite H1, bind_ok, G, bind_ok; unfold stft_buffer; rewrite bind_ok, T, bind_ok, L, Z.eqb_refl.
  destruct (setattr_view _ _ _ _ _ D H1) as [D1 [V1 V1']].
  destruct (setattr_fresh stft_props o1 "_window" (VTensor t)) as [o2 H2];
    [rewrite V1' by discriminate; rewrite V; reflexivity|reflexivity|].
  destruct (setattr_view _ _ _ _ _ D1 H2) as [D2 [V2 V2']].
  exists o2; split; [exact H2|].
  repeat split; apply getattr_view; simpl; auto; rewrite V2' by discriminate; auto;
    rewrite V1' by discriminate; rewrite V; reflexivity.
Qed.
Lemma stft_custom n hop window dtype : window <> VNone -> (forall s, window <> VStr s) ->
  stft_init n hop window dtype = Err AttributeError.
Proof.
  intros n1 n2; unfold SepModel.stft_init; cbv zeta.
  set (d := if is_none dtype && _ then _ else _); fold (stft_list n hop d).
  destruct (stft_start n hop d) as [o [H [D V]]]; rewrite H, bind_ok.
  assert (E : dget (mods o) "window_type" = None).
  { specialize (V "window_type"); unfold view in V; destruct (dget (attrs o) "window_type"); [discriminate V|exact V]. }
  destruct window; simpl; try congruence; try (elim (n2 s); reflexivity); now rewrite E.
Qed.
Lemma stft_unknown n hop s dtype e : get_window s n = Err e -> stft_init n hop (VStr s) dtype = Err e.
Proof.
  intros G; unfold SepModel.stft_init; cbv zeta.
  set (d := if is_none dtype && _ then _ else _); fold (stft_list n hop d).
  destruct (stft_start n hop d) as [o [H [D V]]]; rewrite H, bind_ok; simpl is_none; cbv iota.
  destruct (setattr_fresh stft_props o "_window_type" (VStr s)) as [o1 H1]; [rewrite V; reflexivity|reflexivity|].
  now rewrite H1, bind_ok, G.
Qed.

(* ---- BSSSeparator *)
Lemma member_named v c : named v c -> exists m, sepalgo_member v = Ok m /\
  (forall i, v <> VMod i) /\
  exists alg, find (fun p => String.eqb m (fst p)) sepalgo = Some (m, alg) /\
  forall a mo, exists kw, dispatch alg a mo = Some (c, kw).
Proof.
  destruct c; simpl; try tauto; intros [-> | ->]; (eexists; split; [reflexivity|]); (split; [discriminate|]);
    (eexists; split; [reflexivity|]); intros; eexists; reflexivity.
Qed.
Lemma member_other v : (forall c, ~ named v c) -> sepalgo_member v = Err ValueError.
Proof.
  intros H; destruct v as [| | | |s| | | | |cl n]; try reflexivity; simpl.
  - assert (s <> "ip2" /\ s <> "tiss" /\ s <> "five" /\ s <> "mvdr" /\ s <> "mwf" /\ s <> "gev") as (h1&h2&h3&h4&h5&h6).
    { repeat split; intros ->; [elim (H IP2)|elim (H TISS)|elim (H Five)|elim (H MVDR)|elim (H MWF)|elim (H GEV)]; simpl; auto. }
    apply String.eqb_neq in h1, h2, h3, h4, h5, h6. now rewrite h1, h2, h3, h4, h5, h6.
  - destruct (String.eqb_spec cl "SepAlgo") as [->|]; [|reflexivity].
    assert (n <> "AUXIVA_IP2" /\ n <> "T_ISS" /\ n <> "FIVE" /\ n <> "MVDR" /\ n <> "MWF" /\ n <> "GEV") as (h1&h2&h3&h4&h5&h6).
    { repeat split; intros ->; [elim (H IP2)|elim (H TISS)|elim (H Five)|elim (H MVDR)|elim (H MWF)|elim (H GEV)]; simpl; auto. }
    apply String.eqb_neq in h1, h2, h3, h4, h5, h6. now rewrite h1, h2, h3, h4, h5, h6.
Qed.
Lemma set_algoE o v : (forall i, v <> VMod i) -> set_algo o v =
  bind (sepalgo_member v) (fun m => bind (setattr [] o "_algo" (VMember "SepAlgo" m)) (fun o =>
    if is_five v then bind (raw_get o "n_src") (fun n => if is_none n then Ok (o, false) else bind (gt1 n) (fun w => Ok (o, w)))
    else Ok (o, false))).
Proof. intros nv; destruct v; try reflexivity; now elim (nv id). Qed.
Lemma is_fiveE v : is_five v = true <-> v = VMember "SepAlgo" "FIVE".
Proof.
  destruct v; simpl; try (split; discriminate). rewrite andb_true_iff, !String.eqb_eq.
  split; [intros [-> ->]; auto|intros [= -> ->]; auto].
Qed.
(* the setter on an object which knows n_src *)
Lemma set_algo_ok o v m n : (forall i, v <> VMod i) -> sepalgo_member v = Ok m -> disj o ->
  dget (mods o) "_algo" = None -> view o "n_src" = Some n -> (n = VNone \/ exists z, n = VInt z) ->
  exists o' w, set_algo o v = Ok (o', w) /\ disj o' /\ view o' "_algo" = Some (VMember "SepAlgo" m) /\
    (forall k, k <> "_algo" -> view o' k = view o k) /\
    (w = true <-> v = VMember "SepAlgo" "FIVE" /\ exists z, n = VInt z /\ (1 < z)%Z).
Proof.
  intros nv M D A N NZ; rewrite set_algoE, M, bind_ok by auto.
  destruct (setattr_plain [] o "_algo" (VMember "SepAlgo" m)) as [o1 H1]; [discriminate|auto|reflexivity|].
  destruct (setattr_view _ _ _ _ _ D H1) as [D1 [V1 V1']].
  assert (N1 : raw_get o1 "n_src" = Ok n) by (rewrite raw_getE, V1' by discriminate; now rewrite N).
  rewrite H1, bind_ok, N1, bind_ok; pose proof (is_fiveE v) as E5.
  destruct (is_five v).
  - destruct NZ as [-> | [z ->]]; simpl.
    + exists o1, false; do 4 (split; auto). split; [discriminate|]. intros [_ [z [X _]]]; discriminate.
    + exists o1, (Z.ltb 1 z); do 4 (split; auto). rewrite Z.ltb_lt; split.
      * intros L; split; [apply E5; reflexivity|eauto].
      * intros [_ [z' [[= ->] L]]]; exact L.
  - exists o1, false; do 4 (split; auto). split; [discriminate|intros [X _]; apply E5 in X; discriminate].
Qed.
Lemma iva_dec c : {iva c} + {~ iva c}.
Proof. destruct c; simpl; auto. Qed.
(* the parameters that a constructor called with the keyword arguments of dispatch configures *)
Lemma configured_wanted c alg a m kw idm p v : dispatch alg a m = Some (c, kw) -> is_param c p -> m <> VNone ->
  configured c idm (dupdate (init_sig c) kw) p v -> wanted c a m p v.
Proof.
  unfold dispatch; intros H I nm.
  repeat match type of H with (if ?b then _ else _) = _ => destruct b; [injection H as <- <-|] end; try discriminate H;
  intros (u & [G|[G ->]] & Cf); simpl in I; repeat (destruct I as [<-|I]); try contradiction;
  simpl in G; try discriminate G; injection G as <-; destruct Cf as [[nu ->]|[nu ->]]; try (rewrite nu in * ); simpl;
  solve [econstructor; simpl; solve [tauto|congruence|auto] | congruence |
         rewrite <- nu; econstructor; simpl; solve [tauto|congruence|auto]].
Qed.

Lemma set_algo_frame o v o' w : disj o -> set_algo o v = Ok (o', w) ->
  disj o' /\ forall k, k <> "_algo" -> k <> "algo" -> view o' k = view o k.
Proof.
  intros D H.
  assert (exists k u, (k = "_algo" \/ k = "algo") /\ setattr [] o k u = Ok o') as (k & u & K & S).
  { assert ((exists i, v = VMod i) \/ forall i, v <> VMod i) as [[i ->]|nv]
      by (destruct v; eauto; right; discriminate).
    - simpl in H; injection H as <- _; exists "algo", (VMod i); auto.
    - rewrite set_algoE in H by auto.
      destruct (sepalgo_member v) as [m|]; [rewrite bind_ok in H|discriminate H].
      destruct (setattr [] o "_algo" (VMember "SepAlgo" m)) as [o1|] eqn:E; [rewrite bind_ok in H|discriminate H].
      exists "_algo", (VMember "SepAlgo" m); split; [auto|]; rewrite E.
      destruct (is_five v); [|now injection H as -> _].
      destruct (raw_get o1 "n_src") as [n|]; [rewrite bind_ok in H|discriminate H].
      destruct (is_none n); [now injection H as -> _|].
      destruct (gt1 n); [rewrite bind_ok in H; now injection H as -> _|discriminate H]. }
  destruct (setattr_view _ _ _ _ _ D S) as [D1 [_ V]]; split; auto.
  intros k' n1 n2; apply V; destruct K; congruence.
Qed.

Definition good (c : cls) idm kw ids (s : sep) : Prop :=
  disj (self s) /\ view (self s) "separator" = Some (VMod ids) /\
  exists o, heap s ids = Some (c, o) /\ Inv c idm kw o /\ dget (mods o) "W" = None /\ dget (mods o) "J" = None /\
    exists w h j ma, filters c o w h j ma.
Lemma good_step c idm kw ids s e : harmless e -> good c idm kw ids s -> good c idm kw ids (step s e).
Proof.
  intros He (D & V & o & Ho & IV & mW & mJ & w & h & j & ma & F); destruct e as [k v|cl]; simpl.
  - assert (X : forall o', disj o' -> view o' "separator" = view (self s) "separator" ->
      good c idm kw ids (mksep o' (heap s) (warned s))).
    { intros o' D' E; split; [exact D'|split; [simpl; rewrite E; exact V|]].
      exists o; do 4 (split; [assumption|]); exists w, h, j, ma; exact F. }
    simpl in He; unfold write; destruct (String.eqb_spec k "algo") as [->|nk].
    + destruct (set_algo (self s) v) as [[o' w']|] eqn:E; [|now apply X].
      destruct (set_algo_frame _ _ _ _ D E) as [D' V']; apply X; [exact D'|apply V'; discriminate].
    + destruct (setattr [] (self s) k v) as [o'|] eqn:E; [|now apply X].
      destruct (setattr_view _ _ _ _ _ D E) as [D' [_ V']]; apply X; [exact D'|apply V'; congruence].
  - rewrite raw_getE, V, Ho; split; [auto|split; [auto|]]; simpl; rewrite Nat.eqb_refl; eexists; split; [reflexivity|].
    destruct (do_call_inv c idm kw o (mkcall [] (c_W cl) (c_J cl) (c_raises cl)) w h j ma IV F mW mJ) as (I1 & I2 & I3 & I4).
    do 3 (split; auto). do 4 eexists; exact I4.
Qed.
Lemma good_run c idm kw ids h : forall s, Forall harmless h -> good c idm kw ids s -> good c idm kw ids (fold_left step h s).
Proof.
  induction h as [|e h IH]; simpl; auto; intros s H G; inversion H; subst; apply IH; auto; now apply good_step.
Qed.
Lemma arg_none a p : given a p VNone -> arg a p = VNone.
Proof. now rewrite given_arg. Qed.


Lemma start_ok (a : separgs) m : exists o1 o2, setattr [] empty_obj "source_model" m = Ok o1 /\
  setattr [] o1 "n_src" (a_n_src a) = Ok o2 /\ disj o2 /\
  forall k, view o2 k = if String.eqb k "n_src" then Some (a_n_src a) else if String.eqb k "source_model" then Some m else None.
Proof.
  destruct (setattr_fresh [] empty_obj "source_model" m) as [o1 H1]; [reflexivity|reflexivity|].
  destruct (setattr_view _ _ _ _ _ disj0 H1) as [D1 [V1 V1']].
  destruct (setattr_fresh [] o1 "n_src" (a_n_src a)) as [o2 H2]; [rewrite V1' by discriminate; reflexivity|reflexivity|].
  destruct (setattr_view _ _ _ _ _ D1 H2) as [D2 [V2 V2']].
  exists o1, o2; do 3 (split; auto). intros k.
  destruct (String.eqb_spec k "n_src") as [->|n1]; [auto|rewrite V2' by auto].
  destruct (String.eqb_spec k "source_model") as [->|n2]; [auto|rewrite V1' by auto; reflexivity].
Qed.
Lemma source_eq idm sa m : source_is inst idm sa m ->
  match sa with SVal VNone => Ok (VMod idm) | SVal v => Ok v | SDict d => bind (inst d) (fun i => Ok (VMod i)) end = Ok m.
Proof.
  destruct sa as [d|v]; simpl; [intros [i [-> ->]]; reflexivity|destruct v; intros ->; reflexivity].
Qed.
Lemma mods_none o k : view o k = None -> dget (mods o) k = None.
Proof. unfold view; destruct (dget (attrs o) k); [discriminate|auto]. Qed.

Lemma sep_ok idm ids idt a c m so : named (a_algo a) c -> source_is inst idm (a_source a) m -> (iva c -> callable m = true) ->
  m <> VNone ->
  (a_n_src a = VNone \/ exists z, a_n_src a = VInt z) ->
  stft_init (a_n_fft a) (a_hop a) (a_window a) VNone = Ok so ->
  exists alg kw s, sep_init idm ids idt a = Ok s /\ dispatch alg a m = Some (c, kw) /\
    good c idm (dupdate (init_sig c) kw) ids s /\
    (warned s = true <-> a_algo a = VMember "SepAlgo" "FIVE" /\ exists z, a_n_src a = VInt z /\ (1 < z)%Z).
Proof.
  intros Na Sm Cm nm Ns St; unfold SepModel.sep_init; rewrite (source_eq _ _ _ Sm), bind_ok.
  destruct (start_ok a m) as (o1 & o2 & H1 & H2 & D2 & V2); rewrite H1, bind_ok, H2, bind_ok.
  destruct (member_named _ _ Na) as (mem & M1 & M2 & alg & M3 & M4).
  destruct (set_algo_ok o2 (a_algo a) mem (a_n_src a) M2 M1 D2) as (o3 & w & H3 & D3 & V3 & V3' & W).
  { apply mods_none; rewrite V2; reflexivity. } { rewrite V2; reflexivity. } { exact Ns. }
  rewrite H3, bind_ok.
  destruct (setattr_fresh [] o3 "n_iter" (a_n_iter a)) as [o4 H4];
    [rewrite V3' by discriminate; rewrite V2; reflexivity|reflexivity|].
  rewrite H4, bind_ok, St, bind_ok; destruct (setattr_view _ _ _ _ _ D3 H4) as [D4 [V4 V4']].
  destruct (setattr_fresh [] o4 "stft" (VMod idt)) as [o5 H5];
    [rewrite V4', V3' by discriminate; rewrite V2; reflexivity|reflexivity|].
  rewrite H5, bind_ok; destruct (setattr_view _ _ _ _ _ D4 H5) as [D5 [V5 V5']].
  unfold get_algo; rewrite raw_getE, V5', V4', V3 by discriminate; rewrite M3, bind_ok.
  rewrite raw_getE, V5', V4', V3' by discriminate; rewrite V2; simpl String.eqb; cbv iota; rewrite bind_ok.
  destruct (M4 a m) as [kw Hd].
  exists alg, kw; simpl snd; rewrite Hd.
  assert (MO : model_ok c (dupdate (init_sig c) kw)).
  { apply model_okE; revert Hd; unfold dispatch.
    repeat match goal with |- (if ?b then _ else _) = _ -> _ => destruct b; [intros [= <- <-]; simpl; try exact I; right; apply Cm; exact I|] end.
    discriminate. }
  destruct (construct_ok c idm _ MO) as [so' [Hc [IV F]]]; rewrite Hc, bind_ok.
  destruct (setattr_fresh [] o5 "separator" (VMod ids)) as [o6 H6];
    [rewrite V5', V4', V3' by discriminate; rewrite V2; reflexivity|reflexivity|].
  rewrite H6, bind_ok; destruct (setattr_view _ _ _ _ _ D5 H6) as [D6 [V6 V6']].
  eexists; split; [reflexivity|]; split; [reflexivity|]; split; [|exact W].
  split; [exact D6|split; [exact V6|]]; exists so'; simpl; rewrite Nat.eqb_refl.
  destruct (construct_mods _ _ _ _ Hc) as [mW mJ].
  do 4 (split; auto). do 4 eexists; exact F.
Qed.
Lemma good_params c idm kw ids s alg a m : good c idm (dupdate (init_sig c) kw) ids s -> dispatch alg a m = Some (c, kw) ->
  m <> VNone ->
  exists env, processing s = Ok (c, env) /\ (forall p, In p (map fst env) <-> is_param c p) /\ NoDup (map fst env) /\
    forall p v, dget env p = Some v -> wanted c a m p v.
Proof.
  intros (D & V & o & Ho & IV & _) Hd nm; unfold processing; rewrite raw_getE, V, bind_ok, Ho.
  destruct (call_ok c idm _ o [] IV) as (env & H & P & ND & E); rewrite H, bind_ok; exists env.
  split; auto; split; auto; split; auto. intros p v Hp.
  assert (Ip : is_param c p).
  { apply P; clear -Hp; induction env as [|[k u] env IH]; simpl in *; [discriminate|].
    destruct (String.eqb_spec p k) as [->|]; auto. }
  destruct (E p Ip) as (conf & v' & C1 & C2 & u & G & [[nu _]|[_ Ev]]).
  - apply given_arg in G; now elim nu.
  - assert (v = conf) by congruence; subst v v'. eapply configured_wanted; eauto.
Qed.
Lemma sep_lemma idm ids idt a c m so : named (a_algo a) c -> source_is inst idm (a_source a) m ->
  (iva c -> callable m = true) -> m <> VNone -> (a_n_src a = VNone \/ exists z, a_n_src a = VInt z) ->
  stft_init (a_n_fft a) (a_hop a) (a_window a) VNone = Ok so ->
  exists s, sep_init idm ids idt a = Ok s /\ forall h, Forall harmless h ->
  exists env, processing (fold_left step h s) = Ok (c, env) /\
    (forall p, In p (map fst env) <-> is_param c p) /\ NoDup (map fst env) /\
    forall p v, dget env p = Some v -> wanted c a m p v.
Proof.
  intros Na Sm Cm nm Ns St; destruct (sep_ok idm ids idt a c m so Na Sm Cm nm Ns St) as (alg & kw & s & H & Hd & G & _).
  exists s; split; auto; intros h Hh; apply (good_params c idm kw ids _ alg a m); auto; apply good_run; auto.
Qed.
Lemma sep_warn idm ids idt a c m so s : named (a_algo a) c -> source_is inst idm (a_source a) m ->
  (iva c -> callable m = true) -> m <> VNone -> (a_n_src a = VNone \/ exists z, a_n_src a = VInt z) ->
  stft_init (a_n_fft a) (a_hop a) (a_window a) VNone = Ok so -> sep_init idm ids idt a = Ok s ->
  (warned s = true <-> a_algo a = VMember "SepAlgo" "FIVE" /\ exists z, a_n_src a = VInt z /\ (1 < z)%Z).
Proof.
  intros Na Sm Cm nm Ns St Hs; destruct (sep_ok idm ids idt a c m so Na Sm Cm nm Ns St) as (alg & kw & s' & H & Hd & G & W).
  congruence.
Qed.
Lemma sep_unknown idm ids idt a m : source_is inst idm (a_source a) m -> (forall c, ~ named (a_algo a) c) ->
  (forall i, a_algo a <> VMod i) -> sep_init idm ids idt a = Err ValueError.
Proof.
  intros Sm Na nv; unfold SepModel.sep_init; rewrite (source_eq _ _ _ Sm), bind_ok.
  destruct (start_ok a m) as (o1 & o2 & H1 & H2 & D2 & V2); rewrite H1, bind_ok, H2, bind_ok.
  now rewrite set_algoE, member_other by auto.
Qed.
Lemma sep_custom idm ids idt a c m : named (a_algo a) c -> source_is inst idm (a_source a) m ->
  (a_n_src a = VNone \/ exists z, a_n_src a = VInt z) ->
  a_window a <> VNone -> (forall s, a_window a <> VStr s) ->
  sep_init idm ids idt a = Err AttributeError.
Proof.
  intros Na Sm Ns n1 n2; unfold SepModel.sep_init; rewrite (source_eq _ _ _ Sm), bind_ok.
  destruct (start_ok a m) as (o1 & o2 & H1 & H2 & D2 & V2); rewrite H1, bind_ok, H2, bind_ok.
  destruct (member_named _ _ Na) as (mem & M1 & M2 & alg & M3 & M4).
  destruct (set_algo_ok o2 (a_algo a) mem (a_n_src a) M2 M1 D2) as (o3 & w & H3 & D3 & V3 & V3' & W).
  { apply mods_none; rewrite V2; reflexivity. } { rewrite V2; reflexivity. } { exact Ns. }
  rewrite H3, bind_ok.
  destruct (setattr_fresh [] o3 "n_iter" (a_n_iter a)) as [o4 H4];
    [rewrite V3' by discriminate; rewrite V2; reflexivity|reflexivity|].
  now rewrite H4, bind_ok, stft_custom.
Qed.
End S.
