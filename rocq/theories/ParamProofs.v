From Coq Require Import String List ZArith Bool.
From Verif Require Import Py PyObj ParamModel ParamSpec.
Import ListNotations.
Local Open Scope string_scope.


Lemma bind_ok A B (a : A) (f : A -> result B) : bind (Ok a) f = f a. Proof. reflexivity. Qed.
Lemma eqb_refl k : String.eqb k k = true. Proof. apply String.eqb_refl. Qed.
Lemma eqb_neq k k' : k <> k' -> String.eqb k k' = false. Proof. intros; now apply String.eqb_neq. Qed.
Lemma dget_dset_eq d k v : dget (dset d k v) k = Some v.
Proof.
  induction d as [|[k' v'] d IH]; simpl; [now rewrite eqb_refl|].
  destruct (String.eqb_spec k k') as [->|n]; simpl; [now rewrite eqb_refl|now rewrite eqb_neq].
Qed.
Lemma dget_dset_ne d k k' v : k' <> k -> dget (dset d k v) k' = dget d k'.
Proof.
  intros n; induction d as [|[k2 v2] d IH]; simpl; [now rewrite eqb_neq|].
  destruct (String.eqb_spec k k2) as [->|n2]; simpl; [now rewrite eqb_neq|].
  now rewrite IH.
Qed.
Lemma dget_ddel_eq d k : dget (ddel d k) k = None.
Proof.
  induction d as [|[k' v] d IH]; simpl; auto.
  destruct (String.eqb_spec k k') as [->|n]; simpl; auto. now rewrite eqb_neq.
Qed.
Lemma dget_ddel_ne d k k' : k' <> k -> dget (ddel d k) k' = dget d k'.
Proof.
  intros n; induction d as [|[k2 v] d IH]; simpl; auto.
  destruct (String.eqb_spec k k2) as [->|n2]; simpl.
  - rewrite eqb_neq; auto.
  - destruct (String.eqb k' k2); auto.
Qed.

(* what an attribute lookup finds *)
Definition view (o : obj) (k : string) : option val :=
  match dget (attrs o) k with Some v => Some v | None => dget (mods o) k end.
Definition disj (o : obj) :=
  (forall k, dget (attrs o) k <> None -> dget (mods o) k = None) /\
  (forall k i, dget (attrs o) k <> Some (VMod i)).
Lemma raw_getE o k : raw_get o k = match view o k with Some v => Ok v | None => Err AttributeError end.
Proof. unfold raw_get, view; now destruct (dget (attrs o) k). Qed.
Lemma getattr_view c o k v : view o (match prop c k with Some a => a | None => k end) = Some v ->
  getattr c o k = Ok v.
Proof. unfold getattr; destruct (prop c k); rewrite raw_getE; now intros ->. Qed.

Lemma setattr_view c o k v o' : disj o -> setattr c o k v = Ok o' ->
  disj o' /\ view o' k = Some v /\ forall k', k' <> k -> view o' k' = view o k'.
Proof.
  intros [D D2]; unfold setattr.
  assert (Hm : forall w, Ok (mkobj (ddel (attrs o) k) (dset (mods o) k w)) = Ok o' ->
     disj o' /\ view o' k = Some w /\ forall k', k' <> k -> view o' k' = view o k').
  { intros w [= <-]; unfold disj, view; simpl; split; [split|split].
    - intros k' H. destruct (String.eqb_spec k' k) as [->|n].
      + now rewrite dget_ddel_eq in H.
      + rewrite dget_ddel_ne in H by auto. rewrite dget_dset_ne by auto. now apply D.
    - intros k' i. destruct (String.eqb_spec k' k) as [->|n];
        [now rewrite dget_ddel_eq|rewrite dget_ddel_ne; auto].
    - now rewrite dget_ddel_eq, dget_dset_eq.
    - intros k' n. rewrite dget_ddel_ne, dget_dset_ne by auto. auto. }
  assert (Ha : dget (mods o) k = None -> forall w, (forall i, w <> VMod i) ->
     Ok (mkobj (dset (attrs o) k w) (mods o)) = Ok o' ->
     disj o' /\ view o' k = Some w /\ forall k', k' <> k -> view o' k' = view o k').
  { intros E w nw [= <-]; unfold disj, view; simpl; split; [split|split].
    - intros k' H. destruct (String.eqb_spec k' k) as [->|n]; auto.
      rewrite dget_dset_ne in H by auto. now apply D.
    - intros k' i. destruct (String.eqb_spec k' k) as [->|n];
        [rewrite dget_dset_eq; intros [= ->]; now apply (nw i)|rewrite dget_dset_ne; auto].
    - now rewrite dget_dset_eq.
    - intros k' n. rewrite dget_dset_ne by auto. auto. }
  destruct v; try (now apply Hm);
    (destruct (dget (mods o) k) eqn:E;
     [ try discriminate | destruct (prop c k); [discriminate|]; apply Ha; auto; discriminate]).
  (* None assigned to a registered module name *)
  intros [= <-]; unfold disj, view; simpl; split; [split; auto|split].
  - intros k' H. destruct (String.eqb_spec k' k) as [->|n].
    + rewrite (D k H) in E; discriminate.
    + rewrite dget_dset_ne by auto. now apply D.
  - destruct (dget (attrs o) k) eqn:E'.
    + rewrite D in E; [discriminate|congruence].
    + now rewrite dget_dset_eq.
  - intros k' n. rewrite dget_dset_ne by auto. auto.
Qed.
Lemma mods_view o k i : disj o -> view o k = Some (VMod i) -> dget (mods o) k = Some (VMod i).
Proof. intros [_ D]; unfold view; destruct (dget (attrs o) k) eqn:E; auto. intros [= ->]; now elim (D k i). Qed.
(* a name currently bound to a module accepts exactly modules and None *)
Lemma setattr_mod c o k i v : disj o -> view o k = Some (VMod i) ->
  match v with VMod _ | VNone => exists o', setattr c o k v = Ok o' | _ => setattr c o k v = Err TypeError end.
Proof.
  intros D V; unfold setattr; rewrite (mods_view _ _ _ D V); destruct v; try reflexivity; eexists; reflexivity.
Qed.
Lemma setattr_fresh c o k v : view o k = None -> prop c k = None -> exists o', setattr c o k v = Ok o'.
Proof.
  unfold view; intros H P; unfold setattr.
  assert (E : dget (mods o) k = None) by (destruct (dget (attrs o) k); [discriminate|auto]).
  rewrite E, P; destruct v; eexists; reflexivity.
Qed.
(* overwriting a plain attribute by a value that is not a module, or by None *)
Lemma setattr_plain c o k v : (forall id, v <> VMod id) -> dget (mods o) k = None -> prop c k = None ->
  exists o', setattr c o k v = Ok o'.
Proof.
  intros n E P; unfold setattr; rewrite E, P; destruct v; try (eexists; reflexivity).
Qed.

(* a list of new attributes *)
Lemma setattrs_view c l : forall o, disj o -> NoDup (map fst l) ->
  (forall k, In k (map fst l) -> view o k = None /\ prop c k = None) ->
  exists o', setattrs c o l = Ok o' /\ disj o' /\
    forall k, view o' k = match dget l k with Some v => Some v | None => view o k end.
Proof.
  induction l as [|[k v] l IH]; intros o D N F; simpl.
  - exists o; auto.
  - inversion N as [|? ? n1 n2]; subst.
    destruct (F k (or_introl eq_refl)) as [F1 F2].
    destruct (setattr_fresh c o k v F1 F2) as [o1 H1]; rewrite H1; simpl.
    destruct (setattr_view _ _ _ _ _ D H1) as [D1 [V1 V2]].
    destruct (IH o1 D1 n2) as [o2 [H2 [D2 V3]]].
    { intros k' I; destruct (F k' (or_intror I)) as [G1 G2]; split; auto.
      rewrite V2; auto. intros ->; auto. }
    exists o2; split; auto; split; auto. intros k'.
    rewrite V3; destruct (String.eqb_spec k' k) as [->|ne].
    + destruct (dget l k) eqn:E; auto.
      exfalso; apply n1; clear -E; induction l as [|[a b] l IH]; simpl in *; [discriminate|].
      destruct (String.eqb_spec k a) as [->|]; auto.
    + destruct (dget l k'); auto.
Qed.
Lemma disj0 : disj empty_obj. Proof. split; intros; simpl; congruence. Qed.
Lemma view0 k : view empty_obj k = None. Proof. reflexivity. Qed.

Ltac nodup := repeat (constructor; [simpl; intuition discriminate|]); try constructor.
Ltac inl := simpl; intros; repeat match goal with H : _ \/ _ |- _ => destruct H | H : False |- _ => destruct H end; subst.

Definition base_list (n_iter n_taps n_delay n_src model pb use_dmc eps : val) : dict :=
  [("_n_taps", n_taps); ("_n_delay", n_delay); ("_n_iter", n_iter); ("_n_src", n_src);
   ("_proj_back_mic", pb); ("_use_dmc", use_dmc); ("_eps", eps); ("model", model)].
Lemma base_init_ok fresh n_iter n_taps n_delay n_src model pb use_dmc eps :
  is_none model = true \/ callable model = true ->
  exists o, base_init fresh n_iter n_taps n_delay n_src model pb use_dmc eps = Ok o /\ disj o /\
   forall k, view o k = match dget (base_list n_iter n_taps n_delay n_src
       (if is_none model then VMod fresh else model) pb use_dmc (if is_none eps then VFloat 1 (-5) else eps)) k with
     Some v => Some v | None => if String.eqb k "checkpoints_list" then Some (VTensor 0) else None end.
Proof.
  intros M; unfold base_init.
  set (m := if is_none model then VMod fresh else model).
  set (e := if is_none eps then VFloat 1 (-5) else eps).
  destruct (setattrs_view base_props (base_list n_iter n_taps n_delay n_src m pb use_dmc e) _ disj0) as [o [H [D V]]].
  { nodup. } { inl; split; reflexivity. }
  fold (base_list n_iter n_taps n_delay n_src m pb use_dmc e). rewrite H; rewrite bind_ok.
  assert (G : getattr base_props o "model" = Ok m) by (apply getattr_view; simpl; rewrite V; reflexivity).
  rewrite G; rewrite bind_ok.
  assert (Cm : callable m = true).
  { unfold m; destruct M as [M|M]; [rewrite M; reflexivity|destruct (is_none model); auto]. }
  rewrite Cm.
  destruct (setattr_fresh base_props o "checkpoints_list" (VTensor 0)) as [o' H']; [rewrite V; reflexivity|reflexivity|].
  rewrite H'; exists o'; split; auto.
  destruct (setattr_view _ _ _ _ _ D H') as [D' [V1 V2]]; split; auto.
  intros k; destruct (String.eqb_spec k "checkpoints_list") as [->|n]; [rewrite V1; reflexivity|].
    rewrite V2 by auto; rewrite V; destruct (dget _ k); auto.
Qed.

Definition store (c : cls) (p : string) : string :=
  match prop (props_of c) p with Some a => a | None => p end.
Lemma arg_given a p : given a p (arg a p).
Proof. unfold given, arg; destruct (dget a p); auto. Qed.
Lemma given_arg a p v : given a p v <-> v = arg a p.
Proof. unfold given, arg; destruct (dget a p); split; intuition (subst; auto; try congruence). Qed.
Lemma model_okE c a : model_ok c a <->
  match c with
  | TISS | IP | IP2 | Five => arg a "model" = VNone \/ callable (arg a "model") = true
  | Wpe => arg a "model" = VNone \/ exists i, arg a "model" = VMod i
  | _ => True
  end.
Proof.
  destruct c; simpl; try tauto; setoid_rewrite given_arg; destruct (arg a "model"); simpl;
    intuition (try congruence; try (match goal with H : exists _, _ |- _ => destruct H as [? ?]; intuition congruence end); eauto).
Qed.
Lemma none_eq v : is_none v = true <-> v = VNone. Proof. destruct v; simpl; split; congruence. Qed.
Lemma conf_plain c fresh a p : p <> "eps" -> p <> "model" -> configured c fresh a p (arg a p).
Proof.
  intros n1 n2; exists (arg a p); split; [apply arg_given|].
  rewrite (eqb_neq _ _ n1), (eqb_neq _ _ n2).
  destruct (arg a p) eqn:E; auto; left; split; congruence.
Qed.
Lemma conf_eps c fresh a : ~ is_beamformer c ->
  configured c fresh a "eps" (if is_none (arg a "eps") then VFloat 1 (-5) else arg a "eps").
Proof.
  intros n; exists (arg a "eps"); split; [apply arg_given|].
  destruct (arg a "eps") eqn:E; try (left; split; simpl; congruence).
  right; split; auto; destruct c; simpl in *; tauto.
Qed.
Lemma conf_eps_bf c fresh a : is_beamformer c -> configured c fresh a "eps" (arg a "eps").
Proof.
  intros n; exists (arg a "eps"); split; [apply arg_given|].
  destruct (arg a "eps") eqn:E; try (left; split; simpl; congruence).
  right; split; auto; destruct c; simpl in *; tauto.
Qed.
Lemma conf_model c fresh a : c <> Wpe ->
  configured c fresh a "model" (if is_none (arg a "model") then VMod fresh else arg a "model").
Proof.
  intros n; exists (arg a "model"); split; [apply arg_given|].
  destruct (arg a "model") eqn:E; try (left; split; simpl; congruence).
  right; split; auto; destruct c; simpl in *; congruence.
Qed.
Lemma conf_model_wpe fresh a : configured Wpe fresh a "model" (arg a "model").
Proof.
  exists (arg a "model"); split; [apply arg_given|].
  destruct (arg a "model") eqn:E; try (left; split; simpl; congruence); auto.
Qed.

Definition Inv (c : cls) (fresh : nat) (a : dict) (o : obj) : Prop :=
  disj o /\ (forall p, is_param c p -> exists v, view o (store c p) = Some v /\ configured c fresh a p v).
Definition filters (c : cls) (o : obj) (w h j ma : val) : Prop :=
  match c with
  | TISS => view o "W" = Some w /\ view o "H" = Some h /\ view o "J" = Some j
  | IP2 => view o "W" = Some w /\ view o "A" = Some ma
  | _ => True
  end.

Ltac conf := first [ apply conf_model; discriminate | apply conf_model_wpe | apply conf_eps; simpl; tauto
  | apply conf_eps_bf; simpl; exact I | apply conf_plain; discriminate ].

Lemma construct_ok c fresh a : model_ok c a ->
  exists o, construct c fresh a = Ok o /\ Inv c fresh a o /\ filters c o VNone VNone VNone VNone.
Proof.
  intros M; apply model_okE in M.
  assert (Bf : is_beamformer c -> exists o, bf_init (arg a "mask_model") (arg a "ref_mic") (arg a "eps") = Ok o
     /\ disj o /\ forall k, view o k = dget [("mask_model", arg a "mask_model"); ("_ref_mic", arg a "ref_mic"); ("_eps", arg a "eps")] k).
  { intros _. destruct (setattrs_view bf_props [("mask_model", arg a "mask_model"); ("_ref_mic", arg a "ref_mic"); ("_eps", arg a "eps")] _ disj0)
      as [o [H [D V]]]; [nodup|inl; split; reflexivity|].
    exists o; split; auto; split; auto. intros k; rewrite V; now destruct (dget _ k). }
  unfold construct.
  destruct c; cbv zeta; simpl in M.
  - destruct (base_init_ok fresh (arg a "n_iter") (arg a "n_taps") (arg a "n_delay") (arg a "n_src") (arg a "model")
      (arg a "proj_back_mic") (arg a "use_dmc") (arg a "eps")) as [o [H [D V]]].
    { rewrite none_eq; exact M. }
    rewrite H, bind_ok.
    destruct (setattrs_view base_props [("W", VNone); ("H", VNone); ("J", VNone)] o D) as [o' [H' [D' V']]];
      [nodup|inl; (split; [rewrite V|]; reflexivity)|].
    exists o'; split; [exact H'|]; split; [split; [exact D'|]|].
    + inl; (eexists; split; [unfold store; simpl; rewrite V'; simpl; rewrite V; reflexivity|conf]).
    + simpl; rewrite !V'; auto.
  - destruct (base_init_ok fresh (arg a "n_iter") (VInt 0) (VInt 0) (arg a "n_src") (arg a "model")
      (arg a "proj_back_mic") (VBool false) (arg a "eps")) as [o [H [D V]]].
    { rewrite none_eq; exact M. }
    rewrite H; exists o; split; auto; split; [split; [exact D|]|exact I].
    inl; (eexists; split; [unfold store; simpl; rewrite V; reflexivity|conf]).
  - destruct (base_init_ok fresh (arg a "n_iter") (VInt 0) (VInt 0) VNone (arg a "model")
      (arg a "proj_back_mic") (VBool false) (arg a "eps")) as [o [H [D V]]].
    { rewrite none_eq; exact M. }
    rewrite H, bind_ok.
    destruct (setattrs_view base_props [("W", VNone); ("A", VNone)] o D) as [o' [H' [D' V']]];
      [nodup|inl; (split; [rewrite V|]; reflexivity)|].
    exists o'; split; [exact H'|]; split; [split; [exact D'|]|].
    + inl; (eexists; split; [unfold store; simpl; rewrite V'; simpl; rewrite V; reflexivity|conf]).
    + simpl; rewrite !V'; auto.
  - destruct (base_init_ok fresh (arg a "n_iter") (VInt 0) (VInt 0) VNone (arg a "model")
      (arg a "proj_back_mic") (VBool false) (arg a "eps")) as [o [H [D V]]].
    { rewrite none_eq; exact M. }
    rewrite H, bind_ok.
    destruct (setattr_fresh base_props o "n_power_iter" (arg a "n_power_iter")) as [o' H'];
      [rewrite V; reflexivity|reflexivity|].
    destruct (setattr_view _ _ _ _ _ D H') as [D' [V1 V2]].
    exists o'; split; [exact H'|]; split; [split; [exact D'|]|exact I].
    inl; (eexists; split; [unfold store; simpl; first [exact V1 | rewrite V2 by discriminate; rewrite V; reflexivity]|conf]).
  - destruct (base_init_ok fresh (arg a "n_iter") (arg a "n_taps") (arg a "n_delay") VNone VNone
      (VInt 0) (VBool false) (arg a "eps")) as [o [H [D V]]]; [now left|].
    rewrite H, bind_ok.
    assert (Vm : view o "model" = Some (VMod fresh)) by (rewrite V; reflexivity).
    assert (exists o', setattr base_props o "model" (arg a "model") = Ok o') as [o' H'].
    { pose proof (setattr_mod base_props o "model" fresh (arg a "model") D Vm) as S.
      destruct M as [M|[i M]]; rewrite M in *; exact S. }
    destruct (setattr_view _ _ _ _ _ D H') as [D' [V1 V2]].
    exists o'; split; [exact H'|]; split; [split; [exact D'|]|exact I].
    inl; (eexists; split; [unfold store; simpl; first [exact V1 | rewrite V2 by discriminate; rewrite V; reflexivity]|conf]).
  - destruct (Bf I) as [o [H [D V]]]; rewrite H, bind_ok.
    destruct (setattrs_view bf_props [("mvdr_type", arg a "mvdr_type"); ("n_power_iter", arg a "n_power_iter")] o D) as [o' [H' [D' V']]];
      [nodup|inl; (split; [rewrite V|]; reflexivity)|].
    exists o'; split; [exact H'|]; split; [split; [exact D'|]|exact I].
    inl; (eexists; split; [unfold store; simpl; rewrite V'; simpl; try rewrite V; reflexivity|conf]).
  - destruct (Bf I) as [o [H [D V]]]; rewrite H, bind_ok.
    destruct (setattr_fresh bf_props o "time_invariant" (arg a "time_invariant")) as [o' H'];
      [rewrite V; reflexivity|reflexivity|].
    destruct (setattr_view _ _ _ _ _ D H') as [D' [V1 V2]].
    exists o'; split; [exact H'|]; split; [split; [exact D'|]|exact I].
    inl; (eexists; split; [unfold store; simpl; first [exact V1 | rewrite V2 by discriminate; rewrite V; reflexivity]|conf]).
  - destruct (Bf I) as [o [H [D V]]]; rewrite H.
    exists o; split; auto; split; [split; [exact D|]|exact I].
    inl; (eexists; split; [unfold store; simpl; rewrite V; reflexivity|conf]).
Qed.

(* constructor errors *)
Lemma construct_err c fresh a : ~ model_ok c a ->
  construct c fresh a = Err (match c with Wpe => TypeError | _ => AssertionError end).
Proof.
  assert (E : forall n_iter n_taps n_delay n_src m pb ud eps, m <> VNone -> callable m = false ->
    base_init fresh n_iter n_taps n_delay n_src m pb ud eps = Err AssertionError).
  { intros n_iter n_taps n_delay n_src m pb ud eps n1 n2; unfold base_init.
    assert (N : is_none m = false) by (destruct m; simpl; congruence). rewrite N.
    set (e := if is_none eps then VFloat 1 (-5) else eps).
    destruct (setattrs_view base_props (base_list n_iter n_taps n_delay n_src m pb ud e) _ disj0) as [o [H [D V]]].
    { nodup. } { inl; split; reflexivity. }
    fold (base_list n_iter n_taps n_delay n_src m pb ud e). rewrite H, bind_ok.
    assert (G : getattr base_props o "model" = Ok m) by (apply getattr_view; simpl; rewrite V; reflexivity).
    now rewrite G, bind_ok, n2. }
  rewrite model_okE; intros M.
  assert (B : match c with TISS | IP | IP2 | Five => arg a "model" <> VNone /\ callable (arg a "model") = false | _ => True end).
  { destruct c; auto; (split; [intros X; apply M; left; exact X|
      destruct (callable (arg a "model")) eqn:X; [elim M; right; first [exact X|reflexivity]|auto]]). }
  destruct c; unfold construct; cbv zeta; try (destruct B as [B1 B2]; rewrite E by auto; reflexivity); try (elim M; exact I).
  destruct (base_init_ok fresh (arg a "n_iter") (arg a "n_taps") (arg a "n_delay") VNone VNone
      (VInt 0) (VBool false) (arg a "eps")) as [o [H [D V]]]; [now left|].
  rewrite H, bind_ok.
  assert (Vm : view o "model" = Some (VMod fresh)) by (rewrite V; reflexivity).
  pose proof (setattr_mod base_props o "model" fresh (arg a "model") D Vm) as S.
  simpl in M; destruct (arg a "model"); auto; elim M; eauto.
Qed.

(* resolving the parameters *)
Lemma set_params_ok c o kw : (forall k v, In (k, v) kw -> v = VNone -> exists u, getattr c o k = Ok u) ->
  exists vs, set_params c o kw = Ok vs /\
    Forall2 (fun kv v => if is_none (snd kv) then getattr c o (fst kv) = Ok v else v = snd kv) kw vs.
Proof.
  induction kw as [|[k v] kw IH]; intros H; simpl.
  - exists []; auto.
  - destruct IH as [vs [H1 H2]]; [intros; eapply H; simpl; eauto|].
    destruct (is_none v) eqn:E.
    + destruct (H k v (or_introl eq_refl)) as [u Hu]; [now apply none_eq|].
      rewrite Hu, bind_ok, H1, bind_ok; exists (u :: vs); split; auto; constructor; auto; simpl; now rewrite E.
    + rewrite bind_ok, H1, bind_ok; exists (v :: vs); split; auto; constructor; auto; simpl; now rewrite E.
Qed.
Lemma call_ok c fresh a o b : Inv c fresh a o ->
  exists env, call_params c o b = Ok env /\ (forall p, In p (map fst env) <-> is_param c p) /\ NoDup (map fst env) /\
    forall p, is_param c p -> exists conf v, configured c fresh a p conf /\ dget env p = Some v /\ effective b p conf v.
Proof.
  intros [D V]; unfold call_params.
  assert (G : forall p, is_param c p -> exists v, getattr (props_of c) o p = Ok v /\ configured c fresh a p v).
  { intros p I; destruct (V p I) as [v [H1 H2]]; exists v; split; auto; apply getattr_view; exact H1. }
  destruct (set_params_ok (props_of c) o (map (fun p => (fst p, arg b (snd p))) (forward_kw c))) as [vs [H1 H2]].
  { intros k v I _. destruct (G k) as [u [Hu _]]; [|eauto].
    destruct c; simpl in *; repeat (destruct I as [I|I]; [inversion I; subst; simpl; tauto|]); destruct I. }
  rewrite H1, bind_ok.
  assert (Ef : forall p v, is_param c p ->
     (if is_none (arg b p) then getattr (props_of c) o p = Ok v else v = arg b p) ->
     exists conf, configured c fresh a p conf /\ effective b p conf v).
  { intros p v I H; destruct (G p I) as [u [Hu1 Hu2]]; exists u; split; auto.
    exists (arg b p); split; [apply arg_given|].
    destruct (arg b p) eqn:E; simpl in H; try (left; split; congruence).
    right; split; auto; congruence. }
  destruct c; simpl in H2;
  repeat match goal with H : Forall2 _ (_ :: _) _ |- _ => inversion H; subst; clear H end;
  match goal with H : Forall2 _ [] _ |- _ => inversion H; subst; clear H end;
  simpl in *; eexists; (split; [reflexivity|]); (split; [simpl; tauto|]); (split; [nodup|]);
  intros p I; repeat (destruct I as [I|I]; [subst p|]); try (destruct I);
  match goal with |- exists _ _, _ /\ dget ?e ?p = _ /\ _ =>
    let v := eval simpl in (dget e p) in
    match v with Some ?x => destruct (Ef p x) as [cf [E1 E2]]; [simpl; tauto|assumption|exists cf, x; auto] end end.
Qed.

(* calls do not change the parameters the object holds *)
Lemma do_call_inv c fresh a o k w h j ma : Inv c fresh a o -> filters c o w h j ma ->
  dget (mods o) "W" = None -> dget (mods o) "J" = None ->
  let o' := do_call c o k in
  let upd x y := if c_raises k then x else match c with TISS => y | _ => x end in
  Inv c fresh a o' /\ dget (mods o') "W" = None /\ dget (mods o') "J" = None /\
  filters c o' (upd w (VTensor (c_W k))) h (upd j (match c_J k with Some j => VTensor j | None => VNone end)) ma.
Proof.
  intros IV F mW mJ; simpl; unfold do_call.
  destruct (c_raises k); [auto|].
  destruct (call_ok c fresh a o (c_args k) IV) as [env [-> _]].
  set (J := match c_J k with Some j => VTensor j | None => VNone end).
  assert (nJ : forall i, J <> VMod i) by (unfold J; destruct (c_J k); discriminate).
  destruct c; try (simpl; auto; fail).
  unfold forward_writes, setattrs.
  destruct (setattr_plain base_props o "W" (VTensor (c_W k))) as [o1 H1]; auto; [discriminate|].
  rewrite H1, bind_ok; destruct IV as [D V].
  assert (m1 : mods o1 = mods o).
  { revert H1; unfold setattr; rewrite mW; simpl; intros [= <-]; reflexivity. }
  destruct (setattr_view _ _ _ _ _ D H1) as [D1 [V1 V1']].
  destruct (setattr_plain base_props o1 "J" J) as [o2 H2]; auto; [now rewrite m1|].
  rewrite H2, bind_ok.
  assert (m2 : mods o2 = mods o).
  { revert H2; clear -m1 mJ; unfold setattr, J; destruct (c_J k); rewrite m1, mJ; simpl; intros [= <-]; simpl; congruence. }
  destruct (setattr_view _ _ _ _ _ D1 H2) as [D2 [V2 V2']].
  rewrite m2; split; [split; [exact D2|]|split; [auto|split; [auto|]]].
  - intros p I; destruct (V p I) as [v [E1 E2]]; exists v; split; auto.
    simpl in I; clear E2 V; repeat (destruct I as [I|I]; [subst p; unfold store in *; simpl in *; rewrite V2', V1' by discriminate; auto|]); destruct I.
  - destruct F as [_ [F _]]; simpl; split; [rewrite V2', V1 by discriminate; auto|split; auto].
    rewrite V2', V1' by discriminate; auto.
Qed.

Lemma run_inv c fresh a h : forall o w hh j ma, Inv c fresh a o -> filters c o w hh j ma ->
  dget (mods o) "W" = None -> dget (mods o) "J" = None ->
  Inv c fresh a (run_calls c o h) /\
  filters c (run_calls c o h)
    (match c, last_ok h with TISS, Some k => VTensor (c_W k) | _, _ => w end) hh
    (match c, last_ok h with TISS, Some k => jval k | _, _ => j end) ma.
Proof.
  induction h as [|k h IH]; intros o w hh j ma IV F mW mJ.
  - simpl; destruct c; auto.
  - pose proof (do_call_inv c fresh a o k w hh j ma IV F mW mJ) as [I1 [I2 [I3 I4]]].
    destruct (IH _ _ _ _ _ I1 I4 I2 I3) as [J1 J2]; split; [exact J1|].
    revert J2; simpl; unfold jval; destruct c; simpl; auto; destruct (last_ok h); destruct (c_raises k); auto.
Qed.
Lemma construct_mods c fresh a o : construct c fresh a = Ok o -> dget (mods o) "W" = None /\ dget (mods o) "J" = None.
Proof.
  assert (S : forall cl o k v o', setattr cl o k v = Ok o' -> (k = "W" \/ k = "J" -> v = VNone) ->
    dget (mods o) "W" = None /\ dget (mods o) "J" = None -> dget (mods o') "W" = None /\ dget (mods o') "J" = None).
  { intros cl o1 k v o2 H n [mW mJ]. destruct (string_dec k "W") as [->|nW].
    { rewrite (n (or_introl eq_refl)) in H; unfold setattr in H; rewrite mW in H.
      destruct (prop cl "W"); inversion H; auto. }
    destruct (string_dec k "J") as [->|nJ].
    { rewrite (n (or_intror eq_refl)) in H; unfold setattr in H; rewrite mJ in H.
      destruct (prop cl "J"); inversion H; auto. }
    revert H; unfold setattr; destruct v; destruct (dget (mods o1) k); try discriminate;
      try (destruct (prop cl k); [discriminate|]); intros [= <-]; simpl; rewrite ?dget_dset_ne by auto; auto. }
  assert (Sl : forall cl l o o', setattrs cl o l = Ok o' -> (forall k v, In (k, v) l -> k = "W" \/ k = "J" -> v = VNone) ->
    dget (mods o) "W" = None /\ dget (mods o) "J" = None -> dget (mods o') "W" = None /\ dget (mods o') "J" = None).
  { intros cl; induction l as [|[k v] l IH]; intros o1 o2 H n M; simpl in H; [inversion H; subst; auto|].
    destruct (setattr cl o1 k v) as [o3|] eqn:E; [|discriminate]; rewrite bind_ok in H.
    eapply IH; eauto; [intros; eapply n; simpl; eauto|]; eapply S; eauto; intros; eapply n; simpl; eauto. }
  assert (Z : dget (mods empty_obj) "W" = None /\ dget (mods empty_obj) "J" = None) by (split; reflexivity).
  assert (B : forall n_iter n_taps n_delay n_src m pb ud eps o, base_init fresh n_iter n_taps n_delay n_src m pb ud eps = Ok o ->
     dget (mods o) "W" = None /\ dget (mods o) "J" = None).
  { intros n_iter n_taps n_delay n_src m pb ud eps o1; unfold base_init.
    destruct (setattrs _ _ _) as [o2|] eqn:E; [|discriminate]; rewrite bind_ok.
    destruct (getattr _ _ _); [|discriminate]; rewrite bind_ok; destruct (callable _); [|discriminate].
    intros H; eapply S; [exact H|intros [|]; discriminate|].
    eapply Sl; [exact E| |exact Z]. inl; repeat match goal with H : (_, _) = (_, _) |- _ => inversion H; subst; clear H end; discriminate. }
  assert (Bb : forall m r e o, bf_init m r e = Ok o -> dget (mods o) "W" = None /\ dget (mods o) "J" = None).
  { intros m r e o1 H; eapply Sl; [exact H| |exact Z].
    inl; repeat match goal with H : (_, _) = (_, _) |- _ => inversion H; subst; clear H end; discriminate. }
  intros H; unfold construct in H; cbv zeta in H.
  destruct c; try (eapply B; exact H; fail); try (eapply Bb; exact H; fail);
  (match type of H with bind ?x _ = _ => destruct x as [o1|] eqn:E end; [|discriminate]; rewrite bind_ok in H);
  (first [eapply Sl; [exact H| |] | eapply S; [exact H| |]]);
  try (first [eapply B; exact E | eapply Bb; exact E]);
  try (intros [|]; discriminate);
  inl; repeat match goal with H : (_, _) = (_, _) |- _ => inversion H; subst; clear H end; auto; discriminate.
Qed.

Lemma c01_lemma c fresh a o h b : construct c fresh a = Ok o ->
  exists env, call_params c (run_calls c o h) b = Ok env /\ (forall p, In p (map fst env) <-> is_param c p) /\
    NoDup (map fst env) /\
    forall p, is_param c p -> exists conf v, configured c fresh a p conf /\ dget env p = Some v /\ effective b p conf v.
Proof.
  intros H.
  assert (M : model_ok c a).
  { assert (model_ok c a \/ ~ model_ok c a) as [|N]; auto.
    - rewrite model_okE; destruct c; simpl; auto; destruct (arg a "model"); simpl; auto; try (right; intros [X|[i X]]; discriminate);
        try (right; intros [X|X]; discriminate); eauto.
    - rewrite (construct_err c fresh a N) in H; discriminate. }
  destruct (construct_ok c fresh a M) as [o' [H' [IV F]]].
  assert (o' = o) by congruence; subst o'.
  destruct (construct_mods _ _ _ _ H) as [mW mJ].
  destruct (run_inv c fresh a h o _ _ _ _ IV F mW mJ) as [IV' _].
  exact (call_ok c fresh a (run_calls c o h) b IV').
Qed.
Lemma c61_lemma c fresh a o h : construct c fresh a = Ok o ->
  match c with
  | TISS => getattr base_props (run_calls c o h) "H" = Ok VNone /\
      getattr base_props (run_calls c o h) "W" = Ok (match last_ok h with Some k => VTensor (c_W k) | None => VNone end) /\
      getattr base_props (run_calls c o h) "J" = Ok (match last_ok h with Some k => jval k | None => VNone end)
  | IP2 => getattr base_props (run_calls c o h) "W" = Ok VNone /\ getattr base_props (run_calls c o h) "A" = Ok VNone
  | _ => True
  end.
Proof.
  intros H.
  assert (M : model_ok c a).
  { assert (model_ok c a \/ ~ model_ok c a) as [|N]; auto.
    - rewrite model_okE; destruct c; simpl; auto; destruct (arg a "model"); simpl; auto; try (right; intros [X|[i X]]; discriminate);
        try (right; intros [X|X]; discriminate); eauto.
    - rewrite (construct_err c fresh a N) in H; discriminate. }
  destruct (construct_ok c fresh a M) as [o' [H' [IV F]]].
  assert (o' = o) by congruence; subst o'.
  destruct (construct_mods _ _ _ _ H) as [mW mJ].
  destruct (run_inv c fresh a h o _ _ _ _ IV F mW mJ) as [_ F'].
  destruct c; auto.
  - destruct F' as [F1 [F2 F3]]; repeat split; apply getattr_view; assumption.
  - destruct F' as [F1 F2]; split; apply getattr_view; assumption.
Qed.

(* ---- documented defaults *)
Lemma dget_dset_other d k v p : p <> k -> dget (dset d k v) p = dget d p.
Proof.
  intros N; induction d as [|[k' v'] d IH]; simpl.
  - apply String.eqb_neq in N; rewrite N; reflexivity.
  - destruct (String.eqb k k') eqn:E; simpl.
    + apply String.eqb_eq in E; subst k'; apply String.eqb_neq in N; rewrite N; reflexivity.
    + destruct (String.eqb p k'); [reflexivity|exact IH].
Qed.
Lemma dget_dupdate_other kw d p : dget kw p = None -> dget (dupdate d kw) p = dget d p.
Proof.
  revert d; induction kw as [|[k v] kw IH]; simpl; intros d H; [reflexivity|].
  destruct (String.eqb p k) eqn:E; [discriminate|]; apply String.eqb_neq in E.
  rewrite (IH _ H); apply dget_dset_other; exact E.
Qed.
Lemma documented_lemma c fresh kw o h p d : construct c fresh (dupdate (init_sig c) kw) = Ok o ->
  dget (documented c fresh) p = Some d -> dget kw p = None ->
  exists env, call_params c (run_calls c o h) [] = Ok env /\ dget env p = Some d.
Proof.
  intros H D K; destruct (c01_lemma c fresh _ o h [] H) as (env & E & _ & _ & V).
  exists env; split; [exact E|]; clear E H.
  assert (G := dget_dupdate_other kw (init_sig c) p K).
  assert (F : is_param c p /\ forall w, configured c fresh (dupdate (init_sig c) kw) p w -> w = d).
  { clear V; unfold configured, given; rewrite G; clear G.
    destruct c; simpl in D;
      repeat (match type of D with (if String.eqb p ?k then _ else _) = _ =>
                let Q := fresh in destruct (String.eqb p k) eqn:Q; [apply String.eqb_eq in Q; subst p; injection D as <-|clear Q] end;
              [split; [simpl; tauto|
                 intros w (u & [X|[X _]] & [[Y ->]|[Y ->]]); simpl in X; try discriminate X; injection X as <-;
                 try discriminate Y; try (exfalso; apply Y; reflexivity); reflexivity]|]); discriminate D. }
  destruct F as [I F]; destruct (V p I) as (conf & v & C & -> & u & [X|[_ ->]] & [[Y ->]|[_ ->]]); try discriminate X.
  - exfalso; apply Y; reflexivity.
  - rewrite (F _ C); reflexivity.
Qed.
