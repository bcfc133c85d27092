(* Proofs of C83. *)
From Coq Require Import String List ZArith Bool.
From Verif Require Import Py PyObj ParamModel ParamSpec ParamProofs SepModel SepSpec SepProofs LoadModel LoadProofs ExportModel ExportProofs TrainModel TrainSpec.
Import ListNotations.
Local Open Scope string_scope.

Section P.
Variable gw : string -> Z -> result nat.
Variable fn : nat -> nat.
Variable td : nat -> val -> result nat.
Variable vl : nat -> option Z.
Variable dd : val.
Variable inst : dict -> result nat.
Variables (idm ids idt : nat).
Local Notation train := (train_separator gw fn td vl dd inst idm ids idt).
Local Notation init := (sep_init gw fn td vl dd inst idm ids idt).
Definition with_source (a : separgs) (v : val) : separgs :=
  mkargs (a_n_fft a) (a_n_iter a) (a_hop a) (a_window a) (a_n_taps a) (a_n_delay a) (a_n_src a) (a_algo a)
    (SVal v) (a_pb a) (a_use_dmc a) (a_n_power_iter a) (a_eps a).
Lemma trainE model a : section_says model a ->
  train (a_algo a) (a_n_src a) model = bind (train_source inst model) (fun v => init (with_source a v)).
Proof.
intros (h1 & h2 & h3 & h4 & h5 & h6 & h7 & h8 & h9 & h10).
unfold train_separator, item_plain, item. rewrite h1, h2, h3, h4, h5, h6, h7. unfold with_source; rewrite h9, h10. simpl.
destruct h8 as [-> | [-> ->]]; reflexivity.
Qed.
Lemma wanted_source c a v m q u : wanted c (with_source a v) m q u -> wanted c a m q u.
Proof.
intros H. destruct H; simpl in *;
  [apply w_iter|apply w_model|apply w_pb|apply w_eps|apply w_eps0|apply w_taps|apply w_delay|apply w_src|apply w_dmc
  |apply w_power|apply w_mask|apply w_ref|apply w_epsb|apply w_type|apply w_ti]; assumption.
Qed.
Lemma run_lemma model a c v m so : section_says model a -> train_source inst model = Ok v ->
  (v = VMod m \/ v = VNone /\ m = idm) ->
  named (a_algo a) c -> (a_n_src a = VNone \/ exists z, a_n_src a = VInt z) ->
  stft_init gw fn td vl dd (a_n_fft a) (a_hop a) VNone VNone = Ok so ->
  exists s, train (a_algo a) (a_n_src a) model = Ok s /\ forall h, Forall harmless h ->
    exists env, processing (fold_left step h s) = Ok (c, env) /\
    (forall q, In q (map fst env) <-> is_param c q) /\ forall q u, dget env q = Some u -> wanted c a (VMod m) q u.
Proof.
intros S T V Na Ns St.
destruct (sep_lemma gw fn td vl dd inst idm ids idt (with_source a v) c (VMod m) so) as (s & E & P); simpl; auto.
- destruct V as [-> | [-> ->]]; reflexivity.
- discriminate.
- destruct S as (_ & _ & _ & _ & _ & _ & _ & _ & -> & _). exact St.
- exists s. split; [rewrite trainE, T by auto; exact E|].
  intros h Hh. destruct (P h Hh) as (env & X1 & X2 & _ & X3). exists env.
  split; [exact X1|]. split; [exact X2|]. intros q u Hq. eapply wanted_source. now apply X3.
Qed.
Lemma network_lemma model a c d i so : section_says model a -> yget model "source_model" = Some (YDict d) -> inst d = Ok i ->
  named (a_algo a) c -> (a_n_src a = VNone \/ exists z, a_n_src a = VInt z) ->
  stft_init gw fn td vl dd (a_n_fft a) (a_hop a) VNone VNone = Ok so ->
  exists s, train (a_algo a) (a_n_src a) model = Ok s /\ forall h, Forall harmless h ->
    exists env, processing (fold_left step h s) = Ok (c, env) /\
    (forall q, In q (map fst env) <-> is_param c q) /\ forall q u, dget env q = Some u -> wanted c a (VMod i) q u.
Proof.
intros S Y I. apply run_lemma with (v := VMod i); auto. unfold train_source. now rewrite Y, I.
Qed.
Lemma fallback_lemma model a c d so : section_says model a ->
  (yget model "source_model" = None \/ yget model "source_model" = Some (YDict d) /\ inst d = Err KeyError) ->
  named (a_algo a) c -> (a_n_src a = VNone \/ exists z, a_n_src a = VInt z) ->
  stft_init gw fn td vl dd (a_n_fft a) (a_hop a) VNone VNone = Ok so ->
  exists s, train (a_algo a) (a_n_src a) model = Ok s /\ forall h, Forall harmless h ->
    exists env, processing (fold_left step h s) = Ok (c, env) /\
    (forall q, In q (map fst env) <-> is_param c q) /\ forall q u, dget env q = Some u -> wanted c a (VMod idm) q u.
Proof.
intros S Y. apply run_lemma with (v := VNone); auto. unfold train_source. destruct Y as [-> | [-> ->]]; reflexivity.
Qed.
Lemma error_lemma model a d e : section_says model a -> yget model "source_model" = Some (YDict d) -> inst d = Err e -> e <> KeyError ->
  train (a_algo a) (a_n_src a) model = Err e.
Proof.
intros S Y I ne. rewrite trainE by auto. unfold train_source. rewrite Y, I. destruct e; try reflexivity. congruence.
Qed.
Lemma required_lemma alg ns model k s : In k required -> yget model k = None -> train alg ns model <> Ok s.
Proof.
intros K Y. unfold train_separator, item_plain, item.
repeat (destruct K as [<-|K]; [rewrite Y; cbn [bind];
  repeat (match goal with |- bind ?x _ <> _ => destruct x; cbn [bind] end; try discriminate); discriminate|]). contradiction.
Qed.
Lemma ignored_lemma alg ns model k v : ~ In k read_keys -> train alg ns (yset model k v) = train alg ns model.
Proof.
intros K. assert (G : forall j, In j read_keys -> yget (yset model k v) j = yget model j).
{ intros j J. rewrite yget_yset. destruct (String.eqb_spec j k) as [->|]; [contradiction|reflexivity]. }
unfold train_separator, train_source, item_plain, item. rewrite !G by (simpl; tauto). reflexivity.
Qed.
End P.
(* a section with an entry eps, which the training ignores and the exported model uses *)
Definition w_section (e : Z) : config :=
  [("n_fft", Y (VInt 2048)); ("hop_length", Y (VInt 512)); ("n_iter", Y (VInt 20)); ("n_taps", Y (VInt 5)); ("n_delay", Y (VInt 1));
   ("use_dmc", Y (VBool false)); ("ref_mic", Y (VInt 0)); ("source_model", YDict [("name", VStr "torchiva.models.GLUMask")]);
   ("eps", Y (VFloat 1 e))].
Lemma eps_lemma keys e : exists a a', round_trip keys (VStr "tiss") VNone (w_section e) [] = Ok (a, Ok a') /\
  a_eps a = VFloat 1 (-5) /\ a_eps a' = VFloat 1 e.
Proof.
exists (mkargs 2048 (VInt 20) (VInt 512) VNone (VInt 5) (VInt 1) VNone (VStr "tiss")
  (SDict [("name", VStr "torchiva.models.GLUMask")]) (VInt 0) (VBool false) VNone (VFloat 1 (-5))).
exists (mkargs 2048 (VInt 20) (VInt 512) VNone (VInt 5) (VInt 1) VNone (VMember "SepAlgo" "T_ISS")
  (SDict [("name", VStr "torchiva.models.GLUMask")]) (VInt 0) (VBool false) VNone (VFloat 1 e)).
split; [|split; reflexivity]. unfold round_trip.
match goal with |- bind ?x _ = _ => let y := eval lazy in x in change x with y end. rewrite bind_ok.
unfold keys_of at 1; cbn [a_algo a_source]. cbn [sepalgo_member]. 
match goal with |- context [find ?f ?l] => let y := eval lazy in (find f l) in change (find f l) with y end.
cbv iota beta. rewrite !bind_ok. unfold reload.
match goal with |- context [call_sep ?x] => let y := eval lazy in (call_sep x) in change (call_sep x) with y end.
rewrite bind_ok. unfold keys_of; cbn [a_algo a_source sepalgo_member].
match goal with |- context [if ?b then Ok "T_ISS" else _] => change b with true end.
cbv iota. rewrite bind_ok. cbn [fst].
rewrite bind_ok, subset_refl. reflexivity.
Qed.
