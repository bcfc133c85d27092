(* C83: the separator built for training from a configuration. *)
From Coq Require Import String List ZArith Bool.
From Verif Require Import Py PyObj ParamModel ParamSpec SepModel SepSpec LoadModel ExportModel TrainModel TrainSpec TrainProofs.
Import ListNotations.
Local Open Scope string_scope.

(* the network of the configuration, once built, is the source model of the algorithm named, with the values of the section *)
Theorem c83_network gw fn td vl dd inst idm ids idt model a c d i so :
  section_says model a -> yget model "source_model" = Some (YDict d) -> inst d = Ok i ->
  named (a_algo a) c -> (a_n_src a = VNone \/ exists z, a_n_src a = VInt z) ->
  stft_init gw fn td vl dd (a_n_fft a) (a_hop a) VNone VNone = Ok so ->
  exists s, train_separator gw fn td vl dd inst idm ids idt (a_algo a) (a_n_src a) model = Ok s /\
    forall h, Forall harmless h -> exists env, processing (fold_left step h s) = Ok (c, env) /\
    (forall q, In q (map fst env) <-> is_param c q) /\ forall q u, dget env q = Some u -> wanted c a (VMod i) q u.
Proof. exact (network_lemma gw fn td vl dd inst idm ids idt model a c d i so). Qed.
Print Assumptions c83_network.

(* a user expects an error when the network cannot be built; a KeyError raised while building it is taken for a
   missing section, and the Laplace model (identity idm) is used silently *)
Theorem c83_fallback_refuted gw fn td vl dd inst idm ids idt model a c d so :
  section_says model a ->
  (yget model "source_model" = None \/ yget model "source_model" = Some (YDict d) /\ inst d = Err KeyError) ->
  named (a_algo a) c -> (a_n_src a = VNone \/ exists z, a_n_src a = VInt z) ->
  stft_init gw fn td vl dd (a_n_fft a) (a_hop a) VNone VNone = Ok so ->
  exists s, train_separator gw fn td vl dd inst idm ids idt (a_algo a) (a_n_src a) model = Ok s /\
    forall h, Forall harmless h -> exists env, processing (fold_left step h s) = Ok (c, env) /\
    (forall q, In q (map fst env) <-> is_param c q) /\ forall q u, dget env q = Some u -> wanted c a (VMod idm) q u.
Proof. exact (fallback_lemma gw fn td vl dd inst idm ids idt model a c d so). Qed.
Print Assumptions c83_fallback_refuted.

(* any other error while building the network is reported *)
Theorem c83_error gw fn td vl dd inst idm ids idt model a d e :
  section_says model a -> yget model "source_model" = Some (YDict d) -> inst d = Err e -> e <> KeyError ->
  train_separator gw fn td vl dd inst idm ids idt (a_algo a) (a_n_src a) model = Err e.
Proof. exact (error_lemma gw fn td vl dd inst idm ids idt model a d e). Qed.
Print Assumptions c83_error.

(* nothing is built when one of the required entries is missing, although BSSSeparator has defaults for them *)
Theorem c83_required gw fn td vl dd inst idm ids idt alg ns model k s :
  In k required -> yget model k = None -> train_separator gw fn td vl dd inst idm ids idt alg ns model <> Ok s.
Proof. exact (required_lemma gw fn td vl dd inst idm ids idt alg ns model k s). Qed.
Print Assumptions c83_required.

(* every other entry (window, eps, algo, n_src, proj_back_mic, ...) has no influence on the training *)
Theorem c83_ignored gw fn td vl dd inst idm ids idt alg ns model k v : ~ In k read_keys ->
  train_separator gw fn td vl dd inst idm ids idt alg ns (yset model k v) = train_separator gw fn td vl dd inst idm ids idt alg ns model.
Proof. exact (ignored_lemma gw fn td vl dd inst idm ids idt alg ns model k v). Qed.
Print Assumptions c83_ignored.

(* a user expects the exported model to process as in training; an entry eps, ignored in training, is used by
   the exported model *)
Theorem c83_eps_refuted keys e : exists a a', round_trip keys (VStr "tiss") VNone (w_section e) [] = Ok (a, Ok a') /\
  a_eps a = VFloat 1 (-5) /\ a_eps a' = VFloat 1 e.
Proof. exact (eps_lemma keys e). Qed.
Print Assumptions c83_eps_refuted.

Definition e_gw (_ : string) (_ : Z) : result nat := Ok 1.
Definition e_td (i : nat) (_ : val) : result nat := Ok i.
Definition e_vl (_ : nat) : option Z := Some 2048%Z.
Definition e_train inst := train_separator e_gw (fun i => i) e_td e_vl VNone inst 1 2 3.
Definition e_args := mkargs 2048 (VInt 20) (VInt 512) VNone (VInt 5) (VInt 1) (VInt 2) (VStr "tiss")
  (SVal VNone) (VInt 0) (VBool false) VNone (VFloat 1 (-5)).
Example c83_section_example : section_says (w_section (-3)) e_args.
Proof. unfold section_says; simpl. repeat split; auto. Qed.
Example c83_network_example : exists s env, e_train (fun _ => Ok 7) (VStr "tiss") (VInt 2) (w_section (-3)) = Ok s /\
  processing s = Ok (TISS, env) /\ dget env "model" = Some (VMod 7) /\ dget env "n_taps" = Some (VInt 5) /\
  dget env "eps" = Some (VFloat 1 (-5)).
Proof. eexists. eexists. split; [lazy; reflexivity|]. split; [lazy; reflexivity|]. repeat split; lazy; reflexivity. Qed.
Example c83_fallback_example : exists s env,
  e_train (fun _ => Err KeyError) (VStr "tiss") (VInt 2) (w_section (-3)) = Ok s /\
  processing s = Ok (TISS, env) /\ dget env "model" = Some (VMod 1).
Proof. eexists. eexists. split; [lazy; reflexivity|]. split; [lazy; reflexivity|]. lazy; reflexivity. Qed.
Example c83_error_example : e_train (fun _ => Err TypeError) (VStr "tiss") (VInt 2) (w_section (-3)) = Err TypeError.
Proof. reflexivity. Qed.
Example c83_required_example : yget (ydel (w_section (-3)) "n_taps") "n_taps" = None /\
  e_train (fun _ => Ok 7) (VStr "tiss") (VInt 2) (ydel (w_section (-3)) "n_taps") = Err KeyError.
Proof. split; reflexivity. Qed.
Example c83_ignored_example : ~ In "window" read_keys.
Proof. simpl. intuition discriminate. Qed.
