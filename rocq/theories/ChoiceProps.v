(* C82: the separator that examples/test.py evaluates. *)
From Coq Require Import String List ZArith Bool.
From Verif Require Import Py PyObj ParamModel ParamSpec SepModel SepSpec ChoiceModel ChoiceSpec ChoiceProofs.
Import ListNotations.
Local Open Scope string_scope.

(* without a trained network: the separator runs the algorithm named by --algo with the values of the options,
   whatever is done to it afterwards (calls, attribute writes other than separator), and the number of
   iterations in the results is the option *)
Theorem c82_classic gw fn td vl dd inst idm ids idt idsrc load o n c so :
  o_gauss o = false -> o_iss o = None -> named (VStr (o_algo o)) c ->
  stft_init gw fn td vl dd (o_n_fft o) (VInt (asked_hop o)) (o_window o) VNone = Ok so ->
  exists s, choose gw fn td vl dd inst idm ids idt idsrc load o n =
      Ok (if o_ilrma o then mkchosen s true "ilrma" "nmf" (o_algo o) else mkchosen s false "iva" "laplace" "iva_laplace") /\
    recorded_n_iter s = Ok (VInt (o_n_iter o)) /\
    forall h, Forall harmless h -> exists env, processing (fold_left step h s) = Ok (c, env) /\
      (forall q, In q (map fst env) <-> is_param c q) /\ forall q v, dget env q = Some v -> wanted c (asked idsrc o n) (VMod idsrc) q v.
Proof. exact (classic_lemma gw fn td vl dd inst idm ids idt idsrc load o n c so). Qed.
Print Assumptions c82_classic.

(* an unknown name for --algo is an error *)
Theorem c82_unknown gw fn td vl dd inst idm ids idt idsrc load o n :
  o_gauss o = false -> o_iss o = None -> (forall c, ~ named (VStr (o_algo o)) c) ->
  choose gw fn td vl dd inst idm ids idt idsrc load o n = Err ValueError.
Proof. exact (unknown_lemma gw fn td vl dd inst idm ids idt idsrc load o n). Qed.
Print Assumptions c82_unknown.

(* a user expects --gauss to evaluate the Gaussian model; it always fails *)
Theorem c82_gauss_refuted gw fn td vl dd inst idm ids idt idsrc load o n : o_ilrma o = false -> o_gauss o = true ->
  choose gw fn td vl dd inst idm ids idt idsrc load o n = Err TypeError.
Proof. exact (gauss_lemma gw fn td vl dd inst idm ids idt idsrc load o n). Qed.
Print Assumptions c82_gauss_refuted.

(* a user expects --ip2-hparams and --frontend-hparams to select a trained network; they, --laplace, --epoch
   and --n_chan have no influence on the separator *)
Theorem c82_hparams_refuted gw fn td vl dd inst idm ids idt idsrc load o o' n :
  o_ilrma o = false -> o_gauss o = false -> o_iss o = None -> o_ilrma o' = false -> o_gauss o' = false -> o_iss o' = None ->
  o_n_fft o = o_n_fft o' -> o_hop o = o_hop o' -> o_window o = o_window o' -> o_n_iter o = o_n_iter o' -> o_algo o = o_algo o' ->
  choose gw fn td vl dd inst idm ids idt idsrc load o n = choose gw fn td vl dd inst idm ids idt idsrc load o' n.
Proof. exact (ignored_lemma gw fn td vl dd inst idm ids idt idsrc load o o' n). Qed.
Print Assumptions c82_hparams_refuted.

(* --iss-hparams without --epoch is an error *)
Theorem c82_no_epoch gw fn td vl dd inst idm ids idt idsrc load o n p :
  o_ilrma o = false -> o_gauss o = false -> o_iss o = Some p -> o_epoch o = None ->
  choose gw fn td vl dd inst idm ids idt idsrc load o n = Err TypeError.
Proof. exact (epoch_lemma gw fn td vl dd inst idm ids idt idsrc load o n p). Qed.
Print Assumptions c82_no_epoch.

(* a trained network (the separator built from arguments a by the training script): the processing keeps every
   parameter of the training, while the results show the number of iterations of the option *)
Theorem c82_trained gw fn td vl dd inst idm ids idt idsrc load o n p es a c m so s alg name i :
  o_ilrma o = false -> o_gauss o = false -> o_iss o = Some p -> o_epoch o = Some es ->
  named (a_algo a) c -> source_is inst idm (a_source a) m -> (iva c -> callable m = true) -> m <> VNone ->
  (a_n_src a = VNone \/ exists z, a_n_src a = VInt z) -> a_n_iter a = VInt i ->
  stft_init gw fn td vl dd (a_n_fft a) (a_hop a) (a_window a) VNone = Ok so ->
  sep_init gw fn td vl dd inst idm ids idt a = Ok s -> load p es = Ok (s, alg, name) ->
  exists ch, choose gw fn td vl dd inst idm ids idt idsrc load o n = Ok ch /\
    c_reset ch = false /\ c_algo ch = alg /\ c_model ch = name /\
    recorded_n_iter (c_sep ch) = Ok (VInt (o_n_iter o)) /\
    forall h, Forall harmless h -> exists env, processing (fold_left step h (c_sep ch)) = Ok (c, env) /\
      (forall q, In q (map fst env) <-> is_param c q) /\ forall q v, dget env q = Some v -> wanted c a m q v.
Proof. exact (trained_lemma gw fn td vl dd inst idm ids idt idsrc load o n p es a c m so s alg name i). Qed.
Print Assumptions c82_trained.

(* a user expects the evaluated number of iterations and of sources to be the requested ones: trained with 20,
   asked for 5 iterations and 2 sources, the script runs 20 and all sources and records 5 *)
Theorem c82_iterations_refuted : exists ch env,
  choose w_gw (fun i => i) w_td w_vl VNone w_inst 1 2 3 8 w_load w_opt 2 = Ok ch /\
  recorded_n_iter (c_sep ch) = Ok (VInt 5) /\ processing (c_sep ch) = Ok (TISS, env) /\
  dget env "n_iter" = Some (VInt 20) /\ dget env "n_src" = Some VNone.
Proof. exact iterations_lemma. Qed.
Print Assumptions c82_iterations_refuted.

(* the command of README.rst, for the network of configs/tiss.json: 40 iterations asked for and recorded, 20 run *)
Theorem c82_readme_refuted : exists ch env,
  choose w_gw (fun i => i) w_td r_vl VNone w_inst 1 2 3 8 r_load r_opt 2 = Ok ch /\
  recorded_n_iter (c_sep ch) = Ok (VInt 40) /\ processing (c_sep ch) = Ok (TISS, env) /\
  dget env "n_iter" = Some (VInt 20) /\ dget env "n_taps" = Some (VInt 5).
Proof. exact readme_lemma. Qed.
Print Assumptions c82_readme_refuted.

(* a user expects --window hann to select that window; every value of the option is rejected *)
Theorem c82_window_refuted s : parse_window s = None.
Proof. exact (window_lemma s). Qed.
Print Assumptions c82_window_refuted.

Definition e_opt := mkopt 16 None VNone 5 2 false false true None None None None "ip2".
Example c82_classic_example : exists ch env,
  choose w_gw (fun i => i) w_td w_vl VNone w_inst 1 2 3 8 w_load e_opt 2 = Ok ch /\ c_reset ch = true /\
  processing (c_sep ch) = Ok (IP2, env) /\ dget env "n_iter" = Some (VInt 5) /\ dget env "model" = Some (VMod 8).
Proof. eexists. eexists. split; [lazy; reflexivity|]. split; [lazy; reflexivity|]. split; [lazy; reflexivity|]. split; lazy; reflexivity. Qed.
Example c82_gauss_example :
  choose w_gw (fun i => i) w_td w_vl VNone w_inst 1 2 3 8 w_load (mkopt 16 None VNone 5 2 false true false None None None None "tiss") 2
  = Err TypeError.
Proof. reflexivity. Qed.
Example c82_unknown_example :
  choose w_gw (fun i => i) w_td w_vl VNone w_inst 1 2 3 8 w_load (mkopt 16 None VNone 5 2 false false true None None None None "ilrma_t_iss") 2
  = Err ValueError.
Proof. reflexivity. Qed.
Example c82_no_epoch_example :
  choose w_gw (fun i => i) w_td w_vl VNone w_inst 1 2 3 8 w_load (mkopt 16 None VNone 5 2 false false false (Some "h.yaml") None None None "tiss") 2
  = Err TypeError.
Proof. reflexivity. Qed.
Example c82_hparams_example : exists ch,
  choose w_gw (fun i => i) w_td w_vl VNone w_inst 1 2 3 8 w_load (mkopt 16 None VNone 5 2 false false false None (Some "h.yaml") None (Some ["3"]) "tiss") 2
  = Ok ch /\ c_model ch = "laplace".
Proof. eexists. split; lazy; reflexivity. Qed.
Example c82_window_example : find (fun p => String.eqb "hann" (snd p)) window_members = Some ("HANN", "hann").
Proof. reflexivity. Qed.
