(* Property C57: export and reload of a trained model. *)
From Coq Require Import String List ZArith.
From Verif Require Import Py PyObj ParamModel SepModel LoadModel LoadSpec ExportModel ExportSpec ExportProofs.
Import ListNotations.
Local Open Scope string_scope.

(* for every training configuration with one of the IVA algorithms, the model reloads with all
   parameters of the separator it was trained in except two, the number of sources and the
   algorithm, which are back to their defaults *)
Theorem c57_reload source_keys alg ns model a :
  training_section model -> train_args alg ns model = Ok a -> iva_name alg ->
  round_trip source_keys alg ns model [] = Ok (a, Ok (with_defaults a)).
Proof. exact (trip_iva source_keys alg ns model a). Qed.
Print Assumptions c57_reload.
(* a model trained in a beamformer does not load at all *)
Theorem c57_beamformer_refuted source_keys alg ns model a :
  training_section model -> train_args alg ns model = Ok a -> beamformer_name alg ->
  round_trip source_keys alg ns model [] = Ok (a, Err RuntimeError).
Proof. exact (trip_bf source_keys alg ns model a). Qed.
Print Assumptions c57_beamformer_refuted.
(* giving the two lost parameters again restores the training configuration *)
Theorem c57_keywords source_keys alg ns model a :
  training_section model -> train_args alg ns model = Ok a -> iva_name alg \/ beamformer_name alg ->
  round_trip source_keys alg ns model [("n_src", Y ns); ("algo", Y alg)] = Ok (a, Ok a).
Proof. exact (trip_kw source_keys alg ns model a). Qed.
Print Assumptions c57_keywords.
(* an entry that is no parameter of BSSSeparator, though ignored in training, prevents loading *)
Theorem c57_extra_entry source_keys model ks k v :
  In (k, v) model -> ~ In k params -> k <> "ref_mic" -> reload source_keys model ks [] = Err TypeError.
Proof. exact (reload_unknown source_keys model ks k v). Qed.
Print Assumptions c57_extra_entry.

(* examples/configs/mvdr.json and tiss.json *)
Definition section (n_fft hop taps delay np : Z) (name : string) : config :=
  [("n_fft", Y (VInt n_fft)); ("hop_length", Y (VInt hop)); ("n_iter", Y (VInt 20)); ("n_taps", Y (VInt taps));
   ("n_delay", Y (VInt delay)); ("n_power_iter", Y (VInt np)); ("use_dmc", Y (VBool false)); ("ref_mic", Y (VInt 0));
   ("source_model", YDict [("name", VStr name)])].
Definition keys (_ : srcarg) := ["layer.weight"; "layer.bias"].
Example c57_example_section : forall a b c d e n, training_section (section a b c d e n).
Proof.
  intros; split.
  - simpl; repeat (constructor; [simpl; intuition discriminate|]); constructor.
  - intros k v I; simpl in I. repeat (destruct I as [[= <- _]|I]; [simpl; tauto|]). contradiction.
Qed.
Example c57_example :
  exists a, train_args (VStr "tiss") (VInt 2) (section 2048 512 5 1 0 "torchiva.models.GLUMask") = Ok a /\
  a_n_src a = VInt 2 /\
  round_trip keys (VStr "tiss") (VInt 2) (section 2048 512 5 1 0 "torchiva.models.GLUMask") [] = Ok (a, Ok (with_defaults a)) /\
  a_n_src (with_defaults a) = VNone /\ a_n_taps (with_defaults a) = VInt 5.
Proof. eexists; repeat split. Qed.
Example c57_example_mvdr :
  exists a, round_trip keys (VStr "mvdr") (VInt 2) (section 4096 1024 0 0 10 "torchiva.models.MaskMVDRSupport") []
    = Ok (a, Err RuntimeError).
Proof. eexists; reflexivity. Qed.
Example c57_example_extra : reload keys (("n_chan", Y (VInt 2)) :: section 2048 512 5 1 0 "torchiva.models.GLUMask") [] []
  = Err TypeError.
Proof. reflexivity. Qed.
