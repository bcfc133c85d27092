(* Properties C51 and C52: the command line. *)
From Coq Require Import String List ZArith.
From Verif Require Import Py PyObj ParamModel SepModel LoadModel LoadSpec CliModel CliSpec CliProofs.
Import ListNotations.
Local Open Scope string_scope.
Local Open Scope list_scope.

(* ------------------------------------------------------------------- C51 *)
(* more sources than microphones *)
Theorem c51_rejects_sources nm c : (c_mic c < c_src c)%Z -> main_setup nm c = Err AssertionError.
Proof. exact (setup_mic nm c). Qed.
Print Assumptions c51_rejects_sources.
(* ip2 with anything but two microphones *)
Theorem c51_rejects_ip2 nm c :
  (c_src c <= c_mic c)%Z -> c_algo c = Some "ip2" -> (c_mic c <> 2 \/ 2 < c_src c)%Z -> main_setup nm c = Err ValueError.
Proof. exact (setup_ip2 nm c). Qed.
Print Assumptions c51_rejects_ip2.
(* beamformers without a neural network *)
Theorem c51_rejects_beamformers nm c :
  (c_src c <= c_mic c)%Z -> c_model_type c <> "nn" ->
  (c_algo c = Some "mvdr" \/ c_algo c = Some "mwf" \/ c_algo c = Some "gev") -> main_setup nm c = Err ValueError.
Proof. exact (setup_bf nm c). Qed.
Print Assumptions c51_rejects_beamformers.
(* the number of sources after an accepted command line: one at most for five *)
Theorem c51_five nm c r s : main_setup nm c = Ok (r, s) -> c_algo c = Some "five" -> (s <= 1)%Z.
Proof. exact (setup_five nm c r s). Qed.
Print Assumptions c51_five.
(* a new separator: --n_iter is not among its parameters, the default 20 is used *)
Theorem c51_new nm c r s : main_setup nm c = Ok (r, s) -> c_model_type c <> "nn" -> exists a, r = Build a /\
  a_n_iter a = VInt 20 /\ a_n_src a = VInt s /\ a_pb a = VInt (c_ref c) /\ a_n_fft a = c_nfft c /\
  a_n_taps a = VInt (c_taps c) /\ a_n_delay a = VInt (c_delay c) /\
  a_algo a = VStr (match c_algo c with Some x => x | None => "tiss" end) /\
  a_source a = SVal (VMod (nm (c_model_type c) (c_n_basis c) (c_model_eps c))).
Proof. exact (setup_new nm c r s). Qed.
Print Assumptions c51_new.
Theorem c51_n_iter_ignored nm c n : c_model_type c <> "nn" -> main_setup nm (with_iter c n) = main_setup nm c.
Proof. exact (setup_iter nm c n). Qed.
Print Assumptions c51_n_iter_ignored.
(* a pre-trained model: four parameters and, if given, the algorithm come from the command
   line, all others from the model's configuration or the defaults *)
Theorem c51_pretrained nm c p kw s bytes safe_load torch_load (fs : string -> option bytes) ckpt cfgp a by_ cfg :
  main_setup nm c = Ok (Pretrained p kw, s) -> fs cfgp = Some by_ -> safe_load by_ = Ok cfg ->
  load_separator_model safe_load torch_load (@Ok separgs) (fun x _ => Ok x) fs ckpt cfgp kw = Ok a ->
  p = c_model_path c /\ a_n_iter a = VInt (c_n_iter c) /\ a_n_src a = VInt s /\ a_pb a = VInt (c_ref c) /\
  a_use_dmc a = VBool false /\ (forall x, c_algo c = Some x -> a_algo a = VStr x) /\
  forall k v, In (k, v) (listed a) -> ~ In k ["n_iter"; "n_src"; "proj_back_mic"; "use_dmc"] ->
    (k = "algo" -> c_algo c = None) -> supplied cfg [] k v.
Proof. exact (pretrained_args nm c p kw s bytes safe_load torch_load fs ckpt cfgp a by_ cfg). Qed.
Print Assumptions c51_pretrained.
(* the separator sees the first s channels of the file and nothing else; more output
   channels than that are an error, others are fitted to the length of the input *)
Theorem c51_channels (S : Type) (zero : S) sepr N mix s m : (0 <= s <= m)%Z ->
  separate_channels zero sepr N mix s m =
  match sepr (firstn (Z.to_nat s) mix) with
  | Err e => Err e
  | Ok y => if Nat.ltb (Z.to_nat s) (length y) then Err NameError else Ok (map (fit zero N) y)
  end.
Proof. exact (channels_lemma S zero sepr N mix s m). Qed.
Print Assumptions c51_channels.
Theorem c51_length (S : Type) (zero : S) N y :
  length (fit zero N y) = N /\ (length y = N -> fit zero N y = y).
Proof. exact (conj (fit_length S zero N y) (fit_id S zero N y)). Qed.
Print Assumptions c51_length.
(* hence --mic has no effect beyond the tests on it *)
Theorem c51_mic_ignored nm c m r s (S : Type) (zero : S) sepr N mix :
  main_setup nm c = Ok (r, s) -> (c_src c <= m)%Z -> (c_algo c = Some "ip2" -> m = 2%Z) -> (0 <= s)%Z ->
  main_setup nm (with_mic c m) = Ok (r, s) /\
  separate_channels zero sepr N mix s m = separate_channels zero sepr N mix s (c_mic c).
Proof. exact (mic_ignored nm c m r s S zero sepr N mix). Qed.
Print Assumptions c51_mic_ignored.
(* ip2 with one source: the algorithm, which raises unless it is given two channels, is given one *)
Theorem c51_ip2_one_source nm c r s (S : Type) (zero : S) sepr N mix :
  main_setup nm c = Ok (r, s) -> c_algo c = Some "ip2" -> c_src c = 1%Z ->
  (forall x, length x <> 2 -> exists e, sepr x = Err e) ->
  exists e, separate_channels zero sepr N mix s (c_mic c) = Err e.
Proof. exact (ip2_one nm c r s S zero sepr N mix). Qed.
Print Assumptions c51_ip2_one_source.

Definition args mic src algo n_iter model :=
  mkcli mic src 4096 VNone VNone algo n_iter 5 1 0 VNone model "trained_models/tiss" 2 VNone.
Example c51_example_five :
  exists kw, main_setup (fun _ _ _ => 7) (args 4 2 (Some "five") 20 "nn") = Ok (Pretrained "trained_models/tiss" kw, 1%Z)
  /\ In ("algo", Y (VStr "five")) kw.
Proof. eexists; split; [reflexivity|simpl; tauto]. Qed.
Example c51_example_ip2 :
  (exists a, main_setup (fun _ _ _ => 7) (args 2 1 (Some "ip2") 20 "laplace") = Ok (Build a, 1%Z)) /\
  main_setup (fun _ _ _ => 7) (args 3 2 (Some "ip2") 20 "laplace") = Err ValueError /\
  main_setup (fun _ _ _ => 7) (args 2 3 (Some "tiss") 20 "laplace") = Err AssertionError /\
  main_setup (fun _ _ _ => 7) (args 2 2 (Some "mvdr") 20 "gauss") = Err ValueError.
Proof. repeat split; eexists; reflexivity. Qed.
(* six channels, two sources, four microphones: a separator that returns its input *)
Example c51_example_channels :
  separate_channels 0 (@Ok (list (list nat))) 3 [[1;2;3]; [4;5;6]; [7;8;9]; [1;1;1]; [2;2;2]; [3;3;3]] 2 4
  = Ok [[1;2;3]; [4;5;6]] /\
  separate_channels 0 (fun x => Ok (map (fun y => y ++ [9]) x)) 2 [[1;2]; [4;5]; [7;8]] 1 3 = Ok [[1;2]] /\
  separate_channels 0 (fun x => Ok (x ++ x)) 2 [[1;2]; [4;5]; [7;8]] 1 3 = Err NameError.
Proof. repeat split. Qed.

(* ------------------------------------------------------------------- C52 *)
(* folder mode, no input file lying where an output goes: the inputs and all other files are
   unchanged, and the output called n is made from the last input with that name *)
Theorem c52_folder data (process : data -> result data) fs i o ps fs' :
  run_folder process fs i o ps = Ok fs' -> (forall p q, In p ps -> In q ps -> p <> o ++ [pname q]) ->
  (forall p, In p ps -> fs' p = fs p) /\
  (forall q, (forall p, In p ps -> q <> o ++ [pname p]) -> fs' q = fs q) /\
  (forall p, is_last_with (fun x => pname x = pname p) ps p ->
     exists d d', fs p = Some d /\ process d = Ok d' /\ fs' (o ++ [pname p]) = Some d').
Proof. exact (folder_lemma data process fs i o ps fs'). Qed.
Print Assumptions c52_folder.
(* so there are as many outputs as distinct names *)
Theorem c52_outputs o ps : exists outs, NoDup outs /\
  (forall q, In q outs <-> exists p, In p ps /\ q = o ++ [pname p]) /\
  length outs = length (nodup string_dec (map pname ps)).
Proof. exact (outputs_count o ps). Qed.
Print Assumptions c52_outputs.
(* which is fewer than inputs when two of them have the same name *)
Theorem c52_one_output_per_input_refuted ps p q :
  In p ps -> In q ps -> p <> q -> pname p = pname q -> length (nodup string_dec (map pname ps)) < length ps.
Proof. exact (collision_lost ps p q). Qed.
Print Assumptions c52_one_output_per_input_refuted.
(* the folder itself is refused as output *)
Theorem c52_same_folder data (process : data -> result data) fs i ps :
  fs i = None -> run_folder process fs i i ps = Err ValueError.
Proof. exact (run_folder_same data process fs i ps). Qed.
Print Assumptions c52_same_folder.
(* one file: the output is written, nothing else *)
Theorem c52_single data (process : data -> result data) is_wav fs i o b fs' :
  run_single process is_wav fs i o b = Ok fs' ->
  exists d d', fs i = Some d /\ process d = Ok d' /\ o <> i /\
    forall q, fs' q = if list_eq_dec string_dec q (if b then o ++ [pname i] else o) then Some d' else fs q.
Proof. exact (single_lemma data process is_wav fs i o b fs'). Qed.
Print Assumptions c52_single.
(* but the test that the output is not the input does not protect the input when the output
   is its folder *)
Theorem c52_input_kept_refuted data (process : data -> result data) is_wav fs dir name d d' :
  fs (dir ++ [name]) = Some d -> process d = Ok d' -> is_wav name = true ->
  exists fs', run_single process is_wav fs (dir ++ [name]) dir true = Ok fs' /\ fs' (dir ++ [name]) = Some d'.
Proof. exact (overwrites data process is_wav fs dir name d d'). Qed.
Print Assumptions c52_input_kept_refuted.

Definition tree (p : path) : option nat :=
  if list_eq_dec string_dec p ["in"; "a"; "x.wav"] then Some 1
  else if list_eq_dec string_dec p ["in"; "b"; "x.wav"] then Some 2
  else if list_eq_dec string_dec p ["in"; "y.wav"] then Some 3 else None.
Definition ten (d : nat) : result nat := Ok (10 * d).
Example c52_example : exists fs,
  run_folder ten tree ["in"] ["out"] [["in"; "a"; "x.wav"]; ["in"; "b"; "x.wav"]; ["in"; "y.wav"]] = Ok fs /\
  fs ["out"; "x.wav"] = Some 20 /\ fs ["out"; "y.wav"] = Some 30 /\ fs ["in"; "a"; "x.wav"] = Some 1.
Proof. eexists; repeat split. Qed.
Example c52_example_single : exists fs,
  run_single ten (fun _ => true) tree ["in"; "y.wav"] ["in"] true = Ok fs /\ fs ["in"; "y.wav"] = Some 30.
Proof. eexists; repeat split. Qed.
