(* Properties C46 and C48: the constructors of STFT and BSSSeparator.
   get_window, from_numpy, to_dtype, vec_len, default_dtype and inst stand for scipy's
   get_window, torch's conversions and torchiva.utils.instantiate; nothing is assumed of them. *)
From Coq Require Import String List ZArith.
From Verif Require Import Py PyObj ParamModel ParamSpec SepModel SepSpec SepProofs.
Import ListNotations.
Local Open Scope string_scope.

(* ------------------------------------------------------------------- C46 *)
(* None (Hann) and every window name that scipy knows *)
Theorem c46_named gw fn td vl dd n hop window dtype s a t :
  (window = VNone /\ s = "hann" \/ window = VStr s) -> gw s n = Ok a ->
  td (fn a) (if is_none dtype then dd else dtype) = Ok t -> vl t = Some n ->
  exists o, stft_init gw fn td vl dd n hop window dtype = Ok o /\
    getattr stft_props o "n_fft" = Ok (VInt n) /\ getattr stft_props o "n_freq" = Ok (VInt (n / 2 + 1)) /\
    getattr stft_props o "hop_length" = Ok hop /\ getattr stft_props o "window_type" = Ok (VStr s) /\
    getattr stft_props o "window" = Ok (VTensor t).
Proof. exact (stft_named gw fn td vl dd n hop window dtype s a t). Qed.
Print Assumptions c46_named.
(* unknown names: the error of scipy *)
Theorem c46_unknown_name gw fn td vl dd n hop s dtype e :
  gw s n = Err e -> stft_init gw fn td vl dd n hop (VStr s) dtype = Err e.
Proof. exact (stft_unknown gw fn td vl dd n hop s dtype e). Qed.
Print Assumptions c46_unknown_name.
(* every array or tensor, documented as accepted, fails *)
Theorem c46_custom_window_refuted gw fn td vl dd n hop window dtype :
  window <> VNone -> (forall s, window <> VStr s) ->
  stft_init gw fn td vl dd n hop window dtype = Err AttributeError.
Proof. exact (stft_custom gw fn td vl dd n hop window dtype). Qed.
Print Assumptions c46_custom_window_refuted.

Definition gw1 (s : string) (n : Z) : result nat := if String.eqb s "hann" then Ok 7 else Err ValueError.
Example c46_example :
  (exists o, stft_init gw1 (fun a => a) (fun t _ => Ok t) (fun _ => Some 512%Z) VNone 512 VNone VNone VNone = Ok o /\
     getattr stft_props o "n_freq" = Ok (VInt 257) /\ getattr stft_props o "window" = Ok (VTensor 7)) /\
  stft_init gw1 (fun a => a) (fun t _ => Ok t) (fun _ => Some 512%Z) VNone 512 VNone (VTensor 3) VNone = Err AttributeError.
Proof. split; [eexists; split; [reflexivity|split; reflexivity]|reflexivity]. Qed.

(* ------------------------------------------------------------------- C48 *)
(* a documented algorithm name gives that algorithm, with exactly its documented
   parameters taken from the arguments, and neither calls nor attribute writes (other than
   replacing the separator itself) change what is processed *)
Theorem c48_algorithm gw fn td vl dd inst idm ids idt a c m so :
  named (a_algo a) c -> source_is inst idm (a_source a) m ->
  (iva c -> callable m = true) -> m <> VNone -> (a_n_src a = VNone \/ exists z, a_n_src a = VInt z) ->
  stft_init gw fn td vl dd (a_n_fft a) (a_hop a) (a_window a) VNone = Ok so ->
  exists s, sep_init gw fn td vl dd inst idm ids idt a = Ok s /\ forall h, Forall harmless h ->
  exists env, processing (fold_left step h s) = Ok (c, env) /\
    (forall p, In p (map fst env) <-> is_param c p) /\ NoDup (map fst env) /\
    forall p v, dget env p = Some v -> wanted c a m p v.
Proof. exact (sep_lemma gw fn td vl dd inst idm ids idt a c m so). Qed.
Print Assumptions c48_algorithm.
(* any other value (a Module apart) is rejected, whatever the other arguments *)
Theorem c48_unknown gw fn td vl dd inst idm ids idt a m : source_is inst idm (a_source a) m ->
  (forall c, ~ named (a_algo a) c) -> (forall i, a_algo a <> VMod i) ->
  sep_init gw fn td vl dd inst idm ids idt a = Err ValueError.
Proof. exact (sep_unknown gw fn td vl dd inst idm ids idt a m). Qed.
Print Assumptions c48_unknown.
(* custom windows fail here as well *)
Theorem c48_custom_window gw fn td vl dd inst idm ids idt a c m : named (a_algo a) c ->
  source_is inst idm (a_source a) m -> (a_n_src a = VNone \/ exists z, a_n_src a = VInt z) ->
  a_window a <> VNone -> (forall s, a_window a <> VStr s) ->
  sep_init gw fn td vl dd inst idm ids idt a = Err AttributeError.
Proof. exact (sep_custom gw fn td vl dd inst idm ids idt a c m). Qed.
Print Assumptions c48_custom_window.
(* the warning about n_src > 1 is issued for the member SepAlgo.FIVE only, never for "five" *)
Theorem c48_warning gw fn td vl dd inst idm ids idt a c m so s :
  named (a_algo a) c -> source_is inst idm (a_source a) m ->
  (iva c -> callable m = true) -> m <> VNone -> (a_n_src a = VNone \/ exists z, a_n_src a = VInt z) ->
  stft_init gw fn td vl dd (a_n_fft a) (a_hop a) (a_window a) VNone = Ok so ->
  sep_init gw fn td vl dd inst idm ids idt a = Ok s ->
  (warned s = true <-> a_algo a = VMember "SepAlgo" "FIVE" /\ exists z, a_n_src a = VInt z /\ (1 < z)%Z).
Proof. exact (sep_warn gw fn td vl dd inst idm ids idt a c m so s). Qed.
Print Assumptions c48_warning.

(* BSSSeparator(512, n_iter=20, algo=...), three sources, default model; afterwards
   algo = "ip2" and n_iter = 5 are written: the name changes, the processing does not *)
Definition args1 alg := mkargs 512 (VInt 20) VNone VNone (VInt 0) (VInt 0) (VInt 3) alg (SVal VNone) (VInt 0)
  (VBool false) VNone (VFloat 1 (-5)).
Definition make alg := sep_init gw1 (fun a => a) (fun t _ => Ok t) (fun _ => Some 512%Z) VNone (fun _ => Err TypeError) 1 2 3 (args1 alg).
Example c48_example : exists s, make (VStr "tiss") = Ok s /\ get_algo (self s) = Ok "tiss" /\
  let s' := fold_left step [Write "algo" (VStr "ip2"); Write "n_iter" (VInt 5)] s in
  get_algo (self s') = Ok "ip2" /\ raw_get (self s') "n_iter" = Ok (VInt 5) /\
  processing s' = Ok (TISS, [("n_iter", VInt 20); ("n_taps", VInt 0); ("n_delay", VInt 0); ("n_src", VInt 3);
     ("model", VMod 1); ("proj_back_mic", VInt 0); ("use_dmc", VBool false); ("eps", VFloat 1 (-5))]).
Proof.
destruct (make (VStr "tiss")) as [s|e] eqn:E; [|vm_compute in E; discriminate].
exists s; vm_compute in E; injection E as <-; split; [reflexivity|]; vm_compute; repeat split.
Qed.
Example c48_example_five : (exists s, make (VStr "five") = Ok s /\ warned s = false) /\
  (exists s, make (VMember "SepAlgo" "FIVE") = Ok s /\ warned s = true) /\
  make (VStr "FIVE") = Err ValueError.
Proof.
split; [|split; [|vm_compute; reflexivity]].
- destruct (make (VStr "five")) as [s|e] eqn:E; [|vm_compute in E; discriminate].
  exists s; vm_compute in E; injection E as <-; split; reflexivity.
- destruct (make (VMember "SepAlgo" "FIVE")) as [s|e] eqn:E; [|vm_compute in E; discriminate].
  exists s; vm_compute in E; injection E as <-; split; reflexivity.
Qed.
