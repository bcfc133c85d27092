(* Properties C49 and C50: the model cache and the loader. *)
From Coq Require Import String List ZArith.
From Verif Require Import Py PyObj ParamModel SepModel LoadModel LoadSpec LoadProofs.
Import ListNotations.
Local Open Scope string_scope.

(* ------------------------------------------------------------------- C49 *)
(* a file is fetched again only if nothing had been created by the earlier attempt: over any
   history of calls, whatever the network does *)
Theorem c49_at_most_once bytes home (net : nat -> string -> transfer bytes) h w i j u u' fn :
  let w' := fold_left (visit home net) h w in
  nth_error (attempts w') i = Some (u, fn) -> nth_error (attempts w') j = Some (u', fn) ->
  (length (attempts w) <= i < j)%nat -> net i u = Refused bytes.
Proof. intros w' H H' [L ij]; exact (once bytes home net h w i j u u' fn H H' L ij). Qed.
Print Assumptions c49_at_most_once.
(* files in the cache never change, and are never requested again *)
Theorem c49_never_replaced bytes home (net : nat -> string -> transfer bytes) h w fn b :
  files w fn = Some b -> files (fold_left (visit home net) h w) fn = Some b /\
  forall i u, nth_error (attempts (fold_left (visit home net) h w)) i = Some (u, fn) -> (i < length (attempts w))%nat.
Proof. exact (keeps bytes home net h w fn b). Qed.
Print Assumptions c49_never_replaced.
(* when transfers are complete or do not happen, and no two URLs of the history share their
   last component, the files are those the server has *)
Theorem c49_correct bytes home (net : nat -> string -> transfer bytes) remote h w url p :
  (forall n u, net n u = Complete (remote u) \/ net n u = Refused bytes) ->
  (forall fn, files w fn = None) ->
  (forall u, In u h -> path_name u = path_name url -> forall f, urljoin u f = urljoin url f) ->
  fst (get_model_from_url home net (fold_left (visit home net) h w) url) = Ok p ->
  let w' := visit home net (fold_left (visit home net) h w) url in
  files w' (fst p) = Some (remote (urljoin url "model_weights.ckpt")) /\
  files w' (snd p) = Some (remote (urljoin url "model_config.yaml")).
Proof. intros hon; exact (correct bytes home net remote hon h w url p). Qed.
Print Assumptions c49_correct.
(* but two URLs with the same last component share the entry: the second one gets the
   files of the first, without any request *)
Theorem c49_shared_refuted bytes home (net : nat -> string -> transfer bytes) w u1 u2 p h :
  path_name u1 = path_name u2 -> fst (get_model_from_url home net w u1) = Ok p ->
  let w1 := fold_left (visit home net) h (visit home net w u1) in
  fst (get_model_from_url home net w1 u2) = Ok p /\ visit home net w1 u2 = w1 /\
  files w1 (fst p) = files (visit home net w u1) (fst p) /\ files w1 (snd p) = files (visit home net w u1) (snd p).
Proof. exact (shared bytes home net w u1 u2 p h). Qed.
Print Assumptions c49_shared_refuted.
(* and an interrupted download stays in the cache: all later calls find the fragment b and
   never request the file again *)
Theorem c49_partial_file_refuted bytes home (net : nat -> string -> transfer bytes) w u1 b h u2 :
  files w (cache_weights home (path_name u1)) = None ->
  net (length (attempts w)) (urljoin u1 "model_weights.ckpt") = Broken b -> path_name u2 = path_name u1 ->
  fst (get_model_from_url home net w u1) = Err FileError /\
  let w1 := fold_left (visit home net) h (visit home net w u1) in
  files w1 (cache_weights home (path_name u2)) = Some b /\
  forall i u, nth_error (attempts (visit home net w1 u2)) i = Some (u, cache_weights home (path_name u2)) ->
    (i < S (length (attempts w)))%nat.
Proof. exact (partial bytes home net w u1 b h u2). Qed.
Print Assumptions c49_partial_file_refuted.

Definition empty_world := mkworld (fun _ => @None string) [].
(* the server answers with the URL itself; the first answer breaks off in broken *)
Definition echo (_ : nat) (u : string) : transfer string := Complete u.
Definition broken (n : nat) (u : string) : transfer string := match n with O => Broken "htt" | _ => Complete u end.
Example c49_example_names :
  path_name "https://example.org/models/tiss" = "tiss" /\ path_name "http://other.net/a/./tiss//" = "tiss" /\
  urljoin "https://example.org/models/tiss/" "f" = "https://example.org/models/tiss/f".
Proof. repeat split. Qed.
Example c49_example :
  let w := visit "/root" echo empty_world "https://example.org/models/tiss" in
  length (attempts w) = 2 /\
  fst (get_model_from_url "/root" echo w "http://other.net/tiss/") =
    Ok ("/root/.torchiva_models/tiss/model_weights.ckpt", "/root/.torchiva_models/tiss/model_config.yaml") /\
  files (visit "/root" echo w "http://other.net/tiss/") "/root/.torchiva_models/tiss/model_weights.ckpt"
    = Some "https://example.org/models/tiss/model_weights.ckpt".
Proof. repeat split. Qed.
Example c49_example_partial :
  let u := "https://example.org/models/tiss" in
  fst (get_model_from_url "/root" broken empty_world u) = Err FileError /\
  let w := visit "/root" broken empty_world u in
  files (visit "/root" broken w u) "/root/.torchiva_models/tiss/model_weights.ckpt" = Some "htt" /\
  fst (get_model_from_url "/root" broken w u) =
    Ok ("/root/.torchiva_models/tiss/model_weights.ckpt", "/root/.torchiva_models/tiss/model_config.yaml").
Proof. repeat split. Qed.

(* ------------------------------------------------------------------- C50 *)
(* a model that loads was built from the two files, every constructor parameter being the
   keyword argument if given, else the configuration entry, else the default *)
Theorem c50_override bytes sep safe_load torch_load build load_state (fs : string -> option bytes) ckpt cfgp kw (s : sep) :
  NoDup (map fst kw) -> load_separator_model safe_load torch_load build load_state fs ckpt cfgp kw = Ok s ->
  exists bc by_ cfg a st s0, fs ckpt = Some bc /\ fs cfgp = Some by_ /\ safe_load by_ = Ok cfg /\ torch_load bc = Ok st /\
    build a = Ok s0 /\ load_state s0 st = Ok s /\ forall k v, In (k, v) (listed a) -> supplied cfg kw k v.
Proof. exact (lsm_ok bytes sep safe_load torch_load build load_state fs ckpt cfgp kw s). Qed.
Print Assumptions c50_override.
(* missing files, and keyword arguments which are not parameters *)
Theorem c50_missing_file bytes sep safe_load torch_load build load_state (fs : string -> option bytes) ckpt cfgp kw :
  fs ckpt = None \/ fs cfgp = None ->
  load_separator_model (sep := sep) safe_load torch_load build load_state fs ckpt cfgp kw = Err ValueError.
Proof. exact (lsm_missing bytes sep safe_load torch_load build load_state fs ckpt cfgp kw). Qed.
Print Assumptions c50_missing_file.
Theorem c50_unknown_keyword bytes sep safe_load torch_load build load_state (fs : string -> option bytes) ckpt cfgp kw k v bc by_ cfg st :
  NoDup (map fst kw) -> In (k, v) kw -> ~ In k params ->
  fs ckpt = Some bc -> fs cfgp = Some by_ -> safe_load by_ = Ok cfg -> torch_load bc = Ok st ->
  load_separator_model (sep := sep) safe_load torch_load build load_state fs ckpt cfgp kw = Err TypeError.
Proof. exact (lsm_unknown bytes sep safe_load torch_load build load_state fs ckpt cfgp kw k v bc by_ cfg st). Qed.
Print Assumptions c50_unknown_keyword.
(* only http and https reach the network *)
Theorem c50_url bytes sep home (net : nat -> string -> transfer bytes) safe_load torch_load build load_state is_dir exists_ w path kw :
  web_address path ->
  load_separator (sep := sep) home net safe_load torch_load build load_state is_dir exists_ w path kw =
  match fst (get_model_from_url home net w path) with
  | Ok p => (load_separator_model safe_load torch_load build load_state (files (visit home net w path)) (fst p) (snd p) kw,
             visit home net w path)
  | Err e => (Err e, visit home net w path)
  end.
Proof. exact (fun h => ls_http bytes sep home net safe_load torch_load build load_state is_dir exists_ w path kw (proj2 (is_http_iff path) h)). Qed.
Print Assumptions c50_url.
Theorem c50_local bytes sep home (net : nat -> string -> transfer bytes) safe_load torch_load build load_state is_dir exists_ w path kw :
  ~ web_address path ->
  let r := load_separator (sep := sep) home net safe_load torch_load build load_state is_dir exists_ w path kw in
  snd r = w /\
  (exists_ path = true -> is_dir path = true ->
     fst r = load_separator_model safe_load torch_load build load_state (files w)
               (path ++ "/model_weights.ckpt") (path ++ "/model_config.yaml") kw) /\
  (exists_ path = false \/ is_dir path = false -> fst r = Err ValueError).
Proof. exact (fun h => ls_local bytes sep home net safe_load torch_load build load_state is_dir exists_ w path kw (is_http_false path h)). Qed.
Print Assumptions c50_local.

(* the shipped configuration, loaded with n_src=3 and algo="five" *)
Definition shipped : config :=
  [("hop_length", Y (VInt 512)); ("n_delay", Y (VInt 1)); ("n_fft", Y (VInt 2048)); ("n_iter", Y (VInt 20));
   ("n_power_iter", Y (VInt 0)); ("n_taps", Y (VInt 5)); ("proj_back_mic", Y (VInt 0));
   ("source_model", YDict [("name", VStr "torchiva.models.GLUMask")]); ("use_dmc", Y (VBool false))].
Example c50_example :
  load_separator_model (fun _ => Ok shipped) (fun _ => Ok []) (fun a => Ok a) (fun s _ => Ok s)
     (fun _ => Some tt) "c" "y" [("n_src", Y (VInt 3)); ("algo", Y (VStr "five")); ("n_iter", Y (VInt 5))]
  = Ok (mkargs 2048 (VInt 5) (VInt 512) VNone (VInt 5) (VInt 1) (VInt 3) (VStr "five")
      (SDict [("name", VStr "torchiva.models.GLUMask")]) (VInt 0) (VBool false) (VInt 0) (VFloat 1 (-5))).
Proof. reflexivity. Qed.
Example c50_example_url : is_http "HTTPS://example.org/x" = true /\ is_http "http:x" = true /\ is_http "/a:b/http" = false /\
  is_http "ftp://example.org" = false /\ is_http "models/http" = false.
Proof. repeat split. Qed.
