(* Model of torchiva/loader.py. *)
From Coq Require Import String Ascii List ZArith Bool.
From Verif Require Import Py PyObj ParamModel SepModel.
Import ListNotations.
Local Open Scope string_scope.
Local Open Scope py_scope.
Set Implicit Arguments.

(* ---- paths and URLs *)
Definition slash : ascii := "/"%char.
(* components of a string separated by "/" *)
Fixpoint split_slash (s : string) : list string :=
  match s with
  | EmptyString => [""]
  | String c s' =>
      if Ascii.eqb c slash then "" :: split_slash s'
      else match split_slash s' with
           | [] => [String c ""]
           | h :: t => String c h :: t
           end
  end.
(* pathlib.PurePosixPath(s).name: empty components and "." are dropped; "" if nothing is left *)
Definition path_name (s : string) : string :=
  last (filter (fun c => negb (String.eqb c "" || String.eqb c ".")) (split_slash s)) "".
(* str.strip("/") *)
Fixpoint lstrip (s : string) : string :=
  match s with String c s' => if Ascii.eqb c slash then lstrip s' else s | EmptyString => s end.
Fixpoint rstrip (s : string) : string :=
  match s with
  | EmptyString => EmptyString
  | String c s' => match rstrip s' with
                   | EmptyString => if Ascii.eqb c slash then EmptyString else String c EmptyString
                   | r => String c r
                   end
  end.
(* loader.py:23-24 *)
Definition urljoin (a b : string) : string := rstrip (lstrip a) ++ "/" ++ b.
Definition WEIGHTS_FN := "model_weights.ckpt".     (* loader.py:13 *)
Definition CONFIG_FN := "model_config.yaml".       (* loader.py:14 *)
(* loader.py:17-20; a folder is identified by its path as a string *)
Definition get_model_filenames (folder : string) : string * string :=
  (folder ++ "/" ++ WEIGHTS_FN, folder ++ "/" ++ CONFIG_FN).

Section Cache.
Variable bytes : Type.
Variable home : string.
(* an attempt to download: everything arrives, nothing is created, or the connection breaks
   (or the process dies) after some data has been written to the destination file *)
Inductive transfer := Complete (b : bytes) | Refused | Broken (b : bytes).
(* the file system and the log of attempted downloads: (url, destination) *)
Record world := mkworld { files : string -> option bytes; attempts : list (string * string) }.
Definition put (w : world) (fn : string) (b : bytes) : world :=
  mkworld (fun p => if String.eqb p fn then Some b else files w p) (attempts w).
Definition note (w : world) (url fn : string) : world := mkworld (files w) (attempts w ++ [(url, fn)]).
(* what the network does at the n-th attempt, n being the number of earlier ones *)
Variable net : nat -> string -> transfer.
(* urllib.request.urlretrieve writing straight to its destination *)
Definition urlretrieve (w : world) (url fn : string) : result unit * world :=
  let w' := note w url fn in
  match net (length (attempts w)) url with
  | Complete b => (Ok tt, put w' fn b)
  | Refused => (Err FileError, w')
  | Broken b => (Err FileError, put w' fn b)
  end.
(* loader.py:41-43 one pass of the loop *)
Definition fetch (w : world) (fn url : string) : result unit * world :=
  match files w fn with
  | Some _ => (Ok tt, w)
  | None => urlretrieve w url fn
  end.
(* loader.py:36 *)
Definition model_path (url : string) : string := home ++ "/.torchiva_models/" ++ path_name url.
(* loader.py:27-45 *)
Definition get_model_from_url (w : world) (url : string) : result (string * string) * world :=
  let yaml_url := urljoin url CONFIG_FN in
  let ckpt_url := urljoin url WEIGHTS_FN in
  let '(ckpt_fn, yaml_fn) := get_model_filenames (model_path url) in
  match fetch w ckpt_fn ckpt_url with
  | (Err e, w1) => (Err e, w1)
  | (Ok _, w1) =>
      match fetch w1 yaml_fn yaml_url with
      | (Err e, w2) => (Err e, w2)
      | (Ok _, w2) => (Ok (ckpt_fn, yaml_fn), w2)
      end
  end.
(* a history of calls *)
Definition visit (w : world) (url : string) : world := snd (get_model_from_url w url).

(* ---- loading.  Configuration values: plain values, or a mapping (source_model) *)
Inductive yval := Y (v : val) | YDict (d : dict).
Definition config := list (string * yval).
Fixpoint yget (d : config) (k : string) : option yval :=
  match d with [] => None | (k', v) :: d' => if String.eqb k k' then Some v else yget d' k end.
Fixpoint yset (d : config) (k : string) (v : yval) : config :=
  match d with
  | [] => [(k, v)]
  | (k', v') :: d' => if String.eqb k k' then (k', v) :: d' else (k', v') :: yset d' k v
  end.
(* dict.update *)
Fixpoint yupdate (d kw : config) : config :=
  match kw with [] => d | (k, v) :: kw' => yupdate (yset d k v) kw' end.

(* nn.py:46-61  the parameters of BSSSeparator.__init__ and their defaults (n_fft has none) *)
Definition sep_defaults : config :=
  [("n_iter", Y (VInt 20)); ("hop_length", Y VNone); ("window", Y VNone); ("n_taps", Y (VInt 0)); ("n_delay", Y (VInt 0));
   ("n_src", Y VNone); ("algo", Y (VMember "SepAlgo" "T_ISS")); ("source_model", Y VNone); ("proj_back_mic", Y (VInt 0));
   ("use_dmc", Y (VBool false)); ("n_power_iter", Y VNone); ("eps", Y (VFloat 1 (-5)))].
(* BSSSeparator( **cfg): unknown keywords and a missing n_fft are TypeErrors *)
Definition known (k : string) : bool :=
  String.eqb k "n_fft" || existsb (fun p => String.eqb k (fst p)) sep_defaults.
Definition kwarg (cfg : config) (k : string) : yval :=
  match yget cfg k with Some v => v | None => match yget sep_defaults k with Some v => v | None => Y VNone end end.
(* mappings given for anything but source_model make the constructors fail later on *)
Definition plain (v : yval) : result val := match v with Y v => Ok v | YDict _ => raise TypeError end.
Definition call_sep (cfg : config) : result separgs :=
  if negb (forallb (fun p => known (fst p)) cfg) then raise TypeError
  else
    let* n_fft := match yget cfg "n_fft" with Some (Y (VInt z)) => Ok z | _ => raise TypeError end in
    let* n_iter := plain (kwarg cfg "n_iter") in
    let* hop := plain (kwarg cfg "hop_length") in
    let* window := plain (kwarg cfg "window") in
    let* n_taps := plain (kwarg cfg "n_taps") in
    let* n_delay := plain (kwarg cfg "n_delay") in
    let* n_src := plain (kwarg cfg "n_src") in
    let* algo := plain (kwarg cfg "algo") in
    let* pb := plain (kwarg cfg "proj_back_mic") in
    let* dmc := plain (kwarg cfg "use_dmc") in
    let* np := plain (kwarg cfg "n_power_iter") in
    let* eps := plain (kwarg cfg "eps") in
    Ok (mkargs n_fft n_iter hop window n_taps n_delay n_src algo
         (match kwarg cfg "source_model" with Y v => SVal v | YDict d => SDict d end) pb dmc np eps).

Variable safe_load : bytes -> result config.            (* yaml.safe_load *)
Variable torch_load : bytes -> result dict.             (* torch.load *)
Variable sep : Type.
Variable build : separgs -> result sep.                 (* BSSSeparator.__init__, SepModel.v *)
Variable load_state : sep -> dict -> result sep.        (* load_state_dict *)
(* loader.py:48-85 *)
Definition load_separator_model (fs : string -> option bytes) (ckpt cfg : string) (kw : config) : result sep :=
  match fs ckpt with
  | None => raise ValueError
  | Some bc =>
      match fs cfg with
      | None => raise ValueError
      | Some by_ =>
          let* model_config := safe_load by_ in
          let model_config := yupdate model_config kw in
          let* state := torch_load bc in
          let* a := call_sep model_config in
          let* s := build a in
          load_state s state
      end
  end.
(* str.lower on ASCII letters *)
Definition lower_char (c : ascii) : ascii :=
  let n := nat_of_ascii c in if (65 <=? n)%nat && (n <=? 90)%nat then ascii_of_nat (n + 32) else c.
Fixpoint lower (s : string) : string :=
  match s with EmptyString => EmptyString | String c s' => String (lower_char c) (lower s') end.
(* text before the first ":", if any.  urlparse(s).scheme is this text in lower case when
   it consists of scheme characters, which is all that matters for the comparison below *)
Fixpoint before_colon (s : string) : option string :=
  match s with
  | EmptyString => None
  | String c s' => if Ascii.eqb c ":" then Some "" else option_map (String c) (before_colon s')
  end.
Definition is_http (s : string) : bool :=
  match before_colon s with
  | Some p => String.eqb (lower p) "http" || String.eqb (lower p) "https"
  | None => false
  end.
Variable is_dir : string -> bool.                       (* path_obj.is_dir() *)
Variable exists_ : string -> bool.                      (* path_obj.exists() *)
(* loader.py:88-119 *)
Definition load_separator (w : world) (path : string) (kw : config) : result sep * world :=
  if is_http path then
    match get_model_from_url w path with
    | (Ok (ckpt, cfg), w') => (load_separator_model (files w') ckpt cfg kw, w')
    | (Err e, w') => (Err e, w')
    end
  else if exists_ path then
    if is_dir path then
      let '(ckpt, cfg) := get_model_filenames path in (load_separator_model (files w) ckpt cfg kw, w)
    else (Err ValueError, w)
  else (Err ValueError, w).
End Cache.
