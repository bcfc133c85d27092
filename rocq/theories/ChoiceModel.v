(* Model of examples/test.py:165-352: which separator the evaluation script builds from its options.
   Exceptions of argparse end the program before anything is built; the mutually exclusive groups (188-206)
   are not modelled, the options being independent here.  The separator is the object of SepModel.v. *)
From Coq Require Import String List ZArith Bool.
From Verif Require Import Py PyObj ParamModel SepModel.
Import ListNotations.
Local Open Scope string_scope.
Local Open Scope list_scope.
Local Open Scope py_scope.
Set Implicit Arguments.

(* base.py:31-39 Window(s) and window_types: the values of the members, strings *)
Definition window_members : list (string * string) :=
  [("BARTLETT", "bartlett"); ("BLACKMAN", "blackman"); ("HAMMING", "hamming"); ("HANN", "hann")].
Definition window_types : list val := map (fun p => VStr (snd p)) window_members.
(* a == b; members of an Enum are equal to themselves only *)
Definition same (a b : val) : bool :=
  match a, b with
  | VStr x, VStr y => String.eqb x y
  | VMember c x, VMember d y => String.eqb c d && String.eqb x y
  | VInt x, VInt y => Z.eqb x y
  | VNone, VNone => true
  | _, _ => false
  end.
(* test.py:171-176 the option --window: type converts the string, then the result is looked up
   in choices; None: argparse prints an error and exits *)
Definition parse_window (s : string) : option val :=
  match find (fun p => String.eqb s (snd p)) window_members with
  | None => None
  | Some p => let v := VMember "Window" (fst p) in
              if existsb (same v) window_types then Some v else None
  end.

Record options := mkopt {
  o_n_fft : Z; o_hop : option Z; o_window : val; o_n_iter : Z; o_n_chan : Z;
  o_laplace : bool; o_gauss : bool; o_ilrma : bool;
  o_iss : option string; o_ip2 : option string; o_frontend : option string;
  o_epoch : option (list string); o_algo : string }.
(* 249-250 *)
Definition hop_of (o : options) : Z := match o_hop o with Some h => h | None => (o_n_fft o / 4)%Z end.

Section Choice.
Variable get_window : string -> Z -> result nat.
Variable from_numpy : nat -> nat.
Variable to_dtype : nat -> val -> result nat.
Variable vec_len : nat -> option Z.
Variable default_dtype : val.
Variable instantiate : dict -> result nat.
(* identities: a default model, the algorithm, the STFT, and the source model made by the script *)
Variables (idm ids idt idsrc : nat).
(* nn.py:46-61 the parameters of BSSSeparator after n_fft, with their defaults *)
Definition sep_defaults : dict :=
  [("n_iter", VInt 20); ("hop_length", VNone); ("window", VNone); ("n_taps", VInt 0); ("n_delay", VInt 0);
   ("n_src", VNone); ("algo", VMember "SepAlgo" "T_ISS"); ("source_model", VNone); ("proj_back_mic", VInt 0);
   ("use_dmc", VBool false); ("n_power_iter", VNone); ("eps", VFloat 1 (-5))].
(* BSSSeparator(n_fft=n, **kw): a keyword that is not a parameter raises TypeError *)
Definition bss_separator (n : Z) (kw : dict) : result sep :=
  if forallb (fun p => existsb (String.eqb (fst p)) (map fst sep_defaults)) kw then
    let d := dupdate sep_defaults kw in
    let get k := match dget d k with Some v => v | None => VNone end in
    sep_init get_window from_numpy to_dtype vec_len default_dtype instantiate idm ids idt
      (mkargs n (get "n_iter") (get "hop_length") (get "window") (get "n_taps") (get "n_delay") (get "n_src") (get "algo")
         (SVal (get "source_model")) (get "proj_back_mic") (get "use_dmc") (get "n_power_iter") (get "eps"))
  else raise TypeError.

(* 141-162 load_ensemble_model of a file of hyperparameters and a list of epochs: the separator of the
   training, its algorithm and the name of its source model *)
Variable load_ensemble : string -> list string -> result (sep * string * string).
(* what the script goes on with: the separator, whether it is reset, and the tags algo, model and algo_model *)
Record chosen := mkchosen { c_sep : sep; c_reset : bool; c_algo : string; c_model : string; c_dir : string }.
Definition choose (o : options) (n_src : Z) : result chosen :=
  let common := [("n_src", VInt n_src); ("hop_length", VInt (hop_of o)); ("window", o_window o); ("source_model", VMod idsrc);
                 ("n_iter", VInt (o_n_iter o)); ("n_delay", VInt 0); ("n_taps", VInt 0)] in
  if o_ilrma o then                                                              (* 279-295 *)
    let* s := bss_separator (o_n_fft o) (common ++ [("algo", VStr (o_algo o))]) in
    Ok (mkchosen s true "ilrma" "nmf" (o_algo o))
  else if o_gauss o then                                                         (* 297-318 *)
    let* s := bss_separator (o_n_fft o) (common ++
      [("wpe_n_iter", VInt 3); ("wpe_n_delay", VInt 3); ("wpe_n_taps", VInt 10); ("wpe_n_fft", VInt 512);
       ("dnn_nchan", VInt (o_n_chan o)); ("bss_nchan", VInt (o_n_chan o)); ("algo", VStr (o_algo o))]) in
    Ok (mkchosen s false "iva" "gauss" (o_algo o))
  else match o_iss o with
  | Some path =>                                                                 (* 320-333 *)
      match o_epoch o with
      | None => raise TypeError                                                  (* 142 enumerate(None) *)
      | Some epochs =>
          let* (s, alg, name) := load_ensemble path epochs in
          let s' := fold_left step
            [Write "n_iter" (VInt (o_n_iter o)); Write "n_src" (VInt n_src); Write "bss_nchan" (VInt (o_n_chan o));
             Write "bss_n_iter" (VInt 0); Write "dnn_nchan" (VInt (o_n_chan o))] s in
          Ok (mkchosen s' false alg name (alg ++ "-" ++ name))
      end
  | None =>                                                                      (* 335-353 *)
      let* s := bss_separator (o_n_fft o) (common ++ [("algo", VStr (o_algo o))]) in
      Ok (mkchosen s false "iva" "laplace" ("iva" ++ "_" ++ "laplace"))
  end.
(* 447-448, 483 the number of iterations written to the results *)
Definition recorded_n_iter (s : sep) : result val := raw_get (self s) "n_iter".
End Choice.
