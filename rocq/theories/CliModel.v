(* Model of torchiva/separate.py (the command line). *)
From Coq Require Import String List ZArith Bool.
From Verif Require Import Py PyObj ParamModel SepModel LoadModel.
Import ListNotations.
Local Open Scope string_scope.
Local Open Scope list_scope.
Local Open Scope py_scope.
Set Implicit Arguments.

(* parsed arguments (separate.py:75-147); argparse has checked that algo is a SepAlgo value and
   model_type one of nn, laplace, gauss, nmf *)
Record cli := mkcli {
  c_mic : Z; c_src : Z; c_nfft : Z; c_hop : val; c_win : val; c_algo : option string; c_n_iter : Z; c_taps : Z;
  c_delay : Z; c_ref : Z; c_eps : val; c_model_type : string; c_model_path : string; c_n_basis : Z; c_model_eps : val }.

(* what main asks for: a pre-trained model with keyword arguments, or a new separator *)
Inductive request := Pretrained (path : string) (kw : config) | Build (a : separgs).
Definition is_algo (c : cli) (s : string) : bool :=
  match c_algo c with Some a => String.eqb a s | None => false end.

Section Main.
(* identity of a new source model of the given class, n_basis and eps *)
Variable new_model : string -> Z -> val -> nat.
(* separate.py:150-208: the request, and args.src afterwards *)
Definition main_setup (c : cli) : result (request * Z) :=
  if negb (c_src c <=? c_mic c)%Z then raise AssertionError                                (* 154 *)
  else
    let reduce := is_algo c "five" && (1 <? c_src c)%Z in
    let src := if reduce then 1%Z else c_src c in                                          (* 156-157 *)
    if negb reduce && is_algo c "ip2" && negb ((c_mic c =? 2) && (src <=? 2))%Z then raise ValueError   (* 158-161 *)
    else if String.eqb (c_model_type c) "nn" then                                          (* 164-175 *)
      let kw := [("n_iter", Y (VInt (c_n_iter c))); ("n_src", Y (VInt src)); ("proj_back_mic", Y (VInt (c_ref c)));
                 ("use_dmc", Y (VBool false))] in
      let kw := match c_algo c with Some a => kw ++ [("algo", Y (VStr a))] | None => kw end in
      Ok (Pretrained (c_model_path c) kw, src)
    else
      let alg := match c_algo c with Some a => a | None => "tiss" end in                   (* 178-179 *)
      if is_algo c "mvdr" || is_algo c "mwf" || is_algo c "gev" then raise ValueError      (* 180-183 *)
      else if existsb (String.eqb (c_model_type c)) ["laplace"; "gauss"; "nmf"] then       (* 185-208 *)
        let m := new_model (c_model_type c) (c_n_basis c) (c_model_eps c) in
        (* n_iter and n_power_iter keep the defaults of BSSSeparator *)
        Ok (Build (mkargs (c_nfft c) (VInt 20) (c_hop c) (c_win c) (VInt (c_taps c)) (VInt (c_delay c)) (VInt src)
              (VStr alg) (SVal (VMod m)) (VInt (c_ref c)) (VBool false) VNone (c_eps c)), src)
      else raise ValueError.
End Main.

Section File.
Variables (S : Type) (zero : S).
Definition signal := list S.
(* l[:n] *)
Definition prefix (A : Type) (l : list A) (n : Z) : list A :=
  if (0 <=? n)%Z then firstn (Z.to_nat n) l else firstn (Z.to_nat (Z.of_nat (length l) + n)) l.
(* torch.nn.functional.pad(y, (0, n - len(y))): zeros appended, or samples dropped *)
Definition fit (n : nat) (y : signal) : signal := firstn n (y ++ repeat zero n).
(* separate.py:41-65 between load and save; mix has n_samples samples in each channel;
   y.shape[-2] > n_src leads to the undefined name `ref` *)
Definition separate_channels (separator : list signal -> result (list signal)) (n_samples : nat) (mix : list signal)
    (n_src n_chan : Z) : result (list signal) :=
  let mix := if (n_chan <? Z.of_nat (length mix))%Z then prefix mix n_chan else mix in     (* 47-48 *)
  let* y := separator (prefix mix n_src) in                                                (* 51 *)
  if (n_src <? Z.of_nat (length y))%Z then raise NameError                                 (* 54-57 *)
  else Ok (map (fit n_samples) y).                                                         (* 60-61 *)
End File.

(* ---- files (separate.py:213-245).  A path is the list of its components. *)
Definition path := list string.
Definition pname (p : path) : string := last p "".
Section Files.
Variable data : Type.
Definition store := path -> option data.
Definition path_eqb (p q : path) : bool := if list_eq_dec string_dec p q then true else false.
Definition save (fs : store) (p : path) (d : data) : store := fun q => if path_eqb q p then Some d else fs q.
(* load, process (separate_channels) and save one file *)
Variable process : data -> result data.
Definition separate_one_file (fs : store) (path_in path_out : path) : result store :=
  match fs path_in with
  | Some d => let* d' := process d in Ok (save fs path_out d')
  | None => raise FileError
  end.
Fixpoint separate_all (fs : store) (output : path) (inputs : list path) : result store :=   (* 220-224 *)
  match inputs with
  | [] => Ok fs
  | p :: ps => let* fs' := separate_one_file fs p (output ++ [pname p]) in separate_all fs' output ps
  end.
Variable is_wav : string -> bool.       (* suffix == ".wav" *)
(* directories: input.is_dir(), output.is_dir(), and the files found by input.rglob("*.wav"),
   taken as a list fixed at the start.  mkdir on an existing file raises. *)
Definition run_folder (fs : store) (input output : path) (inputs : list path) : result store :=
  match fs output with
  | Some _ => raise FileError                                                              (* 214 *)
  | None => if path_eqb output input then raise ValueError else separate_all fs output inputs   (* 217-224 *)
  end.
Definition run_single (fs : store) (input output : path) (output_is_dir : bool) : result store :=
  if negb (is_wav (pname input)) then raise ValueError                                     (* 230-231 *)
  else
    let path_out := if output_is_dir then output ++ [pname input] else output in           (* 233-236 *)
    if path_eqb output input then raise ValueError                                         (* 238-239 *)
    else separate_one_file fs input path_out.
End Files.
