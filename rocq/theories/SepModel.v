(* Model of the constructors of torchiva/stft.py (STFT) and torchiva/nn.py (BSSSeparator),
   and of the attribute writes and calls that may follow. *)
From Coq Require Import String List ZArith Bool.
From Verif Require Import Py PyObj ParamModel.
Import ListNotations.
Local Open Scope string_scope.
Local Open Scope py_scope.
Set Implicit Arguments.

(* ---- STFT *)
(* stft.py:65-83  properties, none of which has a setter *)
Definition stft_props : klass :=
  [("n_fft", "_n_fft"); ("hop_length", "_hop_length"); ("n_freq", "_n_freq"); ("window", "_window");
   ("window_type", "_window_type")].
Section Stft.
(* scipy.signal.get_window(name, n): identity of the new array, or an error for unknown
   names; torch.from_numpy; Tensor.to(dtype); ndim == 1 and shape[0] *)
Variable get_window : string -> Z -> result nat.
Variable from_numpy : nat -> nat.
Variable to_dtype : nat -> val -> result nat.
Variable vec_len : nat -> option Z.
Variable default_dtype : val.      (* torch.zeros(1).dtype *)

(* stft.py:56-63, once window_type is settled.  register_buffer is modelled as an
   assignment in __dict__ (the lookup finds either) *)
Definition stft_buffer (n_fft : Z) (o : obj) (dtype window : val) : result obj :=
  let* t := match window with
            | VArray a => Ok (from_numpy a)
            | VTensor t => Ok t
            | _ => raise AttributeError          (* window.to *)
            end in
  let* t' := to_dtype t dtype in
  match vec_len t' with
  | Some n => if Z.eqb n n_fft then setattr stft_props o "_window" (VTensor t') else raise AssertionError
  | None => raise AssertionError
  end.
(* stft.py:29-63 *)
Definition stft_init (n_fft : Z) (hop_length window dtype : val) : result obj :=
  let is_str v := match v with VStr _ => true | _ => false end in
  let dtype := if is_none dtype && (is_none window || is_str window) then default_dtype else dtype in
  let* o := setattrs stft_props empty_obj
    [("_n_fft", VInt n_fft); ("_n_freq", VInt (n_fft / 2 + 1)); ("_hop_length", hop_length);   (* 38-40 *)
     ("dtype", dtype)] in                                                                     (* 42-45 *)
  let window := if is_none window then VStr "hann" else window in                             (* 47-48 *)
  match window with
  | VStr s =>                                                                                 (* 50-52 *)
      let* o := setattr stft_props o "_window_type" window in
      let* a := get_window s n_fft in
      stft_buffer n_fft o dtype (VArray a)
  | _ =>                                                                                      (* 53-54 *)
      let* o := setattr stft_props o "window_type" (VStr "custom") in
      stft_buffer n_fft o dtype window
  end.

(* ---- BSSSeparator *)
(* nn.py:36-42  SepAlgo: member name and value *)
Definition sepalgo : list (string * string) :=
  [("AUXIVA_IP2", "ip2"); ("T_ISS", "tiss"); ("FIVE", "five"); ("MVDR", "mvdr"); ("MWF", "mwf"); ("GEV", "gev")].
(* SepAlgo(v): a member, or the value of one; ValueError otherwise *)
Definition sepalgo_member (v : val) : result string :=
  match v with
  | VMember c m => if String.eqb c "SepAlgo" && existsb (fun p => String.eqb m (fst p)) sepalgo
                   then Ok m else raise ValueError
  | VStr s => match find (fun p => String.eqb s (snd p)) sepalgo with
              | Some p => Ok (fst p) | None => raise ValueError end
  | _ => raise ValueError
  end.
(* v > 1 for Python numbers; other types raise (tensors are not modelled) *)
Definition gt1 (v : val) : result bool :=
  match v with
  | VInt z => Ok (Z.ltb 1 z)
  | VBool _ => Ok false
  | VFloat m e => Ok (if Z.leb 0 e then Z.ltb 1 (m * 10 ^ e) else Z.ltb (10 ^ (- e)) m)
  | _ => raise TypeError
  end.
(* nn.py:146  val == SepAlgo.FIVE: true for the member only *)
Definition is_five (v : val) : bool :=
  match v with VMember c m => String.eqb c "SepAlgo" && String.eqb m "FIVE" | _ => false end.
(* nn.py:142-151  algo.setter: the object, and whether a warning was issued.  A Module
   is registered by nn.Module.__setattr__ without reaching the setter. *)
Definition set_algo (o : obj) (v : val) : result (obj * bool) :=
  match v with
  | VMod _ => let* o := setattr [] o "algo" v in Ok (o, false)
  | _ => let* m := sepalgo_member v in
         let* o := setattr [] o "_algo" (VMember "SepAlgo" m) in
         if is_five v then
           let* n := raw_get o "n_src" in
           if is_none n then Ok (o, false) else let* w := gt1 n in Ok (o, w)
         else Ok (o, false)
  end.
(* nn.py:138-140  algo.getter: _algo.value; when _algo is missing nn.Module.__getattr__ looks
   for a registered module "algo", which is then compared to strings *)
Definition get_algo (o : obj) : result string :=
  match raw_get o "_algo" with
  | Ok (VMember _ m) => match find (fun p => String.eqb m (fst p)) sepalgo with
                        | Some p => Ok (snd p) | None => raise AttributeError end
  | Ok _ => raise AttributeError
  | Err _ => let* _ := raw_get o "algo" in Ok ""
  end.

(* source_model argument: a dictionary is instantiated (oracle: identity of the new module) *)
Inductive srcarg := SDict (d : dict) | SVal (v : val).
Variable instantiate : dict -> result nat.

Record separgs := mkargs {
  a_n_fft : Z; a_n_iter : val; a_hop : val; a_window : val; a_n_taps : val; a_n_delay : val; a_n_src : val;
  a_algo : val; a_source : srcarg; a_pb : val; a_use_dmc : val; a_n_power_iter : val; a_eps : val }.
(* a separator: the object, and the modules it holds by identity (sub-objects) *)
Record sep := mksep { self : obj; heap : nat -> option (cls * obj); warned : bool }.

(* nn.py:82-136: class and keyword arguments for an algorithm name; None: NotImplementedError *)
Definition dispatch (alg : string) (a : separgs) (m : val) : option (cls * dict) :=
  if String.eqb alg "tiss" then Some (TISS,
    [("n_iter", a_n_iter a); ("n_taps", a_n_taps a); ("n_delay", a_n_delay a); ("n_src", a_n_src a); ("model", m);
     ("proj_back_mic", a_pb a); ("use_dmc", a_use_dmc a); ("eps", a_eps a)])
  else if String.eqb alg "ip2" then Some (IP2,
    [("n_iter", a_n_iter a); ("model", m); ("proj_back_mic", a_pb a); ("eps", a_eps a)])
  else if String.eqb alg "five" then Some (Five,
    [("n_iter", a_n_iter a); ("model", m); ("proj_back_mic", a_pb a); ("eps", a_eps a);
     ("n_power_iter", a_n_power_iter a)])
  else if String.eqb alg "mvdr" then Some (MVDR,
    [("mask_model", m); ("ref_mic", a_pb a); ("eps", a_eps a); ("mvdr_type", VStr "rtf");
     ("n_power_iter", a_n_power_iter a)])
  else if String.eqb alg "mwf" then Some (MWF,
    [("mask_model", m); ("ref_mic", a_pb a); ("eps", a_eps a); ("time_invariant", VBool true)])
  else if String.eqb alg "gev" then Some (GEV, [("mask_model", m); ("ref_mic", a_pb a); ("eps", a_eps a)])
  else None.

(* nn.py:46-136  __init__; idm, ids, idt: identities of a new LaplaceModel, of the
   separator and of the STFT *)
Definition sep_init (idm ids idt : nat) (a : separgs) : result sep :=
  let* m := match a_source a with                                            (* 65-70 *)
            | SVal VNone => Ok (VMod idm)
            | SVal v => Ok v
            | SDict d => let* i := instantiate d in Ok (VMod i)
            end in
  let* o := setattr [] empty_obj "source_model" m in
  let* o := setattr [] o "n_src" (a_n_src a) in                              (* 72 *)
  let* (o, w) := set_algo o (a_algo a) in                                    (* 73 *)
  let* o := setattr [] o "n_iter" (a_n_iter a) in                            (* 76 *)
  let* _ := stft_init (a_n_fft a) (a_hop a) (a_window a) VNone in            (* 79 *)
  let* o := setattr [] o "stft" (VMod idt) in
  let* alg := get_algo o in
  let* m := raw_get o "source_model" in
  match dispatch alg a m with
  | Some (c, kw) =>
      let* s := construct c idm (dupdate (init_sig c) kw) in
      let* o := setattr [] o "separator" (VMod ids) in
      Ok (mksep o (fun i => if Nat.eqb i ids then Some (c, s) else None) w)
  | None => raise NotImplementedError
  end.

(* what happens to a separator: an attribute write, or a call of forward, which calls
   self.separator(X) without further arguments (nn.py:165) *)
Inductive event := Write (k : string) (v : val) | Forward (k : call).
Definition write (o : obj) (k : string) (v : val) : obj :=
  match (if String.eqb k "algo" then rmap fst (set_algo o v) else setattr [] o k v) with
  | Ok o' => o' | Err _ => o end.
Definition step (s : sep) (e : event) : sep :=
  match e with
  | Write k v => mksep (write (self s) k v) (heap s) (warned s)
  | Forward c =>
      match raw_get (self s) "separator" with
      | Ok (VMod i) =>
          match heap s i with
          | Some (cl, o) =>
              let o' := do_call cl o (mkcall [] (c_W c) (c_J c) (c_raises c)) in
              mksep (self s) (fun j => if Nat.eqb j i then Some (cl, o') else heap s j) (warned s)
          | None => s
          end
      | _ => s
      end
  end.
(* the algorithm and parameters used by forward *)
Definition processing (s : sep) : result (cls * dict) :=
  let* v := raw_get (self s) "separator" in
  match v with
  | VMod i => match heap s i with
              | Some (cl, o) => let* p := call_params cl o [] in Ok (cl, p)
              | None => raise TypeError
              end
  | _ => raise TypeError
  end.
End Stft.
