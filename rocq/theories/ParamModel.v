(* Model of the constructors and of the parameter handling of torchiva/base.py,
   torchiva/t_iss.py, auxiva_ip.py, auxiva_ip2.py, five.py, wpe.py, beamformer.py. *)
From Coq Require Import String List ZArith Bool.
From Verif Require Import Py PyObj.
Import ListNotations.
Local Open Scope string_scope.
Local Open Scope py_scope.
Set Implicit Arguments.

(* torchiva/base.py:117-143  properties of DRBSSBase *)
Definition base_props : klass :=
  [("n_iter", "_n_iter"); ("n_taps", "_n_taps"); ("n_delay", "_n_delay"); ("n_src", "_n_src");
   ("proj_back_mic", "_proj_back_mic"); ("use_dmc", "_use_dmc"); ("eps", "_eps")].
(* torchiva/base.py:170-176  properties of BFBase *)
Definition bf_props : klass := [("ref_mic", "_ref_mic"); ("eps", "_eps")].

(* torchiva/base.py:71-104  DRBSSBase.__init__; fresh is the identity of the new
   LaplaceModel() *)
Definition base_init (fresh : nat) (n_iter n_taps n_delay n_src model pb use_dmc eps : val) : result obj :=
  let* o := setattrs base_props empty_obj
    [("_n_taps", n_taps); ("_n_delay", n_delay); ("_n_iter", n_iter); ("_n_src", n_src);
     ("_proj_back_mic", pb); ("_use_dmc", use_dmc);
     ("_eps", if is_none eps then VFloat 1 (-5) else eps);
     ("model", if is_none model then VMod fresh else model)] in
  let* m := getattr base_props o "model" in
  if callable m then setattr base_props o "checkpoints_list" (VTensor 0) else raise AssertionError.

(* torchiva/base.py:146-161  BFBase.__init__ *)
Definition bf_init (mask_model ref_mic eps : val) : result obj :=
  setattrs bf_props empty_obj [("mask_model", mask_model); ("_ref_mic", ref_mic); ("_eps", eps)].

(* torchiva/base.py:106-111, 163-168  _set_params: the values of the keyword dictionary,
   None replaced by the attribute of the same name *)
Fixpoint set_params (c : klass) (o : obj) (kw : dict) : result (list val) :=
  match kw with
  | [] => Ok []
  | (k, v) :: kw' =>
      let* v' := (if is_none v then getattr c o k else Ok v) in
      let* r := set_params c o kw' in
      Ok (v' :: r)
  end.

Inductive cls := TISS | IP | IP2 | Five | Wpe | MVDR | MWF | GEV.

(* keyword arguments of __init__ with their defaults, in the order of the signature *)
Definition init_sig (c : cls) : dict :=
  match c with
  | TISS =>  (* t_iss.py:386-396 *)
      [("n_iter", VInt 10); ("n_taps", VInt 0); ("n_delay", VInt 0); ("n_src", VNone); ("model", VNone);
       ("proj_back_mic", VInt 0); ("use_dmc", VBool false); ("eps", VNone)]
  | IP =>    (* auxiva_ip.py:185-192 *)
      [("n_iter", VInt 10); ("n_src", VNone); ("model", VNone); ("proj_back_mic", VInt 0); ("eps", VNone)]
  | IP2 =>   (* auxiva_ip2.py:135-141 *)
      [("n_iter", VInt 10); ("model", VNone); ("proj_back_mic", VInt 0); ("eps", VNone)]
  | Five =>  (* five.py:129-136 *)
      [("n_iter", VInt 10); ("model", VNone); ("proj_back_mic", VInt 0); ("eps", VNone); ("n_power_iter", VNone)]
  | Wpe =>   (* wpe.py:118-125 *)
      [("n_iter", VInt 3); ("n_delay", VInt 3); ("n_taps", VInt 5); ("model", VNone); ("eps", VFloat 1 (-5))]
  | MVDR =>  (* beamformer.py:218-225; mask_model has no default *)
      [("mask_model", VNone); ("ref_mic", VInt 0); ("eps", VFloat 1 (-5)); ("mvdr_type", VStr "rtf"); ("n_power_iter", VNone)]
  | MWF =>   (* beamformer.py:352-358 *)
      [("mask_model", VNone); ("ref_mic", VInt 0); ("eps", VFloat 1 (-5)); ("time_invariant", VBool true)]
  | GEV =>   (* beamformer.py:455-460 *)
      [("mask_model", VNone); ("ref_mic", VInt 0); ("eps", VFloat 1 (-5))]
  end.
Definition props_of (c : cls) : klass :=
  match c with MVDR | MWF | GEV => bf_props | _ => base_props end.
Definition arg (d : dict) (k : string) : val := match dget d k with Some v => v | None => VNone end.

(* the constructors; a holds all arguments (given or default) *)
Definition construct (c : cls) (fresh : nat) (a : dict) : result obj :=
  let i := VInt in
  match c with
  | TISS =>  (* t_iss.py:398-412 *)
      let* o := base_init fresh (arg a "n_iter") (arg a "n_taps") (arg a "n_delay") (arg a "n_src") (arg a "model")
                  (arg a "proj_back_mic") (arg a "use_dmc") (arg a "eps") in
      setattrs base_props o [("W", VNone); ("H", VNone); ("J", VNone)]
  | IP =>    (* auxiva_ip.py:194-200 *)
      base_init fresh (arg a "n_iter") (VInt 0) (VInt 0) (arg a "n_src") (arg a "model")
        (arg a "proj_back_mic") (VBool false) (arg a "eps")
  | IP2 =>   (* auxiva_ip2.py:143-152 *)
      let* o := base_init fresh (arg a "n_iter") (VInt 0) (VInt 0) VNone (arg a "model")
                  (arg a "proj_back_mic") (VBool false) (arg a "eps") in
      setattrs base_props o [("W", VNone); ("A", VNone)]
  | Five =>  (* five.py:137-144 *)
      let* o := base_init fresh (arg a "n_iter") (VInt 0) (VInt 0) VNone (arg a "model")
                  (arg a "proj_back_mic") (VBool false) (arg a "eps") in
      setattr base_props o "n_power_iter" (arg a "n_power_iter")
  | Wpe =>   (* wpe.py:127-134: the model is not given to the base class but assigned afterwards *)
      let* o := base_init fresh (arg a "n_iter") (arg a "n_taps") (arg a "n_delay") VNone VNone
                  (VInt 0) (VBool false) (arg a "eps") in
      setattr base_props o "model" (arg a "model")
  | MVDR =>  (* beamformer.py:226-233 *)
      let* o := bf_init (arg a "mask_model") (arg a "ref_mic") (arg a "eps") in
      setattrs bf_props o [("mvdr_type", arg a "mvdr_type"); ("n_power_iter", arg a "n_power_iter")]
  | MWF =>   (* beamformer.py:359-365 *)
      let* o := bf_init (arg a "mask_model") (arg a "ref_mic") (arg a "eps") in
      setattr bf_props o "time_invariant" (arg a "time_invariant")
  | GEV =>   (* beamformer.py:462-466 *)
      bf_init (arg a "mask_model") (arg a "ref_mic") (arg a "eps")
  end.

(* keyword arguments passed to _set_params by forward, in that order: parameter of
   _set_params and the forward argument it is given *)
Definition forward_kw (c : cls) : list (string * string) :=
  match c with
  | TISS =>  (* t_iss.py:439-448 *)
      [("n_iter", "n_iter"); ("n_taps", "n_taps"); ("n_delay", "n_delay"); ("n_src", "n_src"); ("model", "model");
       ("proj_back_mic", "proj_back_mic"); ("use_dmc", "use_dmc"); ("eps", "eps")]
  | IP =>    (* auxiva_ip.py:213-219 *)
      [("n_iter", "n_iter"); ("n_src", "n_src"); ("model", "model"); ("proj_back_mic", "proj_back_mic"); ("eps", "eps")]
  | IP2 =>   (* auxiva_ip2.py:165-170 *)
      [("n_iter", "n_iter"); ("model", "model"); ("proj_back_mic", "proj_back_mic"); ("eps", "eps")]
  | Five =>  (* five.py:158-164 *)
      [("n_iter", "n_iter"); ("model", "model"); ("proj_back_mic", "proj_back_mic"); ("eps", "eps");
       ("n_power_iter", "n_power_iter")]
  | Wpe =>   (* wpe.py:146-152 *)
      [("n_iter", "n_iter"); ("n_taps", "n_taps"); ("n_delay", "n_delay"); ("model", "model"); ("eps", "eps")]
  | MVDR =>  (* beamformer.py:245-251 *)
      [("mask_model", "mask_model"); ("ref_mic", "ref_mic"); ("eps", "eps"); ("mvdr_type", "mvdr_type");
       ("n_power_iter", "n_power_iter")]
  | MWF =>   (* beamformer.py:376-381 *)
      [("mask_model", "mask_model"); ("ref_mic", "ref_mic"); ("eps", "eps"); ("time_invariant", "time_invariant")]
  | GEV =>   (* beamformer.py:476-480 *)
      [("mask_model", "mask_model"); ("ref_mic", "ref_mic"); ("eps", "eps")]
  end.
(* the local variables the returned values are unpacked into, in that order *)
Definition forward_targets (c : cls) : list string :=
  match c with
  | TISS => (* t_iss.py:430-439 *) ["n_iter"; "n_taps"; "n_delay"; "n_src"; "model"; "proj_back_mic"; "use_dmc"; "eps"]
  | IP => (* auxiva_ip.py:213 *) ["n_iter"; "n_src"; "model"; "proj_back_mic"; "eps"]
  | IP2 => (* auxiva_ip2.py:165 *) ["n_iter"; "model"; "proj_back_mic"; "eps"]
  | Five => (* five.py:158 *) ["n_iter"; "model"; "proj_back_mic"; "eps"; "n_power_iter"]
  | Wpe => (* wpe.py:146 *) ["n_iter"; "n_taps"; "n_delay"; "model"; "eps"]
  | MVDR => (* beamformer.py:245 *) ["mask_model"; "ref_mic"; "eps"; "mvdr_type"; "n_power_iter"]
  | MWF => (* beamformer.py:376 *) ["mask_model"; "ref_mic"; "eps"; "time_invariant"]
  | GEV => (* beamformer.py:476 *) ["mask_model"; "ref_mic"; "eps"]
  end.
(* unpacking: ValueError when the numbers differ *)
Fixpoint unpack (ts : list string) (vs : list val) : result dict :=
  match ts, vs with
  | [], [] => Ok []
  | t :: ts', v :: vs' => let* r := unpack ts' vs' in Ok ((t, v) :: r)
  | _, _ => raise ValueError
  end.
(* the parameters a call uses; a holds the keyword arguments given to forward *)
Definition call_params (c : cls) (o : obj) (a : dict) : result dict :=
  let* vs := set_params (props_of c) o (map (fun p => (fst p, arg a (snd p))) (forward_kw c)) in
  unpack (forward_targets c) vs.

(* attributes written by forward: T_ISS stores W and J (t_iss.py:536-537); H is not
   updated; the other classes store nothing *)
Definition forward_writes (c : cls) (o : obj) (w j : val) : result obj :=
  match c with TISS => setattrs base_props o [("W", w); ("J", j)] | _ => Ok o end.

(* a call: the parameters it used and the object afterwards.  A call that raises
   before the end leaves the attributes as they were. *)
Record call := mkcall { c_args : dict; c_W : nat; c_J : option nat; c_raises : bool }.
Definition do_call (c : cls) (o : obj) (k : call) : obj :=
  if c_raises k then o
  else match call_params c o (c_args k) with
       | Ok _ => match forward_writes c o (VTensor (c_W k))
                         (match c_J k with Some j => VTensor j | None => VNone end) with
                 | Ok o' => o' | Err _ => o end
       | Err _ => o
       end.
Definition run_calls (c : cls) (o : obj) (h : list call) : obj := fold_left (do_call c) h o.
