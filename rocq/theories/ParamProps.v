(* Properties C01 and C61: parameters and stored filters. *)
From Coq Require Import String List ZArith.
From Verif Require Import Py PyObj ParamModel ParamSpec ParamProofs.
Import ListNotations.
Local Open Scope string_scope.

(* ------------------------------------------------------------------- C01 *)
(* For every class, after construction with arguments a and any history h of calls, a
   call with arguments b binds exactly the documented parameters, each to the value
   given to the call or else to the value configured by the constructor. *)
Theorem c01_call_parameters c fresh a o h b : construct c fresh a = Ok o ->
  exists env, call_params c (run_calls c o h) b = Ok env /\ (forall p, In p (map fst env) <-> is_param c p) /\
    NoDup (map fst env) /\
    forall p, is_param c p -> exists conf v, configured c fresh a p conf /\ dget env p = Some v /\ effective b p conf v.
Proof. exact (c01_lemma c fresh a o h b). Qed.
Print Assumptions c01_call_parameters.

(* which constructor calls succeed, and how the others fail *)
Theorem c01_constructor c fresh a :
  (model_ok c a -> exists o, construct c fresh a = Ok o) /\
  (~ model_ok c a -> construct c fresh a = Err (match c with Wpe => TypeError | _ => AssertionError end)).
Proof.
  split; [intros M; destruct (construct_ok c fresh a M) as [o [H _]]; eauto|exact (construct_err c fresh a)].
Qed.
Print Assumptions c01_constructor.

(* a parameter given neither to the constructor nor to the call has its documented default,
   whatever else is given and whatever was called before *)
Theorem c01_documented_defaults c fresh kw o h p d : construct c fresh (dupdate (init_sig c) kw) = Ok o ->
  dget (documented c fresh) p = Some d -> dget kw p = None ->
  exists env, call_params c (run_calls c o h) [] = Ok env /\ dget env p = Some d.
Proof. exact (documented_lemma c fresh kw o h p d). Qed.
Print Assumptions c01_documented_defaults.
(* WPE(n_taps=10) *)
Example c01_defaults_example : exists o env, construct Wpe 7 (dupdate (init_sig Wpe) [("n_taps", VInt 10)]) = Ok o /\
  call_params Wpe o [] = Ok env /\ dget env "n_iter" = Some (VInt 3) /\ dget env "n_taps" = Some (VInt 10).
Proof. do 2 eexists; repeat split. Qed.

(* T_ISS(n_iter=7, proj_back_mic=1) called with n_iter=3 and eps=1e-3, after a call with
   other values *)
Example c01_example :
  exists o, construct TISS 42 [("n_iter", VInt 7); ("n_taps", VInt 0); ("n_delay", VInt 0); ("n_src", VNone);
      ("model", VNone); ("proj_back_mic", VInt 1); ("use_dmc", VBool false); ("eps", VNone)] = Ok o /\
  call_params TISS (run_calls TISS o [mkcall [("n_iter", VInt 99); ("n_src", VInt 2)] 1 None false])
      [("n_iter", VInt 3); ("eps", VFloat 1 (-3))]
  = Ok [("n_iter", VInt 3); ("n_taps", VInt 0); ("n_delay", VInt 0); ("n_src", VNone); ("model", VMod 42);
        ("proj_back_mic", VInt 1); ("use_dmc", VBool false); ("eps", VFloat 1 (-3))].
Proof. eexists; split; reflexivity. Qed.

(* ------------------------------------------------------------------- C61 *)
(* the filters found on the object are those of the last call that returned, except
   that T_ISS.H and the W, A of AuxIVA_IP2 stay None forever *)
Theorem c61_stored_filters c fresh a o h : construct c fresh a = Ok o ->
  match c with
  | TISS => getattr base_props (run_calls c o h) "H" = Ok VNone /\
      getattr base_props (run_calls c o h) "W" = Ok (match last_ok h with Some k => VTensor (c_W k) | None => VNone end) /\
      getattr base_props (run_calls c o h) "J" = Ok (match last_ok h with Some k => jval k | None => VNone end)
  | IP2 => getattr base_props (run_calls c o h) "W" = Ok VNone /\ getattr base_props (run_calls c o h) "A" = Ok VNone
  | _ => True
  end.
Proof. exact (c61_lemma c fresh a o h). Qed.
Print Assumptions c61_stored_filters.
Example c61_example : last_ok [mkcall [] 1 None false; mkcall [] 2 (Some 3) false; mkcall [] 4 None true]
  = Some (mkcall [] 2 (Some 3) false).
Proof. reflexivity. Qed.
