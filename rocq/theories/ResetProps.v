(* C42: state of the source model across calls. *)
From mathcomp Require Import all_ssreflect all_algebra.
From Verif Require Import CAlg Py Batch LinalgModel TissModel IvaModel WpeModel FiveModel SrcModel ResetModel ResetProofs.
Set Implicit Arguments. Unset Strict Implicit. Unset Printing Implicit Defensive.
Import GRing.Theory Num.Theory Order.TTheory.
Local Open Scope ring_scope.

(* T_ISS, AuxIVA_IP, AuxIVA_IP2 and FIVE see the earlier state of the model only through
   its reset: result and final state agree for any two states which reset identifies *)
Theorem c42_tiss_isolation (C : numClosedFieldType) (St : Type) (r : St -> St) nS nB nF nT dl nN
    model eps n_iter use_dmc pb onerr (X : sig C nF nN (nS + nB)) (m m' : St) :
  r m = r m' ->
  @tiss_call St (Some r) C nS nB nF nT dl nN model eps n_iter use_dmc pb onerr X m =
  @tiss_call St (Some r) C nS nB nF nT dl nN model eps n_iter use_dmc pb onerr X m'.
Proof. exact: tiss_iso. Qed.
Print Assumptions c42_tiss_isolation.

Theorem c42_ip_isolation (C : numClosedFieldType) (St : Type) (r : St -> St) nS nB nF nN
    model eps n_iter pb onerr (X : sig C nF nN (nS + nB)) (m m' : St) :
  r m = r m' ->
  @ip_call St (Some r) C nS nB nF nN model eps n_iter pb onerr X m =
  @ip_call St (Some r) C nS nB nF nN model eps n_iter pb onerr X m'.
Proof. exact: ip_iso. Qed.
Print Assumptions c42_ip_isolation.

Theorem c42_ip2_isolation (C : numClosedFieldType) (St : Type) (r : St -> St) nF nN
    model eps n_iter mic (X : sig C nF nN 2) (m m' : St) :
  r m = r m' ->
  @ip2_call St (Some r) C nF nN model eps n_iter mic X m =
  @ip2_call St (Some r) C nF nN model eps n_iter mic X m'.
Proof. exact: ip2_iso. Qed.
Print Assumptions c42_ip2_isolation.

Theorem c42_five_isolation (C : numClosedFieldType) (St : Type) (r : St -> St) k nF nN eighO
    model mic np n_iter onerr (X : sig C nF.+1 nN k.+1) (m m' : St) :
  r m = r m' ->
  @five_call St (Some r) C k nF nN eighO model mic np n_iter onerr X m =
  @five_call St (Some r) C k nF nN eighO model mic np n_iter onerr X m'.
Proof. exact: five_iso. Qed.
Print Assumptions c42_five_isolation.

(* any separator with that isolation, called through BSSSeparator: when reset forgets the
   past, every outcome in every history is that of a fresh object ... *)
Theorem c42_history (St In Out : Type) (r : St -> St) (call : In -> St -> result Out * St) :
  (forall x m m', r m = r m' -> call x m = call x m') ->
  forall (m0 : St), (forall m, r m = r m0) ->
  forall h m, sep_run (Some r) call h m = [seq (call x.1 m0).1 | x <- h].
Proof. exact (fun iso m0 f h m => run_fresh iso h m f). Qed.
Print Assumptions c42_history.

(* ... and when resetting twice is resetting once, the reset argument of BSSSeparator has
   no effect, whatever the history *)
Theorem c42_reset_flag (St In Out : Type) (r : St -> St) (call : In -> St -> result Out * St) :
  (forall x m m', r m = r m' -> call x m = call x m') ->
  (forall m, r (r m) = r m) ->
  forall h h' m, [seq x.1 | x <- h] = [seq x.1 | x <- h'] ->
  sep_run (Some r) call h m = sep_run (Some r) call h' m.
Proof. exact (fun iso idem h h' m e => run_flags iso m idem e). Qed.
Print Assumptions c42_reset_flag.

(* BSSSeparator around any separator whatever (one that never resets included): with the
   default reset=True and a reset which goes back to m0, every outcome is that of the
   separator starting from m0 ... *)
Theorem c42_reset_true (St In Out : Type) (call : In -> St -> result Out * St) (r : St -> St) m0 :
  (forall m, r m = m0) -> forall xs m,
  sep_run (Some r) call [seq (x, true) | x <- xs] m = [seq (call x m0).1 | x <- xs].
Proof. exact (fun h xs m => run_true call xs m h). Qed.
Print Assumptions c42_reset_true.

(* ... and with reset=False the next call starts from the state the earlier ones left *)
Theorem c42_reset_false (St In Out : Type) (call : In -> St -> result Out * St) rst xs x m :
  sep_run rst call ([seq (x, false) | x <- xs] ++ [:: (x, false)]) m =
  sep_run rst call [seq (x, false) | x <- xs] m ++ [:: (call x (foldl (fun s y => (call y s).2) m xs)).1].
Proof. exact: run_cat_false. Qed.
Print Assumptions c42_reset_false.

(* a source model without a reset method: the flag is ignored *)
Theorem c42_no_reset_method (St In Out : Type) (call : In -> St -> result Out * St) fl xs m :
  sep_run None call [seq (x, fl) | x <- xs] m = sep_run None call [seq (x, false) | x <- xs] m.
Proof. exact: run_noreset. Qed.
Print Assumptions c42_no_reset_method.

(* a separator which counts its calls in the model: 0, 0, 0 with reset, 5, 6, 7 without *)
Example c42_counting :
  let call (x m : nat) := (Ok (x + m)%N, m.+1) in
  sep_run (Some (fun=> 0%N)) call [seq (x, true) | x <- [:: 10; 20; 30]%N] 5%N = [:: Ok 10; Ok 20; Ok 30]%N /\
  sep_run (Some (fun=> 0%N)) call [seq (x, false) | x <- [:: 10; 20; 30]%N] 5%N = [:: Ok 15; Ok 26; Ok 37]%N.
Proof. by []. Qed.

(* the reset of the NMF model (which keeps the random generator) is idempotent, so the
   flag is without effect for the ILRMA combinations *)
Example c42_nmf_flag (C : numClosedFieldType) nF nN K nB Rng :
  forall s, nmf_reset (@nmf_reset C nF nN K nB Rng s) = nmf_reset s.
Proof. by []. Qed.

(* histories of T_ISS (the same holds for the other three): fresh results for a model whose
   reset forgets everything, flag-independence with the NMF model state *)
Example c42_tiss_history (C : numClosedFieldType) (St : Type) (m0 : St) nS nB nF nT dl nN
    model eps n_iter use_dmc pb onerr h m :
  sep_run (Some (fun=> m0)) (fun X => @tiss_call St (Some (fun=> m0)) C nS nB nF nT dl nN model eps n_iter use_dmc pb onerr X) h m =
  [seq (@tiss_call St (Some (fun=> m0)) C nS nB nF nT dl nN model eps n_iter use_dmc pb onerr x.1 m0).1 | x <- h].
Proof. by apply: c42_history => // X m1 m2; exact: c42_tiss_isolation. Qed.
Example c42_tiss_flag (C : numClosedFieldType) K nBt Rng nS nB nF nT dl nN
    model eps n_iter use_dmc pb onerr h m :
  let r := @nmf_reset C nF nN K nBt Rng in
  let call X := @tiss_call _ (Some r) C nS nB nF nT dl nN model eps n_iter use_dmc pb onerr X in
  sep_run (Some r) call [seq (x, true) | x <- h] m = sep_run (Some r) call [seq (x, false) | x <- h] m.
Proof.
apply: c42_reset_flag => // [X m1 m2|]; first exact: c42_tiss_isolation.
by rewrite -!map_comp; apply: eq_map.
Qed.

(* WPE never resets: the state left by one call changes the next one, although reset
   would have forgotten it. Witness: two frames [1, 1], a model which returns zero weights
   in its initial state and unit weights afterwards *)
Theorem c42_wpe_refuted (C : numClosedFieldType) :
  exists (r : bool -> bool) model (X : sig C 1 2 1), [/\ forall m m', r m = r m',
    (wpe_call 1 0 (Some model) 1 1 id X (r false)).2 = true &
    (wpe_call 1 0 (Some model) 1 1 id X (r false)).1 <> (wpe_call 1 0 (Some model) 1 1 id X true).1].
Proof. exact: wpe_refuted. Qed.
Print Assumptions c42_wpe_refuted.
