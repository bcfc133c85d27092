(* Theorems for C65: the phases of the microphones. *)
From mathcomp Require Import all_ssreflect all_algebra.
From Verif Require Import CAlg Py Batch LinalgModel TissModel IvaModel WpeModel BeamModel SrcModel PhaseSpec PhaseTiss PhaseIp PhaseIp2 PhaseWpe PhaseBeam PhaseBridge.
Set Implicit Arguments. Unset Strict Implicit. Unset Printing Implicit Defensive.
Import GRing.Theory Num.Theory Order.TTheory.
Local Open Scope ring_scope.

Section Props.
Variable C : numClosedFieldType.
Variables (nS nB nF nT dl nN : nat).

(* T_ISS, any number of background channels and taps, with and without demixing at the end
   (use_dmc); errors are the same on both sides *)
Theorem c65_tiss (St : Type) (model : St -> sig C nF nN nS -> sig C nF nN nS * St)
    (D : 'I_nF -> 'I_(nS + nB) -> C) (X : sig C nF nN (nS + nB)) eps n_iter use_dmc pb m0 :
  phases D -> magnitude_model model ->
  let dS := fun f s => D f (lshift nB s) in let dB := fun f b => D f (rshift nS b) in
  let ph := fun f s => match pb with Some ref => if (0 < n_iter)%N then D f ref else dS f s | None => dS f s end in
  forward nT dl model (rotate D X) eps n_iter use_dmc pb m0 =
  rmap (fun r => let: (Y, W, J, m) := r in (rotate ph Y, rotate_filter dS D W, rotate_filter dB dS J, m))
       (forward nT dl model X eps n_iter use_dmc pb m0).
Proof. exact (fun hD hM => forward_rot nT dl hD hM X eps n_iter use_dmc pb m0). Qed.
Print Assumptions c65_tiss.

Theorem c65_ip (St : Type) (model : St -> sig C nF nN nS -> sig C nF nN nS * St)
    (D : 'I_nF -> 'I_(nS + nB) -> C) (X : sig C nF nN (nS + nB)) eps n_iter (pb : option 'I_(nS + nB)) m0 :
  phases D -> magnitude_model model ->
  let ph := fun f s => if pb is Some ref then D f ref else D f (lshift nB s) in
  ip_forward model (rotate D X) eps n_iter pb m0 =
  rmap (fun r => (rotate ph r.1, r.2)) (ip_forward model X eps n_iter pb m0).
Proof. exact (fun hD hM => ip_forward_rot hD X eps hM n_iter pb m0). Qed.
Print Assumptions c65_ip.

(* AuxIVA_IP2: the same where the determinant of the demixing matrix W is not below the
   threshold 1e-6 of inv_2x2; below it, the output turns by a further angle *)
Theorem c65_ip2 (St : Type) (model : St -> sig C nF nN 2 -> sig C nF nN 2 * St) (X : sig C nF nN 2) eps n m0 :
  magnitude_model model ->
  exists W : filt C nF 2 2,
  (forall f, (ip2_forward model X eps n.+1 None m0).1 f = W f *m X f) /\
  forall D, phases D ->
  let lost f := if 10%:R ^- 6 <= `|\det (W f)| then 1 else D f i1 * (D f i0)^* in
  ip2_forward model (rotate D X) eps n.+1 None m0 =
    (rotate (fun f _ => D f i1) (ip2_forward model X eps n.+1 None m0).1, (ip2_forward model X eps n.+1 None m0).2) /\
  forall r, ip2_forward model (rotate D X) eps n.+1 (Some r) m0 =
    (rotate (fun f _ => D f r * lost f) (ip2_forward model X eps n.+1 (Some r) m0).1, (ip2_forward model X eps n.+1 (Some r) m0).2).
Proof. exact: ip2_phase_ok. Qed.
Print Assumptions c65_ip2.
End Props.

(* WPE keeps the phases of all channels, with the default weights or a magnitude model *)
Theorem c65_wpe (C : numClosedFieldType) nC nF nT dl nN (St : Type)
    (model : option (St -> sig C nF nN nC -> ('I_nF -> 'rV[C]_nN) * St)) D (X : sig C nF nN nC) eps n m0 :
  phases D -> (forall mo, model = Some mo -> magnitude_model mo) ->
  wpe_forward nT dl model (rotate D X) eps n m0 =
  rmap (fun r => (rotate D r.1, r.2)) (wpe_forward nT dl model X eps n m0).
Proof. exact (fun hD hM => wpe_forward_rot nT dl hD hM X eps n m0). Qed.
Print Assumptions c65_wpe.

Section Beam.
Variable C : numClosedFieldType.
Variables (eighO : forall n, eigh_oracle C n) (k nS nF nN : nat).
Variables (D : 'I_nF -> 'I_k.+1 -> C) (model : mask_model C nS nF nN) (X : sig C nF nN k.+1) (ref : 'I_k.+1).
Let turn : sig C nF nN nS -> sig C nF nN nS := rotate (fun f _ => D f ref).
Theorem c65_mwf eps ti : phases D -> magnitude_mask model ->
  mwf_forward (rotate D X) model ref eps ti = rmap turn (mwf_forward X model ref eps ti).
Proof. exact (fun hD hM => mwf_fwd_rot hD hM X ref eps ti). Qed.
Print Assumptions c65_mwf.
(* MVDR with power iterations, both variants, two or three masks *)
Theorem c65_mvdr eps ty p : phases D -> magnitude_mask model ->
  mvdr_forward eighO (rotate D X) model ref eps ty (Some p) = rmap turn (mvdr_forward eighO X model ref eps ty (Some p)).
Proof. exact (fun hD hM => mvdr_rot eighO hD hM X ref eps ty p). Qed.
Print Assumptions c65_mvdr.
(* the variant with covariance matrices does not look at the number of power iterations,
   except with three masks *)
Theorem c65_mvdr_scm eps pw : phases D -> magnitude_mask model ->
  mvdr_forward eighO (rotate D X) model ref eps Scm pw = rmap turn (mvdr_forward eighO X model ref eps Scm pw) \/
  exists a b c, model (ref_channel X ref) = [:: a; b; c].
Proof. exact (fun hD hM => mvdr_scm_rot eighO hD hM X ref eps pw). Qed.
Print Assumptions c65_mvdr_scm.
End Beam.

(* the models of torchiva/models/classic.py only look at magnitudes *)
Theorem c65_classic (C : numClosedFieldType) nF nN c eps :
  magnitude_model (@per_source C nF nN c (laplace eps)) /\ magnitude_model (@per_source C nF nN c (gauss eps)).
Proof. exact (conj (per_source_mag (laplace_mag eps)) (per_source_mag (gauss_mag eps))). Qed.
Print Assumptions c65_classic.
Theorem c65_nmf (C : numClosedFieldType) nF nN K c eps Rng draw :
  magnitude_model (all_sources (@nmf_forward C nF nN K eps c Rng draw)).
Proof. exact (nmf_mag eps draw). Qed.
Print Assumptions c65_nmf.

(* reversing the polarity of a microphone other than the reference does not change the
   output of T_ISS with the Laplace model; reversing the reference changes its sign *)
Example c65_polarity (C : numClosedFieldType) nS nB nF nT dl nN (X : sig C nF nN (nS + nB)) eps n use_dmc ref k Y W J :
  forward nT dl (per_source (laplace eps)) X eps n.+1 use_dmc (Some ref) tt = Ok (Y, W, J, tt) ->
  exists W' J', forward nT dl (per_source (laplace eps)) (rotate (flip C k) X) eps n.+1 use_dmc (Some ref) tt =
    Ok (if ref == k then [ffun f => - Y f] else Y, W', J', tt).
Proof.
move=> h; rewrite (c65_tiss _ _ _ _ _ _ _ _ (@flip_phases C nF _ k) (@c65_classic C nF nN nS eps).1) h /=.
eexists; eexists; congr (Ok (_, _, _, _)); apply/ffunP => f; rewrite ffunE; apply/matrixP=> s t; rewrite mxE /flip.
by case: ifP => _; rewrite ?mul1r // ffunE mulN1r mxE.
Qed.
(* a microphone read with opposite polarity *)
Example c65_flip (C : numClosedFieldType) :
  let X : sig C 1 1 2 := [ffun=> \matrix_(c, n) (c.+1)%:R] in
  rotate (flip C ord0) X ord0 = \matrix_(c, n) (if c == ord0 then -1 else 2%:R).
Proof.
apply/matrixP=> c n; rewrite ffunE !mxE ffunE mxE /flip; case: ifP => [/eqP ->|]; first by rewrite mulr1.
by case: c => [[|[|//]] ?] // _; rewrite mul1r.
Qed.
