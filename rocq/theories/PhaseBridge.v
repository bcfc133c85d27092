From mathcomp Require Import all_ssreflect all_algebra.
From Coq Require Import FunctionalExtensionality.
From Verif Require Import CAlg Py Batch LinalgModel LinalgProofs LinalgBridge TissModel IvaModel WpeModel BeamModel SrcModel PhaseSpec PhaseProofs PhaseTiss PhaseIp PhaseIp2 PhaseWpe PhaseBeam.
Set Implicit Arguments. Unset Strict Implicit. Unset Printing Implicit Defensive.
Import GRing.Theory Num.Theory Order.TTheory.
Local Open Scope ring_scope.
Local Open Scope py_scope.

Section B.
Variable C : numClosedFieldType.
Variables (nF nN : nat).
Lemma per_source_mag c (g : 'M[C]_(nF, nN) -> 'M[C]_(nF, nN)) : magnitude_mask g -> magnitude_model (@per_source C nF nN c g).
Proof.
move=> hg m Y Y' h; rewrite /per_source; congr (_, _); apply/ffunP => f; rewrite !ffunE; apply/matrixP=> s n.
by rewrite !mxE; congr (fun_of_matrix _ _ _); apply: hg => f' n'; rewrite !mxE h.
Qed.
Lemma laplace_mag eps : magnitude_mask (@laplace C nF nN eps).
Proof.
move=> R R' h; apply/matrixP=> f n; rewrite !mxE; congr (1 / clamp (_ * sqrtC _) _).
by apply: eq_bigr => g _; exact: mag_sq_norm.
Qed.
Lemma gauss_mag eps : magnitude_mask (@gauss C nF nN eps).
Proof.
move=> R R' h; apply/matrixP=> f n; rewrite !mxE; congr (1 / clamp (_ / _) _).
by apply: eq_bigr => g _; exact: mag_sq_norm.
Qed.
Lemma nmf_update_mag K eps (R R' : 'M[C]_(nF, nN)) (tv : factors C nF nN K) :
  (forall f n, `|R f n| = `|R' f n|) -> nmf_update eps R tv = nmf_update eps R' tv.
Proof.
move=> h; rewrite /nmf_update.
suff -> : \matrix_(f, n) mag_sq (R f n) = \matrix_(f, n) mag_sq (R' f n) :> 'M[C]_(nF, nN) by [].
by apply/matrixP=> f n; rewrite !mxE; exact: mag_sq_norm.
Qed.
Lemma nmf_mag K eps c Rng draw : magnitude_model (all_sources (@nmf_forward C nF nN K eps c Rng draw)).
Proof.
move=> m Y Y' h; rewrite /all_sources.
suff -> : nmf_forward eps draw m (fun s => \matrix_(f, n) Y f s n) = nmf_forward eps draw m (fun s => \matrix_(f, n) Y' f s n) by [].
rewrite /nmf_forward; case: (match m with (Some tv, r) => _ | (None, r) => _ end) => tv r.
have e : (fun b => nmf_update eps (\matrix_(f, n) Y f b n) (tv b)) = (fun b => nmf_update eps (\matrix_(f, n) Y' f b n) (tv b)).
  by apply: functional_extensionality => b; apply: nmf_update_mag => f n; rewrite !mxE h.
by rewrite (f_equal (fun g => ((fun b => (g b).2), (Some (fun b => (g b).1), r))) e).
Qed.
Lemma flip_phases c (k : 'I_c) : phases (@flip C nF c k).
Proof. by move=> f i; rewrite /flip; case: ifP => _; rewrite ?normrN normr1. Qed.

Lemma ip2_phase_ok (St : Type) (model : St -> sig C nF nN 2 -> sig C nF nN 2 * St) (X : sig C nF nN 2) eps n m0 :
  magnitude_model model ->
  exists W : filt C nF 2 2,
  (forall f, (ip2_forward model X eps n.+1 None m0).1 f = W f *m X f) /\
  forall D, phases D ->
  let lost f := if 10%:R ^- 6 <= `|\det (W f)| then 1 else D f i1 * (D f i0)^* in
  ip2_forward model (rotate D X) eps n.+1 None m0 =
    (rotate (fun f _ => D f i1) (ip2_forward model X eps n.+1 None m0).1, (ip2_forward model X eps n.+1 None m0).2) /\
  forall r, ip2_forward model (rotate D X) eps n.+1 (Some r) m0 =
    (rotate (fun f _ => D f r * lost f) (ip2_forward model X eps n.+1 (Some r) m0).1, (ip2_forward model X eps n.+1 (Some r) m0).2).
Proof.
move=> hM; exists (ip2_loop model X eps n.+1 m0).1.1.2; split=> [f|D hD lost0].
  by rewrite ip2_none; exact: ip2_loop_W.
split=> [|r]; rewrite (ip2_forward_rot hD hM); first by [].
congr (_, _); apply/ffunP => f; rewrite !ffunE; apply/matrixP=> s k; rewrite !mxE.
by rewrite /ip2_phase /lost /lost0 detE.
Qed.
End B.
