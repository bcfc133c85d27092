(* Properties C29-C33 (torchiva/beamformer.py). *)
From Coq Require Import Ring Field.
From mathcomp Require Import all_ssreflect all_algebra.
From Verif Require Import CAlg Py Batch LinalgModel LinalgSpec LinalgProofs LinalgBridge.
From Verif Require Import TissModel BeamModel BeamSpec BeamProofs BeamBridge BeamForward.
Set Implicit Arguments. Unset Strict Implicit. Unset Printing Implicit Defensive.
Import GRing.Theory Num.Theory Order.TTheory.
Local Open Scope ring_scope.

(* ------------------------------------------------------------------- C29 *)
(* compute_mvdr_bf: never raises for a positive semidefinite noise covariance;
   distortionless and strictly optimal unless the denominator is clamped. *)
Theorem c29_mvdr (C : numClosedFieldType) k (Rn : 'M[C]_k.+1) (d : 'cV[C]_k.+1) (eps : C) :
  psd Rn -> 0 < eps ->
  exists l w a, [/\ compute_mvdr_bf Rn d eps = Ok w, is_load Rn eps l, (Rn + l%:M) *m a = d,
   (eps <= response d a -> response w d = 1 /\
      forall u, response u d = 1 -> u != w -> out_power (Rn + l%:M) w < out_power (Rn + l%:M) u) &
   (response d a < eps -> response w d = response d a / eps /\ 0 <= response w d < 1)].
Proof. exact: c29_lemma. Qed.
Print Assumptions c29_mvdr.

(* MVDR.forward with two non-negative masks and mvdr_type "rtf" *)
Theorem c29_forward_two_masks (C : numClosedFieldType) (eighO : forall n, eigh_oracle C n)
    k nS nF nN (X : sig C nF nN k.+1) (model : mask_model C nS nF nN) (ref : 'I_k.+1) mt mn eps p :
  model (ref_channel X ref) = [:: mt; mn] -> nonneg mn -> 0 < eps ->
  exists (w d : 'I_nS -> 'I_nF -> 'cV[C]_k.+1) Y, [/\ mvdr_forward eighO X model ref eps Rtf p = Ok Y,
    (forall f s n, Y f s n = response (w s f) (col n (X f))),
    (forall s f, compute_mvdr_rtf_eigh eighO (weighted_cov (fun n => mt s f 0 n) (X f))
       (weighted_cov (fun n => mn s f 0 n) (X f)) ref p = Ok (d s f)) &
    forall s f, mvdr_of (weighted_cov (fun n => mn s f 0 n) (X f)) (d s f) eps (w s f)].
Proof. exact: mvdr_rtf. Qed.
Print Assumptions c29_forward_two_masks.

(* with three masks the filter minimises the power under the second mask and the
   steering vector is estimated with the third; mvdr_type is then ignored *)
Theorem c29_forward_three_masks (C : numClosedFieldType) (eighO : forall n, eigh_oracle C n)
    k nS nF nN (X : sig C nF nN k.+1) (model : mask_model C nS nF nN) (ref : 'I_k.+1) mt mn mn2 eps ty p :
  model (ref_channel X ref) = [:: mt; mn; mn2] -> nonneg mn -> nonneg mn2 -> 0 < eps ->
  exists (w d : 'I_nS -> 'I_nF -> 'cV[C]_k.+1) Y, [/\ mvdr_forward eighO X model ref eps ty p = Ok Y,
    (forall f s n, Y f s n = response (w s f) (col n (X f))),
    (forall s f, compute_mvdr_rtf_eigh eighO (weighted_cov (fun n => mt s f 0 n) (X f))
       (weighted_cov (fun n => mn2 s f 0 n) (X f)) ref p = Ok (d s f)) &
    forall s f, mvdr_of (weighted_cov (fun n => mn s f 0 n) (X f)) (d s f) eps (w s f)].
Proof. exact: mvdr_3masks. Qed.
Print Assumptions c29_forward_three_masks.

(* any other number of masks raises *)
Theorem c29_forward_mask_count (C : numClosedFieldType) (eighO : forall n, eigh_oracle C n)
    k nS nF nN (X : sig C nF nN k.+1) (model : mask_model C nS nF nN) (ref : 'I_k.+1) eps ty p :
  (size (model (ref_channel X ref)) < 2)%N \/ (3 < size (model (ref_channel X ref)))%N ->
  mvdr_forward eighO X model ref eps ty p = Err UnboundLocalError.
Proof. exact: mvdr_unbound. Qed.
Print Assumptions c29_forward_mask_count.

(* identity noise covariance, eps = 1: the denominator is not clamped *)
Example c29_example (C : numClosedFieldType) :
  psd (1%:M : 'M[C]_2) /\
  let d := const_mx 1 : 'cV[C]_2 in exists a, (1%:M + (1 : C)%:M) *m a = d /\ 1 <= response d a.
Proof.
split.
  by split=> [|v]; [exact: ctr1|rewrite /qf mulmx1 -nrm2_ctr nrm2_ge0].
have two : 2%:R != 0 :> C by rewrite pnatr_eq0.
exists (2%:R^-1 *: const_mx 1); split.
  rewrite -scalemxAr mulmxDl !mul1mx.
  by apply/matrixP=> i j; rewrite !mxE -mulr2n -mulr_natl mulr1 mulVf.
rewrite /response big_ord_recr big_ord1 !mxE /= rmorph1 !mulr1 mul1r -mulr2n -mulr_natl mulfV //.
Qed.

(* ------------------------------------------------------------------- C30 *)
(* generalized eigenvalue method: principal generalized eigenvector, mapped by
   the noise covariance and normalised to 1 at the reference microphone *)
Theorem c30_rtf_gevd (C : numClosedFieldType) (eighO : forall n, eigh_oracle C n) k
    (Rt Rn : 'M[C]_k.+1) (ref : 'I_k.+1) :
  k != 1%N -> eigensolver (eighO k.+1) -> herm Rt -> herm Rn -> well_conditioned Rn ->
  exists v l, [/\ eigenpair Rt Rn l v, v != 0, (forall w, out_power Rt w <= l * out_power Rn w) &
   ((Rn *m v) ref 0 != 0 -> exists d, [/\ compute_mvdr_rtf_eigh eighO Rt Rn ref None = Ok d,
      d ref 0 = 1 & exists c : C, d = c *: (Rn *m v)])].
Proof. exact: c30_gevd. Qed.
Print Assumptions c30_rtf_gevd.

(* exact recovery for a rank-1 target covariance *)
Theorem c30_rtf_rank1 (C : numClosedFieldType) (eighO : forall n, eigh_oracle C n) k (s : C)
    (d : 'cV[C]_k.+1) (Rn : 'M[C]_k.+1) (ref : 'I_k.+1) :
  k != 1%N -> eigensolver (eighO k.+1) -> herm Rn -> well_conditioned Rn -> 0 < s -> d ref 0 != 0 ->
  compute_mvdr_rtf_eigh eighO (s *: (d *m ctr d)) Rn ref None = Ok ((d ref 0)^-1 *: d).
Proof. exact: c30_rank1. Qed.
Print Assumptions c30_rtf_rank1.

(* power iteration: the diagonal load biases the answer. The estimate is the
   normalised Rn (Rn + l)^-1 d, whatever the (non-negative) number of iterations. *)
Theorem c30_rtf_power (C : numClosedFieldType) (eighO : forall n, eigh_oracle C n) k (s : C)
    (d : 'cV[C]_k.+1) (Rn : 'M[C]_k.+1) (ref : 'I_k.+1) p :
  psd Rn -> 0 < s -> d 0 0 != 0 ->
  exists l, is_load Rn (10%:R ^- 5) l /\ forall x, (Rn + l%:M) *m x = d ->
   compute_mvdr_rtf_eigh eighO (s *: (d *m ctr d)) Rn ref (Some p)
   = Ok (((Rn *m x) ref 0)^-1 *: (Rn *m x)).
Proof. exact: c30_power. Qed.
Print Assumptions c30_rtf_power.

Example c30_example (C : numClosedFieldType) :
  [/\ herm (1%:M : 'M[C]_3), well_conditioned (1%:M : 'M[C]_3) & (const_mx 'i : 'cV[C]_3) 0 0 != 0].
Proof.
split; [exact: ctr1| |by rewrite mxE neq0Ci].
move=> v; rewrite mulmx1 -nrm2_ctr ler_pimull ?nrm2_ge0 //.
by rewrite invf_le1 ?exprn_gt0 ?ltr0n // -natrX ler1n.
Qed.

(* ------------------------------------------------------------------- C31 *)
Theorem c31_mvdr_scm (C : numClosedFieldType) k (Rn : 'M[C]_k.+1) (d : 'cV[C]_k.+1) (s eps : C)
    (ref : 'I_k.+1) : pd Rn -> s != 0 -> d ref 0 != 0 ->
  exists w, compute_mvdr_bf2 (s *: (d *m ctr d)) Rn ref eps = Ok w /\
   response w ((d ref 0)^-1 *: d) = 1 /\
   forall u, response u ((d ref 0)^-1 *: d) = 1 -> u != w -> out_power Rn w < out_power Rn u.
Proof. exact: c31_lemma. Qed.
Print Assumptions c31_mvdr_scm.

(* no diagonal loading here: every singular noise covariance raises ... *)
Theorem c31_singular_raises (C : numClosedFieldType) k (Rt Rn : 'M[C]_k.+1) ref eps :
  Rn \notin unitmx -> compute_mvdr_bf2 Rt Rn ref eps = Err LinAlgError.
Proof. exact: c31_singular. Qed.
Print Assumptions c31_singular_raises.

(* ... so that a single silent frequency makes MVDR.forward fail as a whole *)
Theorem c31_silent_bin_raises (C : numClosedFieldType) (eighO : forall n, eigh_oracle C n)
    k nS nF nN (X : sig C nF nN k.+1) (model : mask_model C nS nF nN) (ref : 'I_k.+1) mt mn eps p
    (s : 'I_nS) (f : 'I_nF) :
  model (ref_channel X ref) = [:: mt; mn] -> X f = 0 ->
  mvdr_forward eighO X model ref eps Scm p = Err LinAlgError.
Proof. exact: mvdr_scm_silent. Qed.
Print Assumptions c31_silent_bin_raises.

Example c31_example (C : numClosedFieldType) :
  [/\ pd (1%:M : 'M[C]_2), (const_mx 'i : 'cV[C]_2) 0 0 != 0 & (0 : 'M[C]_2) \notin unitmx].
Proof.
split; [split; first exact: ctr1| by rewrite mxE neq0Ci|by rewrite unitmxE det0 unitr0].
by move=> v v0; rewrite qf1 nrm2_gt0.
Qed.

(* ------------------------------------------------------------------- C32 *)
Theorem c32_mwf_all (C : numClosedFieldType) k (Rt Rn : 'M[C]_k.+1) (eps : C) :
  psd Rt -> psd Rn -> 0 < eps ->
  exists l W, [/\ compute_mwf_all Rt Rn eps = Ok W, is_load (Rt + Rn) eps l &
   forall ref u, u != col ref W -> mmse_objective Rt Rn ref l (col ref W) < mmse_objective Rt Rn ref l u].
Proof. exact: c32_all. Qed.
Print Assumptions c32_mwf_all.

(* with a reference microphone the load is 1e-6 whatever eps is *)
Theorem c32_mwf_ref (C : numClosedFieldType) k (Rt Rn : 'M[C]_k.+1) (eps : C) ref :
  psd Rt -> psd Rn ->
  exists l w, [/\ compute_mwf_ref Rt Rn eps ref = Ok w, is_load (Rt + Rn) (10%:R ^- 6) l &
   forall u, u != w -> mmse_objective Rt Rn ref l w < mmse_objective Rt Rn ref l u].
Proof. exact: c32_ref. Qed.
Print Assumptions c32_mwf_ref.

Theorem c32_forward (C : numClosedFieldType) k nS nF nN (X : sig C nF nN k.+1)
    (model : mask_model C nS nF nN) (ref : 'I_k.+1) mt mn rest eps :
  model (ref_channel X ref) = [:: mt, mn & rest] -> nonneg mt -> nonneg mn ->
  exists (w : 'I_nS -> 'I_nF -> 'cV[C]_k.+1) Y, [/\ mwf_forward X model ref eps true = Ok Y,
    (forall f s n, Y f s n = response (w s f) (col n (X f))) &
    forall s f, let Rt := weighted_cov (fun n => mt s f 0 n) (X f) in
      let Rn := weighted_cov (fun n => mn s f 0 n) (X f) in
      exists l, is_load (Rt + Rn) (10%:R ^- 6) l /\
      forall u, u != w s f -> mmse_objective Rt Rn ref l (w s f) < mmse_objective Rt Rn ref l u].
Proof. exact: mwf_ti. Qed.
Print Assumptions c32_forward.

Theorem c32_forward_time_varying (C : numClosedFieldType) k nS nF nN (X : sig C nF nN k.+1)
    (model : mask_model C nS nF nN) (ref : 'I_k.+1) mt mn vt vn eps :
  model (ref_channel X ref) = [:: mt; mn; vt; vn] -> nonneg mt -> nonneg mn -> nonneg vt -> nonneg vn ->
  exists (w : 'I_nS -> 'I_nF -> 'I_nN -> 'cV[C]_k.+1) Y, [/\ mwf_forward X model ref eps false = Ok Y,
    (forall f s n, Y f s n = response (w s f n) (col n (X f))) &
    forall s f n, exists l,
      let Rt := vt s f 0 n *: weighted_cov (fun n => mt s f 0 n) (X f) in
      let Rn := vn s f 0 n *: weighted_cov (fun n => mn s f 0 n) (X f) in
      is_load (Rt + Rn) (10%:R ^- 6) l /\
      forall u, u != w s f n -> mmse_objective Rt Rn ref l (w s f n) < mmse_objective Rt Rn ref l u].
Proof. exact: mwf_tv. Qed.
Print Assumptions c32_forward_time_varying.

Theorem c32_eps_ignored (C : numClosedFieldType) k nS nF nN (X : sig C nF nN k.+1)
    (model : mask_model C nS nF nN) (ref : 'I_k.+1) eps eps' ti :
  mwf_forward X model ref eps ti = mwf_forward X model ref eps' ti.
Proof. exact: mwf_eps_ignored. Qed.
Print Assumptions c32_eps_ignored.

Theorem c32_few_masks (C : numClosedFieldType) k nS nF nN (X : sig C nF nN k.+1)
    (model : mask_model C nS nF nN) (ref : 'I_k.+1) eps ti :
  (size (model (ref_channel X ref)) < 2)%N -> mwf_forward X model ref eps ti = Err IndexError.
Proof. exact: mwf_few_masks. Qed.
Print Assumptions c32_few_masks.

(* all-ones masks, rank-deficient covariances *)
Example c32_example (C : numClosedFieldType) :
  nonneg (fun (_ : 'I_2) (_ : 'I_3) => const_mx 1 : 'rV[C]_4) /\
  weighted_cov (fun=> 1) (const_mx 1 : 'M[C]_(2, 1)) = const_mx 1.
Proof.
split=> [s f j|]; first by rewrite mxE ler01.
by apply/matrixP=> i j; rewrite !mxE big_ord1 !mxE rmorph1 !mulr1.
Qed.

(* ------------------------------------------------------------------- C33 *)
(* r is the row vector applied to the signal *)
Theorem c33_gev (C : numClosedFieldType) (eighO : forall n, eigh_oracle C n) k
    (Rt Rn : 'M[C]_k.+1) (ref : 'I_k.+1) :
  k != 1%N -> eigensolver (eighO k.+1) -> herm Rt -> herm Rn -> well_conditioned Rn ->
  exists (r : 'rV[C]_k.+1) (v a : 'cV[C]_k.+1) (l : C), [/\ compute_gev_bf eighO Rt Rn ref = Ok r,
    r = a ref 0 *: ctr v /\ (r *m a) 0 0 = a ref 0,
    response v a = 1 /\ (exists c : C, Rn *m v = c *: a),
    eigenpair Rt Rn l v &
    forall w, out_power Rt w <= l * out_power Rn w].
Proof. exact: c33_lemma. Qed.
Print Assumptions c33_gev.

Theorem c33_forward (C : numClosedFieldType) (eighO : forall n, eigh_oracle C n)
    k nS nF nN (X : sig C nF nN k.+1) (model : mask_model C nS nF nN) (ref : 'I_k.+1) mt mn rest :
  model (ref_channel X ref) = [:: mt, mn & rest] ->
  k != 1%N -> eigensolver (eighO k.+1) -> (forall s f n, mt s f 0 n \is Num.real) ->
  (forall s f n, mn s f 0 n \is Num.real) ->
  (forall s f, well_conditioned (weighted_cov (fun n => mn s f 0 n) (X f))) ->
  exists (r : 'I_nS -> 'I_nF -> 'rV[C]_k.+1) (v a : 'I_nS -> 'I_nF -> 'cV[C]_k.+1) (l : 'I_nS -> 'I_nF -> C) Y,
   [/\ gev_forward eighO X model ref = Ok Y,
    (forall f s n, Y f s n = (r s f *m X f) 0 n),
    (forall s f, r s f = a s f ref 0 *: ctr (v s f) /\ response (v s f) (a s f) = 1),
    (forall s f, exists c : C, weighted_cov (fun n => mn s f 0 n) (X f) *m v s f = c *: a s f) &
    (forall s f, let Rt := weighted_cov (fun n => mt s f 0 n) (X f) in
       let Rn := weighted_cov (fun n => mn s f 0 n) (X f) in
       eigenpair Rt Rn (l s f) (v s f) /\ forall w, out_power Rt w <= l s f * out_power Rn w)].
Proof. exact: gev_fwd. Qed.
Print Assumptions c33_forward.

(* with two channels the closed-form eigenvectors are used and the claim is
   false: for channels that are uncorrelated in both covariances an eigenvector
   comes out as zero and the filter computation raises *)
Theorem c33_two_channels_refuted (C : numClosedFieldType) (eighO : forall n, eigh_oracle C n)
    (A B : 'M[C]_2) ref :
  herm A -> pd B -> A 0 1 = 0 -> B 0 1 = 0 ->
  10%:R ^- 15 <= \det B -> 10%:R ^- 15 <= pencil_disc A B ->
  compute_gev_bf eighO A B ref = Err LinAlgError.
Proof. exact: c33_two. Qed.
Print Assumptions c33_two_channels_refuted.

Example c33_example (C : numClosedFieldType) :
  let A := mx22 2%:R 0 0 1 : 'M[C]_2 in let B := 1%:M : 'M[C]_2 in
  [/\ herm A, pd B, A 0 1 = 0, (10%:R ^- 15 : C) <= \det B & (10%:R ^- 15 : C) <= pencil_disc A B].
Proof.
have e : (10%:R ^- 15 : C) <= 1 by rewrite invf_le1 ?exprn_gt0 ?ltr0n // -natrX ler1n.
split=> //=; [|split| | |].
- by apply/matrixP; apply: ord2P; apply: ord2P; rewrite ctrE !mxE /= ?rmorph0 ?rmorph1 ?rmorph_nat.
- exact: ctr1.
- by move=> v v0; rewrite qf1 nrm2_gt0.
- by rewrite -i0E -i1E !mxE.
- by rewrite det1.
- rewrite c12_disc /edelta !mxE /= mul0r mulr0 addr0.
  by rewrite (_ : 2%:R - 1 = 1 :> C) ?expr1n // mulr2n addrK.
Qed.
