(* Proofs about the beamformer formulas. *)
From Coq Require Import Ring Field.
From mathcomp Require Import all_ssreflect all_algebra.
From Verif Require Import CAlg Py Batch LinalgModel LinalgSpec LinalgProofs LinalgBridge.
From Verif Require Import TissModel BeamModel BeamSpec.
Set Implicit Arguments. Unset Strict Implicit. Unset Printing Implicit Defensive.
Import GRing.Theory Num.Theory Order.TTheory.
Local Open Scope ring_scope.
Local Open Scope py_scope.

Section Beam.
Variable C : numClosedFieldType.
Add Field beamC : (f_ft C).
Ltac cring := fpre; fnorm C; fatoms; ring.
Ltac cfield := fpre; fnorm C; fatoms; field.

Lemma responseE n (w d : 'cV[C]_n) : response w d = (ctr w *m d) 0 0.
Proof. by rewrite mxE; apply: eq_bigr => c _; rewrite ctrE. Qed.
Lemma response_conj n (w d : 'cV[C]_n) : (response w d)^* = response d w.
Proof. by rewrite rmorph_sum; apply: eq_bigr => c _; rewrite rmorphM conjCK mulrC. Qed.
Lemma out_powerE n (R : 'M[C]_n) w : out_power R w = qf R w.
Proof.
rewrite /qf -mulmxA mxE; apply: eq_bigr => c _; rewrite ctrE mxE mulr_sumr.
by apply: eq_bigr => d _; rewrite mulrA.
Qed.
Lemma responseZ n a (w d : 'cV[C]_n) : response (a *: w) d = a^* * response w d.
Proof. by rewrite !responseE ctrZ -scalemxAl mxE. Qed.
Lemma responseZr n a (w d : 'cV[C]_n) : response w (a *: d) = a * response w d.
Proof. by rewrite !responseE -scalemxAr mxE. Qed.
Lemma responseB n (u w d : 'cV[C]_n) : response (u - w) d = response u d - response w d.
Proof. by rewrite !responseE ctrB mulmxBl mxBE. Qed.

(* P pd, P a = d, d <> 0: a / (d^H a) is the unique distortionless minimiser *)
Section Mvdr.
Variables (n : nat) (P : 'M[C]_n) (d a : 'cV[C]_n).
Hypotheses (hP : pd P) (ha : P *m a = d).
Lemma resp_qf : response d a = qf P a.
Proof. by rewrite responseE -ha ctrM; case: hP => -> _. Qed.
Lemma resp_ge0 : 0 <= response d a.
Proof. by rewrite resp_qf; case: (pd_psd hP). Qed.
Lemma resp_gt0 : d != 0 -> 0 < response d a.
Proof.
move=> d0; rewrite resp_qf; case: hP => _; apply; apply: contraNneq d0 => a0.
by rewrite -ha a0 mulmx0.
Qed.
Let q := response d a.
Lemma mvdr_distortionless : q != 0 -> response (q^-1 *: a) d = 1.
Proof.
move=> q0; rewrite responseZ -response_conj -rmorphM -/q mulVf ?rmorph1 //.
Qed.
Lemma mvdr_optimal u : q != 0 -> response u d = 1 -> u != q^-1 *: a -> qf P (q^-1 *: a) < qf P u.
Proof.
move=> q0 hu ne; set w := q^-1 *: a.
have Pw : P *m w = q^-1 *: d by rewrite -scalemxAr ha.
have z : sq P (u - w) w = 0.
  by rewrite /sq -mulmxA Pw -scalemxAr mxZE -responseE responseB hu mvdr_distortionless // subrr mulr0.
have z' : sq P w (u - w) = 0.
  by case: (hP) => hh _; rewrite -(sq_conj _ _ hh) z rmorph0.
have -> : u = w + (u - w) by rewrite addrCA subrr addr0.
rewrite qf_add z' z !addr0 ltr_addl; case: hP => _; apply; by rewrite subr_eq0.
Qed.
End Mvdr.

(* ---- MMSE *)
Lemma mmse_expand n (Rt Rn : 'M[C]_n) ref load (w : 'cV[C]_n) : herm Rt ->
  mmse_objective Rt Rn ref load w
  = qf (Rt + Rn + load%:M) w - (ctr w *m col ref Rt) 0 0 - (ctr (col ref Rt) *m w) 0 0 + Rt ref ref.
Proof.
move=> h; rewrite /mmse_objective !out_powerE qf_sub !qfD qf_scalar /nrm2.
have -> : sq Rt w (delta_mx ref 0) = (ctr w *m col ref Rt) 0 0 by rewrite /sq -mulmxA -colE.
have -> : sq Rt (delta_mx ref 0) w = (ctr (col ref Rt) *m w) 0 0.
  by rewrite /sq colE ctrM h.
have -> : qf Rt (delta_mx ref 0) = Rt ref ref.
  rewrite /qf -mulmxA -colE mxE (bigD1 ref) //= big1 => [|i ne].
    by rewrite ctrE !mxE !eqxx rmorph1 mul1r addr0.
  by rewrite ctrE !mxE (negbTE ne) rmorph0 mul0r.
cring.
Qed.
Lemma mmse_min n (Rt Rn : 'M[C]_n) ref load (x w : 'cV[C]_n) :
  psd Rt -> psd Rn -> 0 < load -> (Rt + Rn + load%:M) *m x = col ref Rt -> w != x ->
  mmse_objective Rt Rn ref load x < mmse_objective Rt Rn ref load w.
Proof.
move=> ht hn l0 e ne; have hP := pd_load (psdD ht hn) l0.
case: (ht) => h1 _; rewrite !mmse_expand // (complete_square w (proj1 hP) e).
rewrite ltr_add2r ltr_addl; case: hP => _; apply; by rewrite subr_eq0.
Qed.

(* ---- covariance of a masked signal *)
Lemma cov_psd k nN (m : 'rV[C]_nN) (X : 'M[C]_(k.+1, nN)) : (forall n, 0 <= m 0 n) -> psd (cov m X).
Proof.
move=> m0; have -> : cov m X = \sum_n m 0 n *: (col n X *m ctr (col n X)).
  apply/matrixP=> c d; rewrite summxE mxE; apply: eq_bigr => n _.
  by rewrite mxZE [(_ *m _) c d]mxE big_ord1 ctrE !mxE mulrA.
by apply: psd_sum => n _; apply: psdZ => //; exact: psd_outer.
Qed.
End Beam.
