From Coq Require Import Ring Field.
From mathcomp Require Import all_ssreflect all_algebra.
From Verif Require Import CAlg Py Batch LinalgModel LinalgSpec LinalgProofs LinalgBridge TissModel FiveModel FiveSpec.
Set Implicit Arguments. Unset Strict Implicit. Unset Printing Implicit Defensive.
Import GRing.Theory Num.Theory Order.TTheory.
Local Open Scope ring_scope.

Section P.
Variable C : numClosedFieldType.
Add Field fiveF : (f_ft C).
Ltac cring := fpre; fnorm C; fatoms; ring.
Variable eighO : forall n, eigh_oracle C n.
Arguments eighO : clear implicits.
Variables (k nN : nat).
Local Notation nC := k.+1.
Implicit Types X : 'M[C]_(nC, nN).

Lemma cov_gram m (X : 'M[C]_(m, nN)) : sample_cov X = nN%:R^-1 *: (X *m ctr X).
Proof.
apply/matrixP=> c d; rewrite mxZE mxE [(_ *m _) c d]mxE mulrC; congr (_ * _).
by apply: eq_bigr => n _; rewrite ctrE.
Qed.
Lemma inr_real : (nN%:R^-1 : C) \is Num.real.
Proof. by rewrite rpredV realn. Qed.
Lemma cov_herm m (X : 'M[C]_(m, nN)) : herm (sample_cov X).
Proof. by rewrite /herm cov_gram ctrZ ctrM ctrK conj_Creal ?inr_real. Qed.
Lemma half_herm m (A : 'M[C]_m) : herm A -> (1 / 2%:R) *: (A + hermite A) = A.
Proof.
move=> hA; rewrite hermiteE hA; apply/matrixP=> i j; rewrite mxZE mxDE.
by rewrite -mulr2n -(mulr_natl (A i j)) mulrA divfK ?mul1r // pnatr_eq0.
Qed.
Lemma CxE X : five_Cx X = sample_cov X.
Proof. exact: half_herm (cov_herm X). Qed.
Lemma qf_cov m (X : 'M[C]_(m, nN)) v : qf (sample_cov X) v = \sum_n `|\sum_c (v c 0)^* * X c n| ^+ 2 / nN%:R.
Proof.
rewrite cov_gram qfZ -[X in X *m ctr _]ctrK qf_gram mulrC /nrm2 -mulr_suml; congr (_ / _).
apply: eq_bigr => n _; rewrite mxE -norm_conjC rmorph_sum; congr (`|_| ^+ 2); apply: eq_bigr => c _.
by rewrite rmorphM ctrE conjCK mulrC.
Qed.

Definition orth X := ctr (five_vec eighO X) *m five_vec eighO X = 1%:M.
Definition eigv X := forall i, sample_cov X *m col i (five_vec eighO X) = five_val eighO X i *: col i (five_vec eighO X).
Lemma five_Qd X : five_Q eighO X = dg (fun i => (five_sqrt eighO X i)^-1) *m ctr (five_vec eighO X).
Proof. by rewrite -dg_scale -hermiteE. Qed.
Lemma five_Qinvd X : five_Qinv eighO X = five_vec eighO X *m dg (five_sqrt eighO X).
Proof. by apply/matrixP=> i j; rewrite mul_dg mxE. Qed.
Lemma sqrt_gt0 X i : five_val eighO X i \is Num.real -> 0 < five_sqrt eighO X i.
Proof. by move=> r; rewrite sqrtC_gt0 clamp_gt0 // invr_gt0 exprn_gt0 // ltr0n. Qed.
Lemma QinvQ X : orth X -> (forall i, five_val eighO X i \is Num.real) -> five_Qinv eighO X *m five_Q eighO X = 1%:M.
Proof.
move=> o r; rewrite five_Qd five_Qinvd mulmxA -[_ *m dg _ *m dg _]mulmxA dg_mul dg1 ?mulmx1.
  exact: mulmx1C.
by move=> i; rewrite mulfV // gt_eqF // sqrt_gt0.
Qed.
Lemma whitened X : orth X -> eigv X -> (forall i, 10%:R ^- 5 <= five_val eighO X i) ->
  sample_cov (five_white eighO X) = 1%:M.
Proof.
move=> o e h.
have r i : five_val eighO X i \is Num.real.
  by apply: gtr0_real; apply: lt_le_trans (h i); rewrite invr_gt0 exprn_gt0 // ltr0n.
have sr i : (five_sqrt eighO X i)^-1 \is Num.real by rewrite rpredV gtr0_real // sqrt_gt0.
rewrite cov_gram /five_white ctrM mulmxA -[_ *m X *m ctr X]mulmxA.
rewrite scalemxAl scalemxAr -cov_gram five_Qd ctrM ctrK ctr_dg // mulmxA.
set V := five_vec eighO X; set D := dg _.
rewrite -[D *m ctr V *m sample_cov X *m V]mulmxA.
have -> : sample_cov X *m V = V *m dg (five_val eighO X).
  have /eig_diag : forall i, sample_cov X *m col i V = five_val eighO X i *: (1%:M *m col i V).
    by move=> i; rewrite mul1mx; apply: e.
  by rewrite mul1mx.
rewrite mulmxA -[D *m ctr V *m V]mulmxA o mulmx1 !dg_mul dg1 // => i.
rewrite -[five_val eighO X i]sqrtCK.
have -> : sqrtC (five_val eighO X i) = five_sqrt eighO X i by rewrite /five_sqrt clamp_id.
have s0 : five_sqrt eighO X i != 0 by rewrite gt_eqF // sqrt_gt0.
by rewrite expr2 !mulrA mulVf // mul1r mulfV.
Qed.

(* ---- the output for a unit vector u *)
Section Out.
Variables (X : 'M[C]_(nC, nN)) (mic : 'I_nC) (u : 'cV[C]_nC).
Definition zz : C := \sum_c five_Qinv eighO X mic c * u c 0.
Definition outr : 'rV[C]_nN := \row_n \sum_c (u c 0 * zz^*)^* * five_white eighO X c n.
Lemma zzE : zz = (row mic (five_Qinv eighO X) *m u) 0 0.
Proof. by rewrite [RHS]mxE; apply: eq_bigr => c _; rewrite [row _ _ _ _]mxE. Qed.
Lemma outrE : outr = zz *: (ctr u *m five_white eighO X).
Proof.
apply/matrixP=> i n; rewrite !ord1 mxZE [LHS]mxE [(_ *m _) _ _]mxE mulr_sumr; apply: eq_bigr => c _.
by rewrite rmorphM conjCK ctrE mulrA [zz * _]mulrC.
Qed.
Lemma corrE (a b : 'rV[C]_nN) : corr a b = (a *m ctr b) 0 0.
Proof. by rewrite mxE; apply: eq_bigr => n _; rewrite ctrE. Qed.
Hypothesis o : orth X.
Hypothesis r : forall i, five_val eighO X i \is Num.real.
Lemma unwhiten : X = five_Qinv eighO X *m five_white eighO X.
Proof. by rewrite /five_white mulmxA QinvQ // mul1mx. Qed.
Hypothesis n0 : (0 < nN)%N.
Hypothesis w : sample_cov (five_white eighO X) = 1%:M.
Lemma gram_white : five_white eighO X *m ctr (five_white eighO X) = nN%:R%:M.
Proof.
have n1 : nN%:R != 0 :> C by rewrite pnatr_eq0 -lt0n.
move: w; rewrite cov_gram => h.
by move/(congr1 (fun M => nN%:R *: M)): h; rewrite scalerA mulfV // scale1r scalemx1.
Qed.
Lemma out_orth : nrm2 u = 1 -> corr (row mic X - outr) outr = 0.
Proof.
move=> u1; rewrite corrE outrE.
have -> : row mic X = row mic (five_Qinv eighO X) *m five_white eighO X by rewrite -row_mul -unwhiten.
rewrite scalemxAl -mulmxBl ctrM ctrZ ctrK mulmxA -[_ *m _ *m ctr (five_white _ _)]mulmxA gram_white.
rewrite mul_mx_scalar -scalemxAr -!scalemxAl mxZE mxZE mulmxBl mxBE -zzE -scalemxAl mxZE -nrm2_ctr u1.
by rewrite mulr1 subrr !mulr0.
Qed.
Lemma energyE (a : 'rV[C]_nN) : energy a = (a *m ctr a) 0 0.
Proof. by rewrite mxE; apply: eq_bigr => n _; rewrite ctrE normCK. Qed.
Lemma out_energy : nrm2 u = 1 -> energy outr = nN%:R * `|zz| ^+ 2.
Proof.
move=> u1; rewrite energyE outrE ctrZ ctrM ctrK -scalemxAl -scalemxAr mulmxA -[ctr u *m _ *m _]mulmxA gram_white.
rewrite mul_mx_scalar -scalemxAl !mxZE -nrm2_ctr u1 normCK; cring.
Qed.
End Out.
Lemma filteredE m (g : 'cV[C]_m) (X : 'M[C]_(m, nN)) : filtered g X = ctr g *m X.
Proof. by apply/matrixP=> i n; rewrite !ord1 !mxE; apply: eq_bigr => c _; rewrite ctrE. Qed.

(* weighted covariance *)
Lemma five_VE (w : 'rV[C]_nN) X : (forall n, w 0 n \is Num.real) ->
  herm (five_V w X) /\ forall v, qf (five_V w X) v = wenergy w (ctr v *m X).
Proof.
move=> wr; pose A : 'M[C]_nC := \matrix_(c, d) \sum_n w 0 n * X c n * (X d n)^*.
have AE : A = \sum_n w 0 n *: (col n X *m ctr (col n X)).
  apply/matrixP=> c d; rewrite summxE mxE; apply: eq_bigr => n _.
  by rewrite mxZE [(_ *m _) c d]mxE big_ord1 ctrE !mxE mulrA.
have hA : herm A.
  rewrite /herm AE ctr_sum; apply: eq_bigr => n _.
  by rewrite ctrZ ctrM ctrK conj_Creal.
have VE : five_V w X = A by apply: half_herm.
split; first by rewrite VE.
move=> v; rewrite VE AE qf_sum /wenergy; apply: eq_bigr => n _; rewrite qfZ; congr (_ * _).
have -> : (ctr v *m X) 0 n = (ctr v *m col n X) 0 0 by rewrite -col_mulmx [RHS]mxE.
have -> : col n X *m ctr (col n X) = ctr (ctr (col n X)) *m ctr (col n X) by rewrite ctrK.
rewrite qf_gram /nrm2 big_ord1 -norm_conjC; congr (`|_| ^+ 2).
by rewrite -ctrE ctrM ctrK.
Qed.
Lemma herm_half m (A : 'M[C]_m) : herm ((1 / 2%:R) *: (A + hermite A)).
Proof.
rewrite /herm ctrZ ctrD !hermiteE ctrK addrC; congr (_ *: _).
by apply: conj_Creal; rewrite rpred_div ?real1 ?realn.
Qed.
Lemma five_V_herm w X : herm (five_V w X).
Proof. exact: herm_half. Qed.

(* Rayleigh quotient *)
Lemma rayleigh n (eO : eigh_oracle C n.+1) (M : 'M[C]_n.+1) (v : 'cV[C]_n.+1) :
  eigensolver eO -> herm M ->
  nrm2 (col 0 (eO M).2) = 1 /\ qf M (col 0 (eO M).2) * nrm2 v <= qf M v.
Proof.
move=> ok hM; have [lr ls o e] := ok M hM.
have ME := spec_dec o e; move: (eO M) lr ls o e ME => [l U] /= lr ls o e ME.
have u1 : nrm2 (col 0 U) = 1.
  rewrite nrm2_ctr; have := congr1 (fun M : 'M[C]_n.+1 => M 0 0) o; rewrite !mxE eqxx mulr1n => <-.
  by apply: eq_bigr => j _; rewrite !ctrE !mxE.
split=> //.
have -> : qf M (col 0 U) = l 0 by rewrite /qf -mulmxA e -scalemxAr mxZE -nrm2_ctr u1 mulr1.
pose y := ctr U *m v.
have ny : nrm2 v = nrm2 y.
  by rewrite !nrm2_ctr /y ctrM ctrK -mulmxA [U *m _]mulmxA (mulmx1C o) mul1mx.
have -> : qf M v = \sum_i l i * `|y i 0| ^+ 2.
  rewrite {1}ME /qf mulmxA -mulmxA -[_ *m ctr U *m v]mulmxA -/y.
  have -> : ctr v *m U = ctr y by rewrite /y ctrM ctrK.
  rewrite mxE; apply: eq_bigr => i _; rewrite dg_mulE ctrE normCK; cring.
rewrite ny /nrm2 mulr_sumr; apply: ler_sum => i _; apply: ler_wpmul2r; first by rewrite exprn_ge0.
exact: ls.
Qed.

(* the eigenvector of the weighted covariance extracts *)
Lemma out_extracts (w : 'rV[C]_nN) X mic : eigensolver (eighO nC) -> orth X ->
  (forall i, five_val eighO X i \is Num.real) -> (0 < nN)%N -> sample_cov (five_white eighO X) = 1%:M ->
  (forall n, w 0 n \is Num.real) ->
  extracts w X (outr X mic (smallest_eigh eighO (five_V w (five_white eighO X)))).
Proof.
move=> ok o r n0 hw wr; set u := smallest_eigh _ _; set Xw := five_white eighO X.
have u1 : nrm2 u = 1 := (rayleigh 0 ok (five_V_herm w Xw)).1.
split.
  exists (ctr (zz X mic u *: (ctr u *m five_Q eighO X))).
  by rewrite outrE filteredE ctrK -scalemxAl mulmxA.
move=> g; pose v := ctr (five_Qinv eighO X) *m g.
have fE : filtered g X = ctr v *m Xw by rewrite filteredE /v ctrM ctrK -mulmxA -unwhiten.
have eE : energy (filtered g X) = nN%:R * nrm2 v.
  rewrite energyE fE ctrM ctrK mulmxA -[ctr v *m _ *m _]mulmxA gram_white //.
  by rewrite mul_mx_scalar -scalemxAl mxZE -nrm2_ctr.
have [_ qV] := five_VE Xw wr.
have we : wenergy w (outr X mic u) = `|zz X mic u| ^+ 2 * qf (five_V w Xw) u.
  rewrite outrE qV /wenergy mulr_sumr; apply: eq_bigr => n _.
  by rewrite mxZE normrM exprMn mulrCA.
rewrite we eE out_energy // fE -qV.
rewrite [leRHS](_ : _ = nN%:R * (`|zz X mic u| ^+ 2 * qf (five_V w Xw) v)); last by cring.
rewrite [leLHS](_ : _ = nN%:R * (`|zz X mic u| ^+ 2 * (qf (five_V w Xw) u * nrm2 v))); last by cring.
apply: ler_wpmul2l; first exact: ler0n.
apply: ler_wpmul2l; first by rewrite exprn_ge0.
exact: (rayleigh v ok (five_V_herm w Xw)).2.
Qed.
End P.
