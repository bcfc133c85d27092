From mathcomp Require Import all_ssreflect all_algebra.
From Verif Require Import CAlg Py Batch LinalgModel LinalgProofs TissModel BeamModel PhaseSpec PhaseProofs PhaseTiss PhaseWpe.
Set Implicit Arguments. Unset Strict Implicit. Unset Printing Implicit Defensive.
Import GRing.Theory Num.Theory Order.TTheory.
Local Open Scope ring_scope.
Local Open Scope py_scope.

Section PB.
Variable C : numClosedFieldType.
Add Field CfieldPB : (f_ft C).
Ltac cring C := fpre; fnorm C; fatoms; ring.
Variable eighO : forall n, eigh_oracle C n.
Variable k : nat.
Local Notation nC := k.+1.

Section Freq.
Variable D : 'I_nC -> C.
Hypothesis uD : unimod D.
Hint Resolve uD uni_one : core.
Local Notation rv r := (rot D (fun _ : 'I_1 => D r)).
Lemma uc r m : unimod (fun _ : 'I_m => D r). Proof. by move=> i; exact: uD. Qed.
Hint Resolve uc : core.
Lemma col_rot m (e : 'I_m -> C) (A : 'M[C]_(nC, m)) r : col r (rot D e A) = rot D (fun=> e r) (col r A).
Proof. by apply/matrixP=> i j; rewrite !mxE. Qed.
Lemma mwf_rot Rt Rn eps ref :
  compute_mwf_ref (rot D D Rt) (rot D D Rn) eps ref = rmap (rv ref) (compute_mwf_ref Rt Rn eps ref).
Proof. by rewrite /compute_mwf_ref -rotD col_rot rot_sl. Qed.
Lemma bf2_rot Rt Rn ref eps :
  compute_mvdr_bf2 (rot D D Rt) (rot D D Rn) ref eps = rmap (rv ref) (compute_mvdr_bf2 Rt Rn ref eps).
Proof.
rewrite /compute_mvdr_bf2 rot_solve // bind_rmap rmap_bind; apply: eq_bind => A /=; congr Ok.
have -> : \sum_i rot D D A i i = \sum_i A i i.
  by apply: eq_bigr => i _; rewrite rotE mulrAC uni_mulr ?mul1r.
by rewrite -rotZ col_rot.
Qed.
Lemma normalize_rot' c (v : 'cV[C]_nC) : f_normalize (rv c v) = rv c (f_normalize v).
Proof.
rewrite /f_normalize rotZ; congr (_^-1 *: _); congr (clamp (sqrtC _) _); apply: eq_bigr => i _.
by rewrite norm_rot.
Qed.
Lemma rtf_rot Rt Rn ref p :
  compute_mvdr_rtf_eigh eighO (rot D D Rt) (rot D D Rn) ref (Some p) =
  rmap (rv ref) (compute_mvdr_rtf_eigh eighO Rt Rn ref (Some p)).
Proof.
rewrite /compute_mvdr_rtf_eigh /rtf_vector rot_sl // !bind_rmap !rmap_bind.
case: (solve_loaded _ _ _) => //= Phi; congr Ok.
have -> : iter (p - 1) (fun v => f_normalize (rot D D Phi *m v)) (col 0 (rot D D Phi)) =
   rv 0 (iter (p - 1) (fun v => f_normalize (Phi *m v)) (col 0 Phi)).
  rewrite col_rot; elim: (p - 1)%N => //= n ->; by rewrite rotM // normalize_rot'.
rewrite rotM //; set s := Rn *m _; clearbody s; apply/matrixP=> i j; rewrite [LHS]mxE !rotE [in RHS]mxE !invfM.
have e (x : C) : `|x| = 1 -> x^-1 = x^* by move=> h; rewrite invC_norm h expr1n invr1 mul1r.
rewrite (e (D ref)) // (e (D 0)^*) ?norm_conjC ?uD // conjCK.
transitivity ((D 0)^* * D 0 * (D i * ((s ref 0)^-1 * s i j) * (D ref)^*)); first by cring C.
by rewrite uni_mul ?mul1r.
Qed.
Lemma bf_rot Rn (d : 'cV[C]_nC) ref eps :
  compute_mvdr_bf (rot D D Rn) (rv ref d) eps = rmap (rv ref) (compute_mvdr_bf Rn d eps).
Proof.
rewrite /compute_mvdr_bf rot_sl // bind_rmap rmap_bind; apply: eq_bind => a /=; congr Ok.
rewrite rotZ; congr (_^-1 *: _); congr (clamp ('Re _) _); apply: eq_bigr => c _.
rewrite !rotE !rmorphM conjCK.
transitivity ((D c)^* * D c * (D ref * (D ref)^*) * ((d c 0)^* * a c 0)); first by cring C.
by rewrite uni_mul // uni_mulr ?mul1r.
Qed.
Variable nN : nat.
Lemma cov_rot (w : 'rV[C]_nN) (X : 'M[C]_(nC, nN)) : cov w (rot D (@one C nN) X) = rot D D (cov w X).
Proof.
apply/matrixP=> c d; rewrite rotE /cov [LHS]mxE [in RHS]mxE -num_rot.
by apply: eq_bigr => n _; rewrite !rot1E.
Qed.
Lemma out_rot (X : 'M[C]_(nC, nN)) (b : 'cV[C]_nC) ref n :
  \sum_c rot D (@one C nN) X c n * (rv ref b c 0)^* = D ref * \sum_c X c n * (b c 0)^*.
Proof.
rewrite mulr_sumr; apply: eq_bigr => c _; rewrite rot1E rotE !rmorphM conjCK.
transitivity ((D c)^* * D c * (D ref * (X c n * (b c 0)^*))); first by cring C.
by rewrite uni_mul ?mul1r.
Qed.
End Freq.

Variables (nS nF nN : nat).
Variable D : 'I_nF -> 'I_nC -> C.
Hypothesis hD : phases D.
Variable model : mask_model C nS nF nN.
Hypothesis hM : magnitude_mask model.
Variables (X : sig C nF nN nC) (ref : 'I_nC).
Local Notation X' := (rotate D X).
Lemma uDb f : unimod (D f). Proof. exact: hD. Qed.
Hint Resolve uDb : core.
Lemma rotateB f : X' f = rot (D f) (@one C nN) (X f).
Proof. by apply/matrixP=> c n; rewrite ffunE rot1E mxE. Qed.
Lemma ref_rot : model (ref_channel X' ref) = model (ref_channel X ref).
Proof. by apply: hM => f n; rewrite !mxE rotateB rot1E normrM hD mul1r. Qed.
Definition rph : sig C nF nN nS -> sig C nF nN nS := rotate (fun f (_ : 'I_nS) => D f ref).
Definition rbf (b : {ffun 'I_nS * 'I_nF -> 'cV[C]_nC}) : {ffun 'I_nS * 'I_nF -> 'cV[C]_nC} :=
  [ffun sf => rot (D sf.2) (fun=> D sf.2 ref) (b sf)].
Lemma rphE Z f s n : rph Z f s n = D f ref * Z f s n.
Proof. by rewrite ffunE mxE. Qed.
Lemma ffmxE (F : 'I_nF -> 'I_nS -> 'I_nN -> C) f s n : ([ffun f => \matrix_(s, n) F f s n] : sig C nF nN nS) f s n = F f s n.
Proof. by rewrite ffunE mxE. Qed.
Lemma apply_bfE (Z : sig C nF nN nC) (b : {ffun 'I_nS * 'I_nF -> 'cV[C]_nC}) f s n : apply_bf Z b f s n = \sum_c Z f c n * (b (s, f) c 0)^*.
Proof. by rewrite ffunE mxE. Qed.
Lemma apply_rot b : apply_bf X' (rbf b) = rph (apply_bf X b).
Proof.
apply/ffunP => f; apply/matrixP=> s n; rewrite rphE !apply_bfE -(out_rot (uDb f)).
by apply: eq_bigr => c _; rewrite rotateB ffunE.
Qed.
Lemma gather_bf (g g' : 'I_nS * 'I_nF -> result 'cV[C]_nC) :
  (forall s f, g' (s, f) = rmap (rot (D f) (fun=> D f ref)) (g (s, f))) ->
  (let* b := gather 0 g' in Ok (apply_bf X' b)) = rmap rph (let* b := gather 0 g in Ok (apply_bf X b)).
Proof.
move=> h; rewrite (@eq_gather _ _ _ g' (fun sf => rmap (rot (D sf.2) (fun=> D sf.2 ref)) (g sf))); last by case=> s f; exact: h.
rewrite (gather_rmap _ _ (fun sf : 'I_nS * 'I_nF => rot (D sf.2) (fun=> D sf.2 ref))) bind_rmap rmap_bind; apply: eq_bind => b /=.
by rewrite -apply_rot.
Qed.
Lemma mvdr_rot eps ty p :
  mvdr_forward eighO X' model ref eps ty (Some p) = rmap rph (mvdr_forward eighO X model ref eps ty (Some p)).
Proof.
rewrite /mvdr_forward ref_rot; case: (model _) => [|mt [|mn [|mn2 [|? ?]]]] //.
  case: ty => //; apply: gather_bf => s f; rewrite rotateB !cov_rot.
    rewrite rtf_rot // bind_rmap rmap_bind; apply: eq_bind => v; exact: bf_rot.
  exact: bf2_rot.
apply: gather_bf => s f; rewrite rotateB !cov_rot rtf_rot // bind_rmap rmap_bind; apply: eq_bind => v; exact: bf_rot.
Qed.
Lemma mvdr_scm_rot eps pw :
  mvdr_forward eighO X' model ref eps Scm pw = rmap rph (mvdr_forward eighO X model ref eps Scm pw) \/
  (exists a b c, model (ref_channel X ref) = [:: a; b; c]).
Proof.
rewrite /mvdr_forward ref_rot; case: (model _) => [|mt [|mn [|mn2 [|? ?]]]]; try by left.
  by left; apply: gather_bf => s f; rewrite rotateB !cov_rot; exact: bf2_rot.
by right; exists mt, mn, mn2.
Qed.
Lemma mwf_fwd_rot eps ti : mwf_forward X' model ref eps ti = rmap rph (mwf_forward X model ref eps ti).
Proof.
rewrite /mwf_forward ref_rot; case: (model _) => [|mt [|mn rest]] //; case: ti.
  by apply: gather_bf => s f; rewrite rotateB !cov_rot; exact: mwf_rot.
case: rest => [|vt [|vn [|? ?]]] //.
set g' := fun sf : 'I_nS * 'I_nF => _; set g := fun sf : 'I_nS * 'I_nF => _.
have h sf : g' sf = rmap (fun b : {ffun 'I_nN -> 'cV[C]_nC} => [ffun n => rot (D sf.2) (fun=> D sf.2 ref) (b n)]) (g sf).
  case: sf => s f; rewrite /g /g' -(gather_rmap _ _ (fun=> rot (D f) (fun=> D f ref))).
  apply: eq_gather => n; rewrite rotateB !cov_rot -!rotZ; exact: mwf_rot.
rewrite (eq_gather _ h) (gather_rmap _ _ (fun (sf : 'I_nS * 'I_nF) (b : {ffun 'I_nN -> 'cV[C]_nC}) => [ffun n => rot (D sf.2) (fun=> D sf.2 ref) (b n)])).
rewrite bind_rmap rmap_bind; apply: eq_bind => b /=; congr Ok.
apply/ffunP => f; apply/matrixP=> s n; rewrite rphE ffmxE [in RHS]ffmxE -(out_rot (uDb f)).
by apply: eq_bigr => c _; rewrite rotateB !ffunE.
Qed.
End PB.
