From mathcomp Require Import all_ssreflect all_algebra all_fingroup.
From Verif Require Import CAlg Py Batch LinalgModel LinalgProofs TissModel BeamModel WpeModel LinalgBridge PhaseTiss PermSpec.
Set Implicit Arguments. Unset Strict Implicit. Unset Printing Implicit Defensive.
Import GroupScope GRing.Theory Num.Theory Order.TTheory.
Local Open Scope ring_scope.
Local Open Scope py_scope.

Section Solve.
Variable C : numClosedFieldType.
Definition prm n (p : 'S_n) (A : 'M[C]_n) : 'M[C]_n := \matrix_(i, j) A (p i) (p j).
Definition prv n m (p : 'S_n) (q : 'S_m) (A : 'M[C]_(n, m)) : 'M[C]_(n, m) := \matrix_(i, j) A (p i) (q j).
Lemma prvM n m k (p : 'S_n) (q : 'S_m) (r : 'S_k) (A : 'M[C]_(n, m)) (B : 'M[C]_(m, k)) :
  prv p q A *m prv q r B = prv p r (A *m B).
Proof.
apply/matrixP=> i j; rewrite !mxE [RHS](reindex_inj (@perm_inj _ q)); apply: eq_bigr => l _.
by rewrite !mxE.
Qed.
Lemma prv1 n (p : 'S_n) : prv p p (1%:M : 'M[C]_n) = 1%:M.
Proof. by apply/matrixP=> i j; rewrite !mxE (inj_eq (@perm_inj _ p)). Qed.
Lemma prvD n m (p : 'S_n) (q : 'S_m) (A B : 'M[C]_(n, m)) : prv p q (A + B) = prv p q A + prv p q B.
Proof. by apply/matrixP=> i j; rewrite !mxE. Qed.
Lemma prvZ n m (p : 'S_n) (q : 'S_m) x (A : 'M[C]_(n, m)) : prv p q (x *: A) = x *: prv p q A.
Proof. by apply/matrixP=> i j; rewrite !mxE. Qed.
Lemma prv_unit n (p : 'S_n) (A : 'M[C]_n) : (prv p p A \in unitmx) = (A \in unitmx).
Proof.
apply/idP/idP => h.
  have e : A = prv p^-1 p^-1 (prv p p A) by apply/matrixP=> i j; rewrite !mxE !permKV.
  have [] := @mulmx1_unit _ _ A (prv p^-1 p^-1 (invmx (prv p p A))) _ => //.
  by rewrite {1}e prvM mulmxV ?prv1.
by have [] := @mulmx1_unit _ _ (prv p p A) (prv p p (invmx A)) _ => //; rewrite prvM mulmxV ?prv1.
Qed.
Lemma prv_solve n k (p : 'S_n) (q : 'S_k) (A : 'M[C]_n) (B : 'M[C]_(n, k)) :
  torch_solve (prv p p A) (prv p q B) = rmap (prv p q) (torch_solve A B).
Proof.
rewrite /torch_solve prv_unit; case: ifP => //= uA; congr Ok.
have uP : prv p p A \in unitmx by rewrite prv_unit.
rewrite -[RHS](mulKmx uP) prvM mulKVmx //.
Qed.
Lemma prv_max n (p : 'S_n) (A : 'M[C]_n) : max_abs (prv p p A) = max_abs A.
Proof.
have h (q : 'S_n) (B : 'M[C]_n) : max_abs (prv q q B) <= max_abs B.
  case: (max_abs_in (prv q q B)) => [->|[i [j ->]]]; first exact: max_abs_ge0.
  rewrite mxE; exact: max_abs_ge.
apply: le_anti; rewrite h /=.
have e : A = prv p^-1 p^-1 (prv p p A) by apply/matrixP=> i j; rewrite !mxE !permKV.
by rewrite {1}e h.
Qed.
Lemma prv_sl n k (p : 'S_n) (q : 'S_k) (A : 'M[C]_n) (B : 'M[C]_(n, k)) load :
  solve_loaded (prv p p A) (prv p q B) load = rmap (prv p q) (solve_loaded A B load).
Proof.
rewrite /solve_loaded; case: ifP => // _.
by rewrite /load_factor prv_max -{1}(prv1 p) -prvZ -prvD prv_solve.
Qed.
End Solve.

Section Beam.
Variable C : numClosedFieldType.
Variable eighO : forall n, eigh_oracle C n.
Variable k : nat.
Local Notation nC := k.+1.
Variable p : 'S_nC.
Local Notation v1 := (prv p (1 : 'S_1)%g).
Lemma col_prv (A : 'M[C]_nC) r : col r (prv p p A) = v1 (col (p r) A).
Proof. by apply/matrixP=> i j; rewrite !mxE. Qed.
Lemma mwf_prv (Rt Rn : 'M[C]_nC) eps ref :
  compute_mwf_ref (prv p p Rt) (prv p p Rn) eps ref = rmap v1 (compute_mwf_ref Rt Rn eps (p ref)).
Proof. by rewrite /compute_mwf_ref -prvD col_prv prv_sl. Qed.
Lemma bf2_prv (Rt Rn : 'M[C]_nC) eps ref :
  compute_mvdr_bf2 (prv p p Rt) (prv p p Rn) ref eps = rmap v1 (compute_mvdr_bf2 Rt Rn (p ref) eps).
Proof.
rewrite /compute_mvdr_bf2 prv_solve bind_rmap rmap_bind; apply: eq_bind => A /=; congr Ok.
rewrite -col_prv prvZ; congr (col _ (_^-1 *: _)).
by rewrite [RHS](reindex_inj (@perm_inj _ p)); apply: eq_bigr => i _; rewrite mxE.
Qed.
Variables (nS nF nN : nat).
Lemma cov_prv (w : 'rV[C]_nN) (X : 'M[C]_(nC, nN)) : cov w (\matrix_(i, n) X (p i) n) = prv p p (cov w X).
Proof. by apply/matrixP=> c d; rewrite !mxE; apply: eq_bigr => n _; rewrite !mxE. Qed.
Variable model : mask_model C nS nF nN.
Variables (X : sig C nF nN nC) (ref : 'I_nC).
Local Notation X' := (reorder p X).
Lemma reorderF f : X' f = \matrix_(i, n) X f (p i) n. Proof. by rewrite ffunE. Qed.
Lemma ref_prv : ref_channel X' ref = ref_channel X (p ref).
Proof. by apply/matrixP=> f n; rewrite !mxE ffunE mxE. Qed.
Lemma apply_bfEp (Z : sig C nF nN nC) (b : {ffun 'I_nS * 'I_nF -> 'cV[C]_nC}) f s n : apply_bf Z b f s n = \sum_c Z f c n * (b (s, f) c 0)^*.
Proof. by rewrite ffunE mxE. Qed.
Lemma out_prv f n (b : 'cV[C]_nC) : \sum_c X' f c n * (v1 b c 0)^* = \sum_c X f c n * (b c 0)^*.
Proof.
rewrite [RHS](reindex_inj (@perm_inj _ p)); apply: eq_bigr => c _.
by rewrite reorderF !mxE perm1.
Qed.
Lemma apply_prv (b : {ffun 'I_nS * 'I_nF -> 'cV[C]_nC}) : apply_bf X' [ffun sf => v1 (b sf)] = apply_bf X b.
Proof.
apply/ffunP => f; apply/matrixP=> s n; rewrite !apply_bfEp -out_prv.
by apply: eq_bigr => c _; congr (_ * _); rewrite ffunE.
Qed.
Lemma gather_prv (h h' : 'I_nS * 'I_nF -> result 'cV[C]_nC) :
  (forall s f, h' (s, f) = rmap v1 (h (s, f))) ->
  (let* b := gather 0 h' in Ok (apply_bf X' b)) = let* b := gather 0 h in Ok (apply_bf X b).
Proof.
move=> e; rewrite (@eq_gather _ _ _ h' (fun sf => rmap v1 (h sf))); last by case=> s f; exact: e.
rewrite (gather_rmap _ _ (fun _ : 'I_nS * 'I_nF => v1)) bind_rmap; apply: eq_bind => b /=.
by rewrite apply_prv.
Qed.
Lemma mvdr_scm_prv eps pw mt mn : model (ref_channel X (p ref)) = [:: mt; mn] ->
  mvdr_forward eighO X' model ref eps Scm pw = mvdr_forward eighO X model (p ref) eps Scm pw.
Proof.
move=> h; rewrite /mvdr_forward ref_prv h; apply: gather_prv => s f; rewrite reorderF !cov_prv.
exact: bf2_prv.
Qed.
Lemma mwf_fwd_prv eps ti : mwf_forward X' model ref eps ti = mwf_forward X model (p ref) eps ti.
Proof.
rewrite /mwf_forward ref_prv; case: (model _) => [|mt [|mn rest]] //; case: ti.
  by apply: gather_prv => s f; rewrite reorderF !cov_prv; exact: mwf_prv.
case: rest => [|vt [|vn [|? ?]]] //.
set g' := fun sf : 'I_nS * 'I_nF => _; set g := fun sf : 'I_nS * 'I_nF => _.
have h sf : g' sf = rmap (fun b : {ffun 'I_nN -> 'cV[C]_nC} => [ffun n => v1 (b n)]) (g sf).
  case: sf => s f; rewrite /g /g' -(gather_rmap _ _ (fun=> v1)).
  apply: eq_gather => n; rewrite reorderF !cov_prv -!prvZ; exact: mwf_prv.
rewrite (eq_gather _ h) (gather_rmap _ _ (fun (sf : 'I_nS * 'I_nF) (b : {ffun 'I_nN -> 'cV[C]_nC}) => [ffun n => v1 (b n)])).
rewrite bind_rmap; apply: eq_bind => b /=; congr Ok.
apply/ffunP => f; rewrite !ffunE; apply/matrixP=> s n; rewrite !mxE -out_prv.
by apply: eq_bigr => c _; congr (_ * _); rewrite !ffunE.
Qed.
End Beam.

Section W.
Variable C : numClosedFieldType.
Variables (nC nF nT dl nN : nat).
Local Notation sig := (sig C nF nN nC).
Variable p : 'S_nC.
Variables (X : sig) (eps : C).
Variable St : Type.
Variable model : option (St -> sig -> ('I_nF -> 'rV[C]_nN) * St).
Hypothesis hM : forall mo, model = Some mo -> symmetric_model mo.
Local Notation X' := (reorder p X).
Lemma reE (Z : sig) f s n : reorder p Z f s n = Z f (p s) n.
Proof. by rewrite ffunE mxE. Qed.
Definition un (k : 'I_(nC * nT)) : 'I_nC * 'I_nT := enum_val (cast_ord (esym (mxvec_cast nC nT)) k).
Lemma unK c t : un (mxvec_index c t) = (c, t).
Proof. by rewrite /un /mxvec_index cast_ordK enum_rankK. Qed.
Definition pkf (k : 'I_(nC * nT)) : 'I_(nC * nT) := mxvec_index (p (un k).1) (un k).2.
Lemma pkf_inj : injective pkf.
Proof.
move=> k l; case/mxvec_indexP: k => c t; case/mxvec_indexP: l => d u; rewrite /pkf !unK /=.
by move/(congr1 un); rewrite !unK => -[/perm_inj -> ->].
Qed.
Definition pk : 'S_(nC * nT) := perm pkf_inj.
Lemma pkE c t : pk (mxvec_index c t) = mxvec_index (p c) t.
Proof. by rewrite permE /pkf unK. Qed.
Lemma delayedFp (Z : sig) f t : delayed nT dl Z f t = \matrix_(c, n) xpad nT dl (Z f) c (t + n).
Proof. by rewrite /delayed !ffunE. Qed.
Lemma delayed_prv f t c n : delayed nT dl X' f t c n = delayed nT dl X f t (p c) n.
Proof.
rewrite !delayedFp !mxE /xpad; case: ifP => _ //.
by rewrite /rowget; case: insubP => [j _ _|_] //; rewrite reE.
Qed.
Lemma stack_prv f k n : stack (delayed nT dl X' f) k n = stack (delayed nT dl X f) (pk k) n.
Proof. case/mxvec_indexP: k => c t; rewrite pkE /stack !mxE !mxvecE !mxE delayed_prv //. Qed.
Lemma acm_prv w f : acm w (delayed nT dl X' f) = prv pk pk (acm w (delayed nT dl X f)).
Proof.
apply/matrixP=> k l; rewrite /acm [LHS]mxE [in RHS]mxE [in RHS]mxE.
by apply: eq_bigr => n _; rewrite !stack_prv.
Qed.
Lemma xcv_prv w f : xcv w (delayed nT dl X' f) (X' f) = prv pk p (xcv w (delayed nT dl X f) (X f)).
Proof.
apply/matrixP=> k l; rewrite /xcv [LHS]mxE [in RHS]mxE [in RHS]mxE.
by apply: eq_bigr => n _; rewrite stack_prv reE.
Qed.
Definition prH (H : {ffun 'I_nF -> 'M[C]_(nC * nT, nC)}) : {ffun 'I_nF -> 'M[C]_(nC * nT, nC)} :=
  [ffun f => prv pk p (H f)].
Lemma wpe_one_iter_prv w :
  wpe_one_iter w X' (delayed nT dl X') eps = rmap prH (wpe_one_iter w X (delayed nT dl X) eps).
Proof.
rewrite /wpe_one_iter; case: ifP => // _; rewrite -(gather_rmap _ _ (fun=> prv pk p)).
by apply: eq_gather => f; rewrite acm_prv xcv_prv prv_sl.
Qed.
Lemma derevEp (H : {ffun 'I_nF -> 'M[C]_(nC * nT, nC)}) (Z : sig) Zb f s n :
  derev H Z Zb f s n = Z f s n - \sum_c \sum_t (H f (mxvec_index c t) s)^* * Zb f t c n.
Proof. by rewrite /derev ffunE mxE. Qed.
Lemma derev_prv H : derev (prH H) X' (delayed nT dl X') = reorder p (derev H X (delayed nT dl X)).
Proof.
apply/ffunP => f; apply/matrixP=> s n; rewrite [RHS]reE !derevEp reE; congr (_ - _).
rewrite [RHS](reindex_inj (@perm_inj _ p)); apply: eq_bigr => c _; apply: eq_bigr => t _.
by rewrite delayed_prv ffunE mxE pkE.
Qed.
Lemma default_weights_prv (Y : sig) : default_weights eps (reorder p Y) =1 default_weights eps Y.
Proof.
move=> f; have e n : (1 / clamp ((\sum_c mag_sq (reorder p Y f c n)) / nC%:R) eps) = 1 / clamp ((\sum_c mag_sq (Y f c n)) / nC%:R) eps.
  congr (1 / clamp (_ / _) _); rewrite [RHS](reindex_inj (@perm_inj _ p)); apply: eq_bigr => c _; by rewrite reE.
apply/rowP => n; rewrite !mxE e; congr (_ / _); exact: eq_bigr.
Qed.
Lemma weights_prv m Y : (weights model eps m (reorder p Y)).1 =1 (weights model eps m Y).1 /\
  (weights model eps m (reorder p Y)).2 = (weights model eps m Y).2.
Proof.
rewrite /weights; case E: model => [mo|] /=; first by rewrite (hM E).
by split=> //; exact: default_weights_prv.
Qed.
Lemma one_iter_extp w w' (Z : sig) : w =1 w' -> wpe_one_iter w Z (delayed nT dl Z) eps = wpe_one_iter w' Z (delayed nT dl Z) eps.
Proof. by move=> h; rewrite /wpe_one_iter; case: ifP => // _; apply: eq_gather => f; rewrite h. Qed.
Lemma wpe_prv n Y m :
  wpe_loop nT dl model X' eps n (reorder p Y) m =
  rmap (fun r => (reorder p r.1, r.2)) (wpe_loop nT dl model X eps n Y m).
Proof.
elim: n Y m => //= n IH Y m; have [] := weights_prv m Y.
case: (weights _ _ _ _) => w m1; case: (weights _ _ _ _) => w' m2 /= e ->.
rewrite (one_iter_extp X' e) wpe_one_iter_prv bind_rmap rmap_bind; apply: eq_bind => H.
by rewrite derev_prv IH.
Qed.
End W.
