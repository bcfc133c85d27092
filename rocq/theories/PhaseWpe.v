From mathcomp Require Import all_ssreflect all_algebra.
From Verif Require Import CAlg Py Batch LinalgModel LinalgProofs TissModel WpeModel PhaseSpec PhaseProofs PhaseTiss.
Set Implicit Arguments. Unset Strict Implicit. Unset Printing Implicit Defensive.
Import GRing.Theory Num.Theory Order.TTheory.
Local Open Scope ring_scope.
Local Open Scope py_scope.

Section Loaded.
Variable C : numClosedFieldType.
Lemma rot_max_abs n (d : 'I_n -> C) (A : 'M[C]_n) : unimod d -> max_abs (rot d d A) = max_abs A.
Proof. by move=> h; rewrite /max_abs; apply: eq_bigr => j _; apply: eq_bigr => i _; rewrite norm_rot. Qed.
Lemma rot_sl n k (d : 'I_n -> C) (e : 'I_k -> C) (A : 'M[C]_n) (B : 'M[C]_(n, k)) load : unimod d ->
  solve_loaded (rot d d A) (rot d e B) load = rmap (rot d e) (solve_loaded A B load).
Proof.
move=> h; rewrite /solve_loaded; case: ifP => // _.
by rewrite /load_factor rot_max_abs // -{1}(rot1 h) -rotZ -rotD rot_solve.
Qed.
End Loaded.

Section PW.
Variable C : numClosedFieldType.
Add Field CfieldPW : (f_ft C).
Ltac cring C := fpre; fnorm C; fatoms; ring.
Variables (nC nF nT dl nN : nat).
Local Notation sig := (sig C nF nN nC).
Local Notation one := (@one C nN).
Variable D : 'I_nF -> 'I_nC -> C.
Hypothesis hD : phases D.
Variable St : Type.
Variable model : option (St -> sig -> ('I_nF -> 'rV[C]_nN) * St).
Hypothesis hM : forall mo, model = Some mo -> magnitude_model mo.
Variables (X : sig) (eps : C).
Local Notation X' := (rotate D X).
Lemma uDw f : unimod (D f). Proof. exact: hD. Qed.
Hint Resolve uDw uni_one : core.
(* the phases of the stacked microphones and taps *)
Definition dk f (k : 'I_(nC * nT)) : C := mxvec (\matrix_(c, t) D f c) 0 k.
Lemma dkE f c t : dk f (mxvec_index c t) = D f c.
Proof. by rewrite /dk mxvecE mxE. Qed.
Lemma uK' f : unimod (dk f).
Proof. by move=> k; case/mxvec_indexP: k => c t; rewrite dkE. Qed.
Hint Resolve uK' : core.

Lemma rotateF f : X' f = rot (D f) one (X f).
Proof. by apply/matrixP=> c n; rewrite ffunE rot1E mxE. Qed.
Lemma delayedF' (Z : sig) f t : delayed nT dl Z f t = \matrix_(c, n) xpad nT dl (Z f) c (t + n).
Proof. by rewrite /delayed !ffunE. Qed.
Lemma delayed_rot' f t : delayed nT dl X' f t = rot (D f) one (delayed nT dl X f t).
Proof.
rewrite !delayedF' rotateF; apply/matrixP=> c n; rewrite rot1E !mxE /xpad; case: ifP => _; first by rewrite mulr0.
by rewrite /rowget; case: insubP => [k _ _|_]; rewrite ?mulr0 // rot1E.
Qed.
Lemma stack_rot f k n : stack (delayed nT dl X' f) k n = dk f k * stack (delayed nT dl X f) k n.
Proof. case/mxvec_indexP: k => c t; rewrite dkE /stack !mxE !mxvecE !mxE delayed_rot' rot1E //. Qed.
Lemma acm_rot w f : acm w (delayed nT dl X' f) = rot (dk f) (dk f) (acm w (delayed nT dl X f)).
Proof.
apply/matrixP=> k l; rewrite rotE /acm [LHS]mxE [in RHS]mxE -num_rot.
by apply: eq_bigr => n _; rewrite !stack_rot.
Qed.
Lemma xcv_rot w f : xcv w (delayed nT dl X' f) (X' f) = rot (dk f) (D f) (xcv w (delayed nT dl X f) (X f)).
Proof.
apply/matrixP=> k l; rewrite rotE /xcv [LHS]mxE [in RHS]mxE -num_rot.
by apply: eq_bigr => n _; rewrite stack_rot rotateF rot1E.
Qed.
Definition rotHw (H : {ffun 'I_nF -> 'M[C]_(nC * nT, nC)}) : {ffun 'I_nF -> 'M[C]_(nC * nT, nC)} :=
  [ffun f => rot (dk f) (D f) (H f)].
Lemma wpe_one_iter_rot w :
  wpe_one_iter w X' (delayed nT dl X') eps = rmap rotHw (wpe_one_iter w X (delayed nT dl X) eps).
Proof.
rewrite /wpe_one_iter; case: ifP => // _; rewrite -(gather_rmap _ _ (fun f => rot (dk f) (D f))).
by apply: eq_gather => f; rewrite acm_rot xcv_rot rot_sl.
Qed.
Lemma rotateEl (Z : sig) f s n : rotate D Z f s n = D f s * Z f s n.
Proof. by rewrite ffunE mxE. Qed.
Lemma derevE (H : {ffun 'I_nF -> 'M[C]_(nC * nT, nC)}) (Z : sig) Zb f s n :
  derev H Z Zb f s n = Z f s n - \sum_c \sum_t (H f (mxvec_index c t) s)^* * Zb f t c n.
Proof. by rewrite /derev ffunE mxE. Qed.
Lemma derev_rot H : derev (rotHw H) X' (delayed nT dl X') = rotate D (derev H X (delayed nT dl X)).
Proof.
apply/ffunP => f; apply/matrixP=> s n; rewrite [RHS]rotateEl !derevE rotateF rot1E mulrBr; congr (_ - _).
rewrite mulr_sumr; apply: eq_bigr => c _; rewrite mulr_sumr; apply: eq_bigr => t _.
rewrite delayed_rot' rot1E ffunE rotE dkE !rmorphM conjCK.
transitivity ((D f c)^* * D f c * (D f s * ((H f (mxvec_index c t) s)^* * delayed nT dl X f t c n))); first by cring C.
by rewrite uni_mul ?mul1r.
Qed.
Lemma rotate_mag' (Z : sig) : same_mag (rotate D Z) Z.
Proof. by move=> f k n; rewrite ffunE mxE normrM hD mul1r. Qed.
Lemma default_weights_mag (Y Y' : sig) : same_mag Y Y' -> default_weights eps Y =1 default_weights eps Y'.
Proof.
move=> h f; have e n : (1 / clamp ((\sum_c mag_sq (Y f c n)) / nC%:R) eps) = 1 / clamp ((\sum_c mag_sq (Y' f c n)) / nC%:R) eps.
  by congr (1 / clamp (_ / _) _); apply: eq_bigr => c _; apply: mag_sq_norm; rewrite h.
apply/rowP => n; rewrite !mxE e; congr (_ / _); exact: eq_bigr.
Qed.
Lemma wpe_one_iter_ext w w' (Z : sig) : w =1 w' -> wpe_one_iter w Z (delayed nT dl Z) eps = wpe_one_iter w' Z (delayed nT dl Z) eps.
Proof. by move=> h; rewrite /wpe_one_iter; case: ifP => // _; apply: eq_gather => f; rewrite h. Qed.
Lemma weights_rot m Y : (weights model eps m (rotate D Y)).1 =1 (weights model eps m Y).1 /\
  (weights model eps m (rotate D Y)).2 = (weights model eps m Y).2.
Proof.
rewrite /weights; case E: model => [mo|] /=; first by rewrite (hM E _ (rotate_mag' Y)).
by split=> //; exact/default_weights_mag/rotate_mag'.
Qed.
Lemma wpe_loop_rot n Y m :
  wpe_loop nT dl model X' eps n (rotate D Y) m =
  rmap (fun r => (rotate D r.1, r.2)) (wpe_loop nT dl model X eps n Y m).
Proof.
elim: n Y m => //= n IH Y m; have [] := weights_rot m Y.
case: (weights _ _ _ _) => w m1; case: (weights _ _ _ _) => w' m2 /= e ->.
rewrite (wpe_one_iter_ext X' e) wpe_one_iter_rot bind_rmap rmap_bind; apply: eq_bind => H.
by rewrite derev_rot IH.
Qed.
Lemma wpe_forward_rot n m0 :
  wpe_forward nT dl model X' eps n m0 =
  rmap (fun r => (rotate D r.1, r.2)) (wpe_forward nT dl model X eps n m0).
Proof. exact: wpe_loop_rot. Qed.
End PW.
