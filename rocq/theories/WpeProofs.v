(* Proofs about the WPE model. *)
From Coq Require Import Ring Field.
From mathcomp Require Import all_ssreflect all_algebra.
From Verif Require Import CAlg Py Batch LinalgModel LinalgSpec LinalgProofs LinalgBridge.
From Verif Require Import TissModel TissSpec TissProofs WpeModel WpeSpec.
Set Implicit Arguments. Unset Strict Implicit. Unset Printing Implicit Defensive.
Import GRing.Theory Num.Theory Order.TTheory.
Local Open Scope ring_scope.
Local Open Scope py_scope.


Section Wpe.
Variable C : numClosedFieldType.
Add Field wpeC : (f_ft C).
Ltac cring := fpre; fnorm C; fatoms; ring.
Variables (nC nF nT dl nN : nat).
Implicit Types (X : sig C nF nN nC) (w : 'rV[C]_nN).

Lemma stackE (Xb : taps C nT nC nN) c t n : stack Xb (mxvec_index c t) n = Xb t c n.
Proof. by rewrite mxE mxvecE mxE. Qed.
Lemma sum_flat (F : 'I_(nC * nT) -> C) : \sum_k F k = \sum_c \sum_t F (mxvec_index c t).
Proof.
rewrite pair_big /= (reindex _ (curry_mxvec_bij _ _)) /=.
by apply: eq_bigr => -[c t] _.
Qed.

(* one frequency *)
Section One.
Variables (w : 'rV[C]_nN) (Xb : taps C nT nC nN) (Xf : 'M[C]_(nC, nN)) (eps : C).
Hypothesis w0 : forall n, 0 <= w 0 n.
Hypothesis e0 : 0 < eps.
Let A : 'M[C]_(nN, nC * nT) := \matrix_(n, k) (sqrtC (w 0 n) * (stack Xb k n)^*).
Let b s : 'cV[C]_nN := \col_n (sqrtC (w 0 n) * (Xf s n)^*).
Let sw n : sqrtC (w 0 n) * sqrtC (w 0 n) = w 0 n.
Proof. by rewrite -expr2 sqrtCK. Qed.
Let swc n : (sqrtC (w 0 n))^* = sqrtC (w 0 n).
Proof. by rewrite conj_Creal // ger0_real // sqrtC_ge0. Qed.
Lemma acmE : acm w Xb = ctr A *m A.
Proof.
apply/matrixP=> k l; rewrite !mxE; apply: eq_bigr => n _.
rewrite ctrE !mxE rmorphM swc conjCK -{1}(sw n); cring.
Qed.
Lemma xcvE s : col s (xcv w Xb Xf) = ctr A *m b s.
Proof.
apply/matrixP=> k j; rewrite !mxE; apply: eq_bigr => n _.
rewrite ctrE !mxE rmorphM swc conjCK -{1}(sw n); cring.
Qed.
Lemma acm_psd : psd (acm w Xb).
Proof. by rewrite acmE; exact: psd_gram. Qed.
Lemma residE s (h : 'cV[C]_(nC * nT)) :
  nrm2 (A *m h - b s)
  = \sum_n w 0 n * `|Xf s n - \sum_c \sum_t (h (mxvec_index c t) 0)^* * Xb t c n| ^+ 2.
Proof.
apply: eq_bigr => n _; rewrite mxBE [b s n 0]mxE [(A *m h) n 0]mxE.
have -> : \sum_j A n j * h j 0 = sqrtC (w 0 n) * (\sum_c \sum_t (h (mxvec_index c t) 0)^* * Xb t c n)^*.
  rewrite sum_flat rmorph_sum mulr_sumr; apply: eq_bigr => c _.
  rewrite rmorph_sum mulr_sumr; apply: eq_bigr => t _.
  by rewrite !mxE mxvecE mxE rmorphM conjCK; cring.
rewrite -mulrBr -rmorphB normrM norm_conjC exprMn distrC; congr (_ * _).
by rewrite ger0_norm ?sqrtC_ge0 // sqrtCK.
Qed.
Lemma wpe_solve : (0 < nC * nT)%N -> exists H,
  solve_loaded (acm w Xb) (xcv w Xb Xf) eps = Ok H /\
  forall s (h : 'cV[C]_(nC * nT)), h != col s H ->
   nrm2 (A *m col s H - b s) + load_factor (acm w Xb) eps * nrm2 (col s H)
   < nrm2 (A *m h - b s) + load_factor (acm w Xb) eps * nrm2 h.
Proof.
move=> n0; rewrite (solve_loaded_psd _ n0 acm_psd e0); eexists; split; first by [].
move=> s h; set l := load_factor _ _; have l0 : 0 < l by exact: load_factor_gt0.
apply: ls_min_lt => //; rewrite colE -!mulmxA -scalemx1 -acmE mulmxA.
rewrite mulmxV ?mul1mx ?[xcv _ _ _ *m _]mulmxA -?colE ?xcvE //; apply: pd_unit; exact: pd_loaded acm_psd e0.
Qed.
End One.
End Wpe.
