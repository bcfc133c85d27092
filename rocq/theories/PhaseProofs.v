From mathcomp Require Import all_ssreflect all_algebra.
From Verif Require Import CAlg Py Batch LinalgModel LinalgProofs TissModel PhaseSpec.
Set Implicit Arguments. Unset Strict Implicit. Unset Printing Implicit Defensive.
Import GRing.Theory Num.Theory Order.TTheory.
Local Open Scope ring_scope.
Local Open Scope py_scope.

Section Rot.
Variable C : numClosedFieldType.
Definition unimod n (d : 'I_n -> C) := forall i, `|d i| = 1.
Definition rot m n (d : 'I_m -> C) (e : 'I_n -> C) (A : 'M[C]_(m, n)) : 'M[C]_(m, n) :=
  \matrix_(i, j) (d i * A i j * (e j)^*).
Definition one n : 'I_n -> C := fun=> 1.
Definition cj n (d : 'I_n -> C) : 'I_n -> C := fun i => (d i)^*.

Lemma rotE m n (d : 'I_m -> C) (e : 'I_n -> C) (A : 'M[C]_(m, n)) i j : rot d e A i j = d i * A i j * (e j)^*.
Proof. by rewrite mxE. Qed.
Lemma uni_mul n (d : 'I_n -> C) i : unimod d -> (d i)^* * d i = 1.
Proof. by move=> h; rewrite mulrC -normCK h expr1n. Qed.
Lemma uni_mulr n (d : 'I_n -> C) i : unimod d -> d i * (d i)^* = 1.
Proof. by move=> h; rewrite -normCK h expr1n. Qed.
Lemma uni_one n : unimod (@one n).
Proof. by move=> i; rewrite normr1. Qed.
Lemma uni_cj n (d : 'I_n -> C) : unimod d -> unimod (cj d).
Proof. by move=> h i; rewrite norm_conjC. Qed.
Lemma uni_neq0 n (d : 'I_n -> C) i : unimod d -> d i != 0.
Proof. by move=> h; rewrite -normr_eq0 h oner_eq0. Qed.

Lemma rotM m n p (d : 'I_m -> C) (e : 'I_n -> C) (k : 'I_p -> C) (A : 'M[C]_(m, n)) (B : 'M[C]_(n, p)) :
  unimod e -> rot d e A *m rot e k B = rot d k (A *m B).
Proof.
move=> h; apply/matrixP=> i j; rewrite !mxE mulr_sumr mulr_suml; apply: eq_bigr => l _.
rewrite !mxE -!mulrA; congr (_ * (_ * _)); rewrite mulrA; by rewrite uni_mul ?mul1r.
Qed.
Lemma rotD m n (d : 'I_m -> C) (e : 'I_n -> C) (A B : 'M[C]_(m, n)) : rot d e (A + B) = rot d e A + rot d e B.
Proof. by apply/matrixP=> i j; rewrite !mxE mulrDr mulrDl. Qed.
Lemma rotN m n (d : 'I_m -> C) (e : 'I_n -> C) (A : 'M[C]_(m, n)) : rot d e (- A) = - rot d e A.
Proof. by apply/matrixP=> i j; rewrite !mxE mulrN mulNr. Qed.
Lemma rotB m n (d : 'I_m -> C) (e : 'I_n -> C) (A B : 'M[C]_(m, n)) : rot d e (A - B) = rot d e A - rot d e B.
Proof. by rewrite rotD rotN. Qed.
Lemma rot0 m n (d : 'I_m -> C) (e : 'I_n -> C) : rot d e 0 = 0.
Proof. by apply/matrixP=> i j; rewrite !mxE mulr0 mul0r. Qed.
Lemma rotZ m n (d : 'I_m -> C) (e : 'I_n -> C) a (A : 'M[C]_(m, n)) : rot d e (a *: A) = a *: rot d e A.
Proof. by apply/matrixP=> i j; rewrite !mxE !mulrA [d i * a]mulrC. Qed.
Lemma rot_sum m n (I : finType) (d : 'I_m -> C) (e : 'I_n -> C) (F : I -> 'M[C]_(m, n)) :
  rot d e (\sum_t F t) = \sum_t rot d e (F t).
Proof. by apply: (big_morph (rot d e)); [exact: rotD|exact: rot0]. Qed.
Lemma ctr_rot m n (d : 'I_m -> C) (e : 'I_n -> C) (A : 'M[C]_(m, n)) : ctr (rot d e A) = rot e d (ctr A).
Proof. by apply/matrixP=> i j; rewrite !mxE !rmorphM conjCK mulrC [X in _ * X]mulrC mulrA. Qed.
Lemma tr_rot m n (d : 'I_m -> C) (e : 'I_n -> C) (A : 'M[C]_(m, n)) : (rot d e A)^T = rot (cj e) (cj d) A^T.
Proof. by apply/matrixP=> i j; rewrite !mxE conjCK /cj mulrC [X in _ * X]mulrC mulrA. Qed.
Lemma rot1 n (d : 'I_n -> C) : unimod d -> rot d d 1%:M = 1%:M.
Proof.
move=> h; apply/matrixP=> i j; rewrite !mxE; case: eqP => [->|_]; last by rewrite mulr0 mul0r.
by rewrite mulr1 uni_mulr.
Qed.
Lemma rotK m n (d : 'I_m -> C) (e : 'I_n -> C) (A : 'M[C]_(m, n)) : unimod d -> unimod e ->
  rot (cj d) (cj e) (rot d e A) = A.
Proof.
move=> hd he; apply/matrixP=> i j; rewrite !mxE conjCK /cj -!mulrA [(e j)^* * _]uni_mul // mulr1.
by rewrite mulrA uni_mul ?mul1r.
Qed.
Lemma rot_unit n (d : 'I_n -> C) (A : 'M[C]_n) : unimod d -> (rot d d A \in unitmx) = (A \in unitmx).
Proof.
move=> h; suff H (B : 'M[C]_n) (e : 'I_n -> C) : unimod e -> B \in unitmx -> rot e e B \in unitmx.
  apply/idP/idP => [/(H _ (cj d) (uni_cj h))|]; last exact: H.
  by rewrite rotK.
move=> he hB; suff : rot e e B *m rot e e (invmx B) = 1%:M by case/mulmx1_unit.
by rewrite rotM // mulmxV // rot1.
Qed.
Lemma rot_inv n (d : 'I_n -> C) (A : 'M[C]_n) : unimod d -> invmx (rot d d A) = rot d d (invmx A).
Proof.
move=> h; case hA: (A \in unitmx); last by rewrite /invmx rot_unit // hA.
have hr : rot d d A \in unitmx by rewrite rot_unit.
by apply: (can_inj (mulKmx hr)); rewrite mulmxV // rotM // mulmxV // rot1.
Qed.
Lemma rot_solve n k (d : 'I_n -> C) (e : 'I_k -> C) (A : 'M[C]_n) (B : 'M[C]_(n, k)) : unimod d ->
  torch_solve (rot d d A) (rot d e B) = rmap (rot d e) (torch_solve A B).
Proof. by move=> h; rewrite /torch_solve rot_unit //; case: ifP => // hA /=; rewrite rot_inv // rotM. Qed.

Lemma norm_rot m n (d : 'I_m -> C) (e : 'I_n -> C) (A : 'M[C]_(m, n)) i j : unimod d -> unimod e ->
  `|rot d e A i j| = `|A i j|.
Proof. by move=> hd he; rewrite rotE !normrM norm_conjC hd he mul1r mulr1. Qed.
Lemma mag_sq_norm (x y : C) : `|x| = `|y| -> mag_sq x = mag_sq y.
Proof. by rewrite !mag_sqE => ->. Qed.
Lemma rot_row_weight m n (d : 'I_m -> C) (e : 'I_n -> C) (A : 'M[C]_(m, n)) eps i : unimod d -> unimod e ->
  row_weight (rot d e A) eps i = row_weight A eps i.
Proof.
move=> hd he; rewrite /row_weight (eq_bigr (fun j => `|A i j| ^+ 2)) // => j _; by rewrite norm_rot.
Qed.
Lemma rot_slg m n k (p : 'I_m -> C) (q : 'I_n -> C) (r : 'I_k -> C) (A : 'M[C]_(m, n)) (b : 'M[C]_(m, k)) load eps :
  unimod p -> unimod q ->
  solve_loaded_general (rot p q A) (rot p r b) load eps = rmap (rot q r) (solve_loaded_general A b load eps).
Proof.
move=> hp hq; rewrite !slgE.
set A2 := \matrix_(i, j) (rot p q A i j * _); set A1 := \matrix_(i, j) (A i j * _).
set b2 := \matrix_(i, j) (rot p r b i j * _); set b1 := \matrix_(i, j) (b i j * _).
have -> : A2 = rot p q A1 by apply/matrixP=> i j; rewrite !mxE rot_row_weight // [in RHS]mulrA; exact: mulrAC.
have -> : b2 = rot p r b1 by apply/matrixP=> i j; rewrite !mxE rot_row_weight // [in RHS]mulrA; exact: mulrAC.
rewrite ctr_rot !rotM //.
have e : load%:M = rot q q load%:M by rewrite -scalemx1 rotZ rot1.
by rewrite [X in _ + X]e -rotD rot_solve.
Qed.
End Rot.
