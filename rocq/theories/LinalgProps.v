(* Properties C08-C14 (torchiva/linalg.py). *)
From Coq Require Import Ring Field.
From mathcomp Require Import all_ssreflect all_algebra.
From Verif Require Import CAlg Py LinalgModel LinalgSpec LinalgProofs LinalgBridge LinalgUnit.
Set Implicit Arguments. Unset Strict Implicit. Unset Printing Implicit Defensive.
Import GRing.Theory Num.Theory Order.TTheory.
Local Open Scope ring_scope.


(* ------------------------------------------------------------------- C08 *)
(* solve_loaded_general never raises and returns, column by column, the unique
   minimiser of the regularised objective; A may be rectangular or singular. *)

Theorem c08_solve_loaded_general_optimal (C : numClosedFieldType) m n k
    (A : 'M[C]_(m,n)) (b : 'M[C]_(m,k)) (load eps : C) :
  0 < load -> 0 < eps ->
  exists x, solve_loaded_general A b load eps = Ok x /\
    forall (c : 'I_k) (y : 'cV[C]_n), y != col c x ->
      rls_objective A (col c b) load eps (col c x) < rls_objective A (col c b) load eps y.
Proof. exact: c08_lemma. Qed.
Print Assumptions c08_solve_loaded_general_optimal.

(* a singular system: A = 0 with right-hand side 1 is solved (by 0) *)
Example c08_example (C : numClosedFieldType) :
  (0 : 'M[C]_2) \notin unitmx /\
  exists x, solve_loaded_general (0 : 'M[C]_2) (const_mx 1 : 'cV[C]_2) 1 1 = Ok x /\ x = 0.
Proof.
split; first by rewrite unitmxE det0 unitr0.
rewrite slg_ok ?ltr01 //; eexists; split; first by [].
have z : (\matrix_(i, j) ((0 : 'M[C]_2) i j * row_weight (0 : 'M[C]_2) 1 i)) = 0 :> 'M[C]_2.
  by apply/matrixP=> i j; rewrite !mxE mul0r.
by rewrite z ctr0 [0 *m \matrix_(_, _) _]mul0mx mulmx0.
Qed.

(* ------------------------------------------------------------------- C09 *)

Theorem c09_solve_loaded_psd (C : numClosedFieldType) n k
    (A : 'M[C]_n) (b : 'M[C]_(n,k)) (load : C) :
  (0 < n)%N -> psd A -> 0 < load ->
  exists l x y, [/\ solve_loaded A b load = Ok x, inv_loaded A load = Ok y,
    is_load A load l,
    solves (A + l%:M) b x /\ (forall x', solves (A + l%:M) b x' -> x' = x)
    & (A + l%:M) *m y = 1%:M /\ y *m (A + l%:M) = 1%:M].
Proof. exact: c09_lemma. Qed.
Print Assumptions c09_solve_loaded_psd.

(* without positive semidefiniteness the loading can make the system singular *)
Theorem c09_indefinite_refuted (C : numClosedFieldType) (load : C) : 0 < load -> load <= 1 ->
  solve_loaded (- load%:M : 'M[C]_1) (1%:M : 'M[C]_1) load = Err LinAlgError
  /\ herm (- load%:M : 'M[C]_1).
Proof. exact: c09_ref. Qed.
Print Assumptions c09_indefinite_refuted.

(* an empty matrix raises (max over an empty dimension) *)
Theorem c09_empty (C : numClosedFieldType) k (A : 'M[C]_0) (b : 'M[C]_(0,k)) load :
  solve_loaded A b load = Err IndexError.
Proof. by []. Qed.
Print Assumptions c09_empty.

Example c09_example (C : numClosedFieldType) : psd (const_mx 1 : 'M[C]_2) /\ (const_mx 1 : 'M[C]_2) \notin unitmx.
Proof.
split.
  have -> : (const_mx 1 : 'M[C]_2) = (const_mx 1 : 'cV[C]_2) *m ctr (const_mx 1 : 'cV[C]_2).
    by apply/matrixP=> i j; rewrite !mxE big_ord1 !mxE rmorph1 mulr1.
  exact: psd_outer.
by rewrite unitmxE detE /det2 !mxE mulr1 subrr unitr0.
Qed.

(* ------------------------------------------------------------------- C10 *)
Theorem c10_inv_2x2 (C : numClosedFieldType) (W : 'M[C]_2) (eps : C) : 0 < eps ->
  eps <= `|\det W| -> inv_2x2 W eps *m W = 1%:M /\ W *m inv_2x2 W eps = 1%:M.
Proof. rewrite detE; exact: inv_2x2_inv. Qed.
Print Assumptions c10_inv_2x2.

(* also for singular W: no division by anything smaller than eps *)
Theorem c10_inv_2x2_total (C : numClosedFieldType) (W : 'M[C]_2) (eps : C) : 0 < eps ->
  exists d, [/\ eps <= `|d|, (eps <= `|\det W| -> d = \det W) & inv_2x2 W eps = d^-1 *: \adj W].
Proof. exact: c10_lemma. Qed.
Print Assumptions c10_inv_2x2_total.
Example c10_example (C : numClosedFieldType) : let W : 'M[C]_2 := mx22 1 'i 0 2%:R in
  (1 : C) <= `|\det W|.
Proof. by rewrite /= detE /det2 !mxE /= mulr0 subr0 mul1r normr_nat ler1n. Qed.

(* ------------------------------------------------------------------- C11 *)

(* When no clamp is active: ascending real eigenvalues, the eigen equation for
   both columns, norm at most 1; a column is zero exactly when (1, 0) is an
   eigenvector for that eigenvalue. *)
Theorem c11_geigh_2x2 (C : numClosedFieldType) (A B : 'M[C]_2) (eps : C) :
  herm A -> pd B -> 0 <= eps -> eps <= \det B -> eps <= pencil_disc A B ->
  exists (ev : 'I_2 -> C) (V : 'M[C]_2), geigh_2x2 A B eps = (ev, V) /\
  [/\ (forall k, ev k \is Num.real), ev 0 <= ev 1,
      (forall k, eigenpair A B (ev k) (col k V)),
      (forall k, \sum_i `|V i k| ^+ 2 <= 1) &
      (forall k, 0 < eps \/ ~ eigenpair A B (ev k) (e1 C) -> (col k V = 0 <-> eigenpair A B (ev k) (e1 C)))].
Proof. exact: c11_lemma. Qed.
Print Assumptions c11_geigh_2x2.
(* a column has unit norm unless its normalisation is clamped: the residual of (1, 0) for
   that eigenvalue is then shorter than eps *)
Theorem c11_unit_norm (C : numClosedFieldType) (A B : 'M[C]_2) (eps : C) (k : 'I_2) :
  herm A -> pd B -> 0 <= eps -> eps <= \det B -> eps <= pencil_disc A B ->
  let r := (A - (geigh_2x2 A B eps).1 k *: B) *m e1 C in
  r != 0 -> eps ^+ 2 <= \sum_i `|r i 0| ^+ 2 -> \sum_i `|(geigh_2x2 A B eps).2 i k| ^+ 2 = 1.
Proof. exact: c11_unit. Qed.
Print Assumptions c11_unit_norm.
(* with eps = 0 the two clamp hypotheses of the previous theorems always hold *)
Theorem c11_no_clamp_at_zero (C : numClosedFieldType) (A B : 'M[C]_2) : herm A -> pd B ->
  0 <= pencil_disc A B /\ 0 < \det B.
Proof. exact: c11_disc. Qed.
Print Assumptions c11_no_clamp_at_zero.
(* for diagonal matrices one of the two returned "eigenvectors" is always zero *)
Theorem c11_diagonal_zero_column (C : numClosedFieldType) (A B : 'M[C]_2) (eps : C) :
  herm A -> pd B -> A 0 1 = 0 -> B 0 1 = 0 ->
  0 < eps -> eps <= \det B -> eps <= pencil_disc A B ->
  exists k, col k (geigh_2x2 A B eps).2 = 0.
Proof. exact: c11_diag_lemma. Qed.
Print Assumptions c11_diagonal_zero_column.
(* the hypotheses of c11_geigh_2x2 hold for A = [[2, i], [-i, 3]], B = I *)
Example c11_example (C : numClosedFieldType) : let A : 'M[C]_2 := mx22 2%:R 'i (- 'i) 3%:R in
  [/\ herm A, pd (1%:M : 'M[C]_2), (1 : C) <= \det (1%:M : 'M[C]_2) & (1 : C) <= pencil_disc A 1%:M].
Proof.
split.
- apply/matrixP; apply: ord2P; apply: ord2P; rewrite ctrE !mxE /= ?rmorphN ?conjCi ?opprK //;
    by rewrite conj_Creal // realn.
- split; first exact: ctr1.
  by move=> v v0; rewrite qf1 nrm2_gt0.
- by rewrite det1.
- rewrite c12_disc /edelta !mxE /= mulrN -expr2 sqrCi opprK mulr1.
  have -> : 2%:R - 3%:R = -1 :> C by rewrite -opprB -natrB.
  by rewrite sqrrN expr1n ler_addl ler0n.
Qed.

(* ------------------------------------------------------------------- C12 *)
(* eigh_2x2(A): the eigenvalues are right, and the columns are eigenvectors of
   the entrywise conjugate of A. *)
Theorem c12_eigh_2x2_conjugate (C : numClosedFieldType) (A : 'M[C]_2) (eps : C) :
  herm A -> 0 <= eps -> eps <= pencil_disc A 1%:M ->
  exists (ev : 'I_2 -> C) (V : 'M[C]_2), eigh_2x2 A eps = (ev, V) /\
  [/\ (forall k, ev k \is Num.real), ev 0 <= ev 1, (forall k, \det (A - (ev k)%:M) = 0)
    & forall k, eigenpair (map_mx conjC A) 1%:M (ev k) (col k V)].
Proof. exact: c12_lemma. Qed.
Print Assumptions c12_eigh_2x2_conjugate.
(* real symmetric A (real off-diagonal): the eigen equation holds *)
Theorem c12_eigh_2x2_real (C : numClosedFieldType) (A : 'M[C]_2) (eps : C) k :
  herm A -> 0 <= eps -> eps <= pencil_disc A 1%:M -> A 0 1 \is Num.real ->
  eigenpair A 1%:M ((eigh_2x2 A eps).1 k) (col k (eigh_2x2 A eps).2).
Proof. exact: c12_real_lemma. Qed.
Print Assumptions c12_eigh_2x2_real.
(* non-real off-diagonal: no returned column is an eigenvector of A *)
Theorem c12_eigh_2x2_complex_refuted (C : numClosedFieldType) (A : 'M[C]_2) (eps : C) k :
  herm A -> 0 <= eps -> eps <= pencil_disc A 1%:M -> A 0 1 \isn't Num.real ->
  ~ eigenpair A 1%:M ((eigh_2x2 A eps).1 k) (col k (eigh_2x2 A eps).2).
Proof. exact: c12_ref_lemma. Qed.
Print Assumptions c12_eigh_2x2_complex_refuted.
(* the discriminant hypothesis is automatic for eps = 0 *)
Theorem c12_disc_nonneg (C : numClosedFieldType) (A : 'M[C]_2) : herm A -> 0 <= pencil_disc A 1%:M.
Proof. exact: c12_disc_ge0. Qed.
Print Assumptions c12_disc_nonneg.
(* diagonal A with decreasing diagonal: both columns are zero *)
Theorem c12_diagonal_zero (C : numClosedFieldType) (A : 'M[C]_2) (eps : C) :
  herm A -> A 0 1 = 0 -> A 1 1 < A 0 0 -> 0 < eps -> eps <= pencil_disc A 1%:M ->
  col 0 (eigh_2x2 A eps).2 = 0 /\ col 1 (eigh_2x2 A eps).2 = 0.
Proof. exact: c12_diag_lemma. Qed.
Print Assumptions c12_diagonal_zero.
Example c12_example (C : numClosedFieldType) : let A : 'M[C]_2 := mx22 2%:R 'i (- 'i) 3%:R in
  herm A /\ (1 : C) <= pencil_disc A 1%:M /\ A 0 1 \isn't Num.real.
Proof.
have [h _ _ p] := c11_example C; split=> //; split=> //.
rewrite -i0E -i1E !mxE /=; apply/negP=> /CrealP; rewrite conjCi => /eqP.
by rewrite eq_sym -subr_eq0 opprK -mulr2n mulrn_eq0 /= (negbTE (neq0Ci C)).
Qed.

(* ------------------------------------------------------------------- C13 *)
Theorem c13_geigh (C : numClosedFieldType) n (eighO : eigh_oracle C n) (A B : 'M[C]_n) :
  eigensolver eighO -> herm A -> herm B ->
  (forall v : 'cV[C]_n, 10%:R ^- 5 * (\sum_i `|v i 0| ^+ 2) <= (ctr v *m B *m v) 0 0) ->
  exists (ev : 'I_n -> C) (V : 'M[C]_n), geigh_n eighO A B = (ev, V) /\
  [/\ (forall i, ev i \is Num.real), (forall i j : 'I_n, (i <= j)%N -> ev i <= ev j),
      (forall i, eigenpair A B (ev i) (col i V)), V \in unitmx
    & forall i j : 'I_n, i != j -> (ctr V *m B *m V) i j = 0].
Proof. exact: c13_lemma. Qed.
Print Assumptions c13_geigh.
(* the dispatch of eigh: sizes other than 2 use the oracle, size 2 the closed form *)
Theorem c13_dispatch (C : numClosedFieldType) (eighO : forall n, eigh_oracle C n) :
  [/\ (forall A : 'M[C]_2, eigh eighO A = eigh_2x2 A (10%:R ^- 15)),
      (forall A B : 'M[C]_2, geigh eighO A B = geigh_2x2 A B (10%:R ^- 15)),
      (forall n (A : 'M[C]_n.+3), eigh eighO A = eighO n.+3 A)
    & (forall n (A B : 'M[C]_n.+3), geigh eighO A B = geigh_n (eighO n.+3) A B)].
Proof. by []. Qed.
Print Assumptions c13_dispatch.

(* ------------------------------------------------------------------- C14 *)
Theorem c14_multiply (C : numClosedFieldType) (s1 s2 : scalar C) :
  sval (multiply s1 s2) = sval s1 * sval s2.
Proof. exact: multiplyE. Qed.
Print Assumptions c14_multiply.
Theorem c14_bmm (C : numClosedFieldType) m n p (A : 'M[C]_(m,n)) (B : 'M[C]_(n,p)) : bmm A B = A *m B.
Proof. exact: bmmE. Qed.
Print Assumptions c14_bmm.
Theorem c14_mag_sq (C : numClosedFieldType) (x : C) : mag_sq x = `|x| ^+ 2 /\ mag x = `|x|.
Proof. by split; [exact: mag_sqE|exact: magE]. Qed.
Print Assumptions c14_mag_sq.
Theorem c14_hermite (C : numClosedFieldType) m n p (A : 'M[C]_(m,n)) (B : 'M[C]_(n,p)) :
  [/\ forall i j, hermite A i j = (A j i)^*, hermite (hermite A) = A
    & hermite (A *m B) = hermite B *m hermite A].
Proof. by split; [exact: ctrE|exact: hermiteK|exact: ctrM]. Qed.
Print Assumptions c14_hermite.
Theorem c14_divide (C : numClosedFieldType) (denom eps : C) : denom \is Num.real -> 0 < eps ->
  (exists d, [/\ 0 < d, eps <= d & forall num, divide num denom eps = num / d])
  /\ (eps <= denom -> forall num, divide num denom eps = num / denom).
Proof. by split; [exact: divide_den|move=> h num; exact: divideE]. Qed.
Print Assumptions c14_divide.
Example c14_example (C : numClosedFieldType) :
  sval (multiply (Real_ (2%:R : C)) (Cplx_ (1 + 'i))) = 2%:R * (1 + 'i).
Proof. by rewrite multiplyE /= (Creal_ReP _ _) ?realn. Qed.

(* diagonal_loading raises for every argument (undefined global name) *)
Theorem c14_diagonal_loading_raises (C : numClosedFieldType) n (A : 'M[C]_n) d :
  diagonal_loading A d = Err NameError.
Proof. by []. Qed.
Print Assumptions c14_diagonal_loading_raises.
