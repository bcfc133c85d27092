From Coq Require Import Ring Field.
From mathcomp Require Import all_ssreflect all_algebra.
From Verif Require Import CAlg Py LinalgModel.
Set Implicit Arguments. Unset Strict Implicit. Unset Printing Implicit Defensive.
Import GRing.Theory Num.Theory Order.TTheory.
Local Open Scope ring_scope.

Section LP.
Variable C : numClosedFieldType.
Add Field CfieldLP : (f_ft C).
Ltac cring := fpre; fnorm C; fatoms; ring.
Ltac cfield := fpre; fnorm C; fatoms; field.

(* ---- scalars *)
Lemma mag_sqE (x : C) : mag_sq x = `|x| ^+ 2.
Proof. by rewrite /mag_sq normC2_Re_Im. Qed.
Lemma magE (x : C) : mag x = `|x|.
Proof. by rewrite /mag mag_sqE sqrCK. Qed.
Lemma mag_sqM (x : C) : mag_sq x = x * x^*.
Proof. by rewrite mag_sqE normCK. Qed.
Lemma mag_sq_real (x : C) : 'Im x = 0 -> mag_sq x = 'Re x ^+ 2.
Proof. by rewrite /mag_sq => ->; rewrite expr0n addr0. Qed.

Lemma multiplyE (s1 s2 : scalar C) : sval (multiply s1 s2) = sval s1 * sval s2.
Proof.
case: s1 s2 => [x|z] [y|w] //=.
- by rewrite (Creal_ReP _ _) // realM // Creal_Re.
- rewrite {3}[w]Crect; cring.
- rewrite {3}[z]Crect; cring.
Qed.
Lemma divideE (num denom eps : C) : eps <= denom -> divide num denom eps = num / denom.
Proof. by move=> h; rewrite /divide clamp_id. Qed.
Lemma divide_den (denom eps : C) : denom \is Num.real -> 0 < eps ->
  exists d, [/\ 0 < d, eps <= d & forall num, divide num denom eps = num / d].
Proof.
move=> r e0; exists (clamp denom eps); split=> //; first exact: clamp_gt0.
by apply: clamp_ge => //; apply: gtr0_real.
Qed.

Lemma reM_re m n (A : 'M[C]_(m,n)) : A = reM A + 'i *: imM A.
Proof. by apply/matrixP=> i j; rewrite !mxE -Crect. Qed.
Lemma bmmE m n p (A : 'M[C]_(m,n)) (B : 'M[C]_(n,p)) : bmm A B = A *m B.
Proof.
rewrite {2}(reM_re A) {2}(reM_re B) mulmxDl !mulmxDr -!scalemxAl -!scalemxAr scalerA.
have -> : 'i * 'i = -1 :> C by rewrite -expr2 sqrCi.
rewrite /bmm; move: (reM A *m reM B) (imM A *m imM B) (reM A *m imM B) (imM A *m reM B).
move=> a b c d; apply/matrixP=> i j; rewrite !mxE; cring.
Qed.
Lemma hermiteE m n (A : 'M[C]_(m,n)) : hermite A = ctr A.
Proof. by []. Qed.
Lemma hermiteK m n (A : 'M[C]_(m,n)) : hermite (hermite A) = A.
Proof. exact: ctrK. Qed.

(* ---- torch_solve *)
Lemma torch_solveE n k (A : 'M[C]_n) (B : 'M[C]_(n,k)) :
  A \in unitmx -> torch_solve A B = Ok (invmx A *m B).
Proof. by rewrite /torch_solve => ->. Qed.
Lemma torch_solve_pd n k (A : 'M[C]_n) (B : 'M[C]_(n,k)) :
  pd A -> torch_solve A B = Ok (invmx A *m B).
Proof. by move/pd_unit/torch_solveE. Qed.
Lemma torch_solveP n k (A : 'M[C]_n) (B x : 'M[C]_(n,k)) :
  torch_solve A B = Ok x -> A \in unitmx /\ A *m x = B.
Proof. by rewrite /torch_solve; case: ifP => // u [<-]; rewrite mulKVmx. Qed.

(* ---- max_abs, load factor *)
Lemma bigmax_ge0 (I : Type) (r : seq I) (F : I -> C) :
  (forall i, 0 <= F i) -> 0 <= \big[Num.max/0]_(i <- r) F i.
Proof.
move=> h; elim/big_rec: _ => // i x _ x0.
by rewrite /Order.max; case: ifP.
Qed.
Lemma bigmax_geE (I : eqType) (r : seq I) (F : I -> C) i :
  (forall i, 0 <= F i) -> i \in r -> F i <= \big[Num.max/0]_(i <- r) F i.
Proof.
move=> h; elim: r => // j r IH; rewrite inE big_cons => /orP [/eqP->|/IH le].
  have r1 := ger0_real (h j). have r2 := ger0_real (bigmax_ge0 r h).
  by rewrite /Order.max; case: (real_ltP r1 r2) => // /ltW.
have r1 := ger0_real (h j). have r2 := ger0_real (bigmax_ge0 r h).
rewrite /Order.max; case: (real_ltP r1 r2) => //.
by move=> h2; apply: le_trans le h2.
Qed.
Lemma max_abs_ge0 n (A : 'M[C]_n) : 0 <= max_abs A.
Proof. by apply: bigmax_ge0 => j; apply: bigmax_ge0 => i. Qed.
Lemma max_abs_ge n (A : 'M[C]_n) i j : `|A i j| <= max_abs A.
Proof.
apply: (@le_trans _ _ (\big[Num.max/0]_(i0 < n) `|A i0 j|)).
  by apply: (@bigmax_geE _ _ (fun i => `|A i j|)); rewrite ?mem_index_enum.
apply: (@bigmax_geE _ _ (fun j => \big[Num.max/0]_(i0 < n) `|A i0 j|)).
  by move=> k; apply: bigmax_ge0.
by rewrite mem_index_enum.
Qed.
Lemma load_factor_ge n (A : 'M[C]_n) load : 0 < load -> load <= load_factor A load.
Proof.
move=> l0; apply: clamp_ge; last exact: gtr0_real.
by apply: ger0_real; apply: mulr_ge0; [exact: ltW|exact: max_abs_ge0].
Qed.
Lemma load_factor_gt0 n (A : 'M[C]_n) load : 0 < load -> 0 < load_factor A load.
Proof. by move=> l0; apply: lt_le_trans l0 (load_factor_ge A l0). Qed.
Lemma load_factor_max n (A : 'M[C]_n) load i j :
  0 < load -> load * `|A i j| <= load_factor A load.
Proof.
move=> l0; apply: (@le_trans _ _ (load * max_abs A)).
  by apply: ler_wpmul2l; [exact: ltW|exact: max_abs_ge].
apply: clamp_geR; last exact: gtr0_real.
by apply: ger0_real; apply: mulr_ge0; [exact: ltW|exact: max_abs_ge0].
Qed.

Lemma pd_loaded n (A : 'M[C]_n) load : psd A -> 0 < load ->
  pd (A + load_factor A load *: 1%:M).
Proof.
by move=> hA l0; rewrite scalemx1; apply: pd_load => //; apply: load_factor_gt0.
Qed.
Lemma solve_loaded_psd n k (A : 'M[C]_n) (b : 'M[C]_(n,k)) load :
  (0 < n)%N -> psd A -> 0 < load ->
  solve_loaded A b load = Ok (invmx (A + load_factor A load *: 1%:M) *m b).
Proof.
move=> n0 hA l0; rewrite /solve_loaded gtn_eqF //.
by rewrite torch_solve_pd //; apply: pd_loaded.
Qed.
Lemma inv_loaded_psd n (A : 'M[C]_n) load :
  (0 < n)%N -> psd A -> 0 < load ->
  inv_loaded A load = Ok (invmx (A + load_factor A load *: 1%:M)).
Proof.
move=> n0 hA l0; rewrite /inv_loaded gtn_eqF // /torch_inv.
by rewrite (pd_unit (pd_loaded hA l0)).
Qed.

(* ---- solve_loaded_general *)
Section SLG.
Variables (m n k : nat) (A : 'M[C]_(m,n)) (b : 'M[C]_(m,k)) (load eps : C).
Let w i := row_weight A eps i.
Let A2 : 'M[C]_(m,n) := \matrix_(i, j) (A i j * w i).
Let b2 : 'M[C]_(m,k) := \matrix_(i, j) (b i j * w i).
Lemma slg_gram : (\matrix_(i, j) \sum_r (A2 r i)^* * A2 r j) = ctr A2 *m A2.
Proof. by apply/matrixP=> i j; rewrite !mxE; apply: eq_bigr => r _; rewrite ctrE. Qed.
Lemma slg_rhs : (\matrix_(i, j) \sum_r (A2 r i)^* * b2 r j) = ctr A2 *m b2.
Proof. by apply/matrixP=> i j; rewrite !mxE; apply: eq_bigr => r _; rewrite ctrE. Qed.
Lemma slgE : solve_loaded_general A b load eps
  = torch_solve (ctr A2 *m A2 + load%:M) (ctr A2 *m b2).
Proof. by rewrite /solve_loaded_general slg_gram slg_rhs scalemx1. Qed.
Lemma slg_pd : 0 < load -> pd (ctr A2 *m A2 + load%:M).
Proof. by apply: pd_load; apply: psd_gram. Qed.
Lemma slg_ok : 0 < load -> solve_loaded_general A b load eps
  = Ok (invmx (ctr A2 *m A2 + load%:M) *m (ctr A2 *m b2)).
Proof. by move=> l0; rewrite slgE torch_solve_pd //; apply: slg_pd. Qed.
End SLG.

Lemma row_weight_gt0 m n (A : 'M[C]_(m,n)) eps i : 0 < eps -> 0 < row_weight A eps i.
Proof.
move=> e0; rewrite /row_weight divr_gt0 ?ltr01 //; apply: clamp_gt0 => //.
apply: ger0_real; rewrite sqrtC_ge0; apply: sumr_ge0 => j _; exact: exprn_ge0.
Qed.
Lemma row_weight_real m n (A : 'M[C]_(m,n)) eps i : 0 < eps -> row_weight A eps i \is Num.real.
Proof. by move=> e0; apply: gtr0_real; apply: row_weight_gt0. Qed.

(* least-squares identity: ||A2 x - b2||^2 + load ||x||^2 as a quadratic form *)
Lemma ls_expand m n (A : 'M[C]_(m,n)) (b : 'cV[C]_m) load (x : 'cV[C]_n) :
  nrm2 (A *m x - b) + load * nrm2 x
  = qf (ctr A *m A + load%:M) x - (ctr x *m (ctr A *m b)) 0 0
    - (ctr (ctr A *m b) *m x) 0 0 + nrm2 b.
Proof.
rewrite qfD qf_scalar qf_gram [nrm2 (_ - _)]nrm2_ctr ctrB mulmxBl !mulmxBr.
rewrite !mxBE -!nrm2_ctr !ctrM ctrK !mulmxA.
move: (nrm2 _) => p; move: (nrm2 _) => q; move: (nrm2 _) => r.
cring.
Qed.
Lemma ls_min m n (A : 'M[C]_(m,n)) (b : 'cV[C]_m) load (x0 x : 'cV[C]_n) :
  0 < load -> (ctr A *m A + load%:M) *m x0 = ctr A *m b ->
  nrm2 (A *m x - b) + load * nrm2 x
  = nrm2 (A *m x0 - b) + load * nrm2 x0 + qf (ctr A *m A + load%:M) (x - x0).
Proof.
move=> l0 e; rewrite !ls_expand.
have h : herm (ctr A *m A + load%:M) by case: (pd_load (psd_gram A) l0).
have := complete_square x h e; set u := ctr A *m b.
move=> ->; cring.
Qed.
Lemma ls_min_lt m n (A : 'M[C]_(m,n)) (b : 'cV[C]_m) load (x0 x : 'cV[C]_n) :
  0 < load -> (ctr A *m A + load%:M) *m x0 = ctr A *m b -> x != x0 ->
  nrm2 (A *m x0 - b) + load * nrm2 x0 < nrm2 (A *m x - b) + load * nrm2 x.
Proof.
move=> l0 e ne; rewrite (ls_min x l0 e) ltr_addl.
by case: (pd_load (psd_gram A) l0) => _; apply; rewrite subr_eq0.
Qed.
Lemma ls_min_le m n (A : 'M[C]_(m,n)) (b : 'cV[C]_m) load (x0 x : 'cV[C]_n) :
  0 < load -> (ctr A *m A + load%:M) *m x0 = ctr A *m b ->
  nrm2 (A *m x0 - b) + load * nrm2 x0 <= nrm2 (A *m x - b) + load * nrm2 x.
Proof.
move=> l0 e; case: (altP (x =P x0)) => [->//|ne]; exact/ltW/ls_min_lt.
Qed.

(* weighted residual as in the specification *)
Lemma slg_resid m n k (A : 'M[C]_(m,n)) (b : 'M[C]_(m,k)) eps (x : 'cV[C]_n) c : 0 < eps ->
  let A2 : 'M[C]_(m,n) := \matrix_(i, j) (A i j * row_weight A eps i) in
  let b2 : 'M[C]_(m,k) := \matrix_(i, j) (b i j * row_weight A eps i) in
  nrm2 (A2 *m x - col c b2)
  = \sum_i (row_weight A eps i) ^+ 2 * `|(A *m x) i 0 - b i c| ^+ 2.
Proof.
move=> e0 A2 b2; apply: eq_bigr => i _.
have w0 := row_weight_gt0 A i e0.
have -> : (A2 *m x - col c b2) i 0 = row_weight A eps i * ((A *m x) i 0 - b i c).
  rewrite !mxE mulrBr big_distrr /=; congr (_ - _); last exact: mulrC.
  by apply: eq_bigr => j _; rewrite mxE; cring.
by rewrite normrM exprMn gtr0_norm.
Qed.

Lemma slg_min m n k (A : 'M[C]_(m,n)) (b : 'M[C]_(m,k)) load eps :
  0 < load -> 0 < eps -> exists x, solve_loaded_general A b load eps = Ok x /\
  forall c (y : 'cV[C]_n), y != col c x ->
  \sum_i (row_weight A eps i) ^+ 2 * `|(A *m col c x) i 0 - b i c| ^+ 2 + load * nrm2 (col c x)
  < \sum_i (row_weight A eps i) ^+ 2 * `|(A *m y) i 0 - b i c| ^+ 2 + load * nrm2 y.
Proof.
move=> l0 e0; rewrite slg_ok //; eexists; split; first by [].
move=> c y ne; rewrite -!slg_resid //; apply: ls_min_lt => //.
rewrite !colE mulmxA mulKVmx; last by apply: pd_unit; apply: slg_pd.
by rewrite mulmxA.
Qed.

(* ---- 2x2 *)
Lemma i01 (i : 'I_2) : (i == i0) || (i == i1).
Proof. by case: i => [[|[|?]] ?]. Qed.
Lemma mx22_00 (a b c d : C) : mx22 a b c d i0 i0 = a.
Proof. by rewrite mxE. Qed.
Lemma mx22_01 (a b c d : C) : mx22 a b c d i0 i1 = b.
Proof. by rewrite mxE. Qed.
Lemma mx22_10 (a b c d : C) : mx22 a b c d i1 i0 = c.
Proof. by rewrite mxE. Qed.
Lemma mx22_11 (a b c d : C) : mx22 a b c d i1 i1 = d.
Proof. by rewrite mxE. Qed.
Lemma sum2 (F : 'I_2 -> C) : \sum_i F i = F i0 + F i1.
Proof. by rewrite !big_ord_recl big_ord0 addr0. Qed.
Lemma mul2E m p (A : 'M[C]_(m,2)) (B : 'M[C]_(2,p)) i j :
  (A *m B) i j = A i i0 * B i0 j + A i i1 * B i1 j.
Proof. by rewrite mxE sum2. Qed.
Lemma matrix22P m (A B : 'M[C]_(2,m)) :
  (forall j, A i0 j = B i0 j) -> (forall j, A i1 j = B i1 j) -> A = B.
Proof. by move=> h0 h1; apply/matrixP=> i j; case/orP: (i01 i) => /eqP->. Qed.
Lemma ord2P (P : 'I_2 -> Prop) : P i0 -> P i1 -> forall i, P i.
Proof. by move=> h0 h1 i; case/orP: (i01 i) => /eqP->. Qed.

Definition det2 (W : 'M[C]_2) := W i0 i0 * W i1 i1 - W i0 i1 * W i1 i0.
Definition adj2 (W : 'M[C]_2) := mx22 (W i1 i1) (- W i0 i1) (- W i1 i0) (W i0 i0).
Lemma inv_2x2_det (W : 'M[C]_2) eps : 0 < eps ->
  exists d, [/\ eps <= `|d|, (eps <= `|det2 W| -> d = det2 W)
             & forall i j, inv_2x2 W eps i j = adj2 W i j / d].
Proof.
move=> e0; exists (if `|det2 W| < eps then eps else det2 W); split.
- have r := gtr0_real e0.
  by case: (real_ltP (normr_real (det2 W)) r) => // _; rewrite gtr0_norm.
- by move=> h; rewrite le_gtF.
- by move=> i j; rewrite mxE.
Qed.
Lemma inv_2x2_inv (W : 'M[C]_2) eps : 0 < eps -> eps <= `|det2 W| ->
  inv_2x2 W eps *m W = 1%:M /\ W *m inv_2x2 W eps = 1%:M.
Proof.
move=> e0 h; have [d [hd /(_ h) dE iE]] := inv_2x2_det W e0.
have d0 : det2 W != 0.
  by rewrite -normr_gt0; apply: lt_le_trans e0 h.
suff e : inv_2x2 W eps *m W = 1%:M by split=> //; apply: mulmx1C.
have /eqP d0' := d0; rewrite /det2 in d0'.
apply/matrixP=> i j; rewrite mxE sum2 !iE dE /det2.
move: i j; apply: ord2P; apply: ord2P; rewrite !mxE /=.
- by cfield; exact: d0'.
- by cfield; exact: d0'.
- by cfield; exact: d0'.
- by cfield; exact: d0'.
Qed.

(* generalized EVD *)
Section G2.
Variables (A B : 'M[C]_2) (eps : C).
Hypotheses (hA : herm A) (hB : herm B).
Definition gdelta (A B : 'M[C]_2) : C :=
  (A i0 i0 * B i1 i1 + A i1 i1 * B i0 i0 - A i0 i1 * B i1 i0 - A i1 i0 * B i0 i1) ^+ 2
  - 4%:R * (det2 A * det2 B).
Lemma herm_diag n (M : 'M[C]_n) i : herm M -> M i i \is Num.real.
Proof.
move=> h; apply/CrealP; move/matrixP/(_ i i): h.
by rewrite ctrE.
Qed.
Lemma herm_off n (M : 'M[C]_n) i j : herm M -> (M i j)^* = M j i.
Proof. by move=> h; rewrite -{2}h ctrE. Qed.
Lemma det2_herm (M : 'M[C]_2) : herm M -> det2 M = 'Re (M i0 i0) * 'Re (M i1 i1) - mag_sq (M i0 i1).
Proof.
move=> h; rewrite /det2 mag_sqM (herm_off _ _ h).
by rewrite !(Creal_ReP _ _) // herm_diag.
Qed.
Definition gtr (A B : 'M[C]_2) : C :=
  A i0 i0 * B i1 i1 + A i1 i1 * B i0 i0 - A i0 i1 * B i1 i0 - A i1 i0 * B i0 i1.
Lemma re_prod (a b : C) : 2%:R * ('Re a * 'Re b + 'Im a * 'Im b) = a * b^* + a^* * b.
Proof.
have ha := Crect a; have hb := Crect b.
have hca : a^* = 'Re a - 'i * 'Im a by rewrite {1}ha rmorphD rmorphM conjCi !conj_Creal ?Creal_Re ?Creal_Im // mulNr.
have hcb : b^* = 'Re b - 'i * 'Im b by rewrite {1}hb rmorphD rmorphM conjCi !conj_Creal ?Creal_Re ?Creal_Im // mulNr.
have hi : 'i * 'i = -1 :> C by rewrite -expr2 sqrCi.
move: hca hcb ha hb; move: ('Re a) ('Im a) ('Re b) ('Im b) (a^*) (b^*) => p q r s ca cb -> -> -> ->.
have -> : (p + 'i * q) * (r - 'i * s) + (p - 'i * q) * (r + 'i * s) = 2%:R * (p * r - ('i * 'i) * (q * s)) by cring.
rewrite hi; cring.
Qed.
Lemma gtrE : 'Re (A i0 i0) * 'Re (B i1 i1) + 'Re (A i1 i1) * 'Re (B i0 i0)
   - 2%:R * ('Re (A i0 i1) * 'Re (B i0 i1) + 'Im (A i0 i1) * 'Im (B i0 i1)) = gtr A B.
Proof.
rewrite re_prod !(herm_off _ _ hA) !(herm_off _ _ hB).
rewrite !(Creal_ReP _ _) ?herm_diag // /gtr; cring.
Qed.
Lemma det2_real (M : 'M[C]_2) : herm M -> det2 M \is Num.real.
Proof.
move=> h; rewrite /det2; apply: rpredB; first by apply: rpredM; apply: herm_diag.
by rewrite -(herm_off i0 i1 h) -normCK rpredX // normr_real.
Qed.
Lemma gtr_real : gtr A B \is Num.real.
Proof.
rewrite -gtrE; apply: rpredB; first by apply: rpredD; apply: rpredM; apply: Creal_Re.
by apply: rpredM; [apply: realn|apply: rpredD; apply: rpredM; rewrite ?Creal_Re ?Creal_Im].
Qed.
Definition gev (s : C) := (1 / 2%:R) * (gtr A B + s * sqrtC (gdelta A B)) / det2 B.

Lemma two_neq0 : 2%:R != 0 :> C. Proof. by rewrite pnatr_eq0. Qed.
Lemma gev_root s : s ^+ 2 = 1 -> det2 B != 0 ->
  let l := gev s in
  (A i0 i0 - l * B i0 i0) * (A i1 i1 - l * B i1 i1) - (A i0 i1 - l * B i0 i1) * (A i1 i0 - l * B i1 i0) = 0.
Proof.
move=> s2 d0 l.
have hl : 2%:R * det2 B * l = gtr A B + s * sqrtC (gdelta A B).
  rewrite /l /gev; move: (gtr A B + _) => X; have h2 := two_neq0.
  by rewrite mul1r -[X in X = _]mulrA [det2 B * _]mulrC mulfVK // mulrA mulfV // mul1r.
have sq : (2%:R * det2 B * l - gtr A B) ^+ 2 = gdelta A B.
  by rewrite hl addrAC subrr add0r exprMn s2 mul1r sqrtCK.
have e : 4%:R * det2 B * ((A i0 i0 - l * B i0 i0) * (A i1 i1 - l * B i1 i1)
     - (A i0 i1 - l * B i0 i1) * (A i1 i0 - l * B i1 i0)) = 0.
  apply/eqP; rewrite -subr_eq0 subr0; apply/eqP.
  have -> : 0 = (2%:R * det2 B * l - gtr A B) ^+ 2 - gdelta A B by rewrite sq subrr.
  rewrite /gdelta /gtr /det2; cring.
apply/eqP; move/eqP: e; rewrite !mulf_eq0 pnatr_eq0 (negbTE d0) /=.
by [].
Qed.

Definition gvec (A B : 'M[C]_2) (l : C) : 'cV[C]_2 :=
  \col_i (if i == i0 then l * B i0 i1 - A i0 i1 else A i0 i0 - l * B i0 i0).

Lemma gvec_eig s : s ^+ 2 = 1 -> det2 B != 0 ->
  A *m gvec A B (gev s) = gev s *: (B *m gvec A B (gev s)).
Proof.
move=> s2 d0; have h := gev_root s2 d0; move: (gev s) h => l h.
apply: matrix22P => j; rewrite mxZE !mul2E !mxE /=; first by cring.
apply/eqP; rewrite -subr_eq0; apply/eqP; rewrite -{}h; cring.
Qed.

Lemma gev_real s : s \is Num.real -> 0 <= gdelta A B -> gev s \is Num.real.
Proof.
move=> sr d0; rewrite /gev; apply: rpredM; last by rewrite rpredV det2_real.
apply: rpredM; first by rewrite mul1r rpredV realn.
by apply: rpredD; [exact: gtr_real|apply: rpredM => //; apply: ger0_real; rewrite sqrtC_ge0].
Qed.
Lemma gev_le : 0 <= gdelta A B -> 0 < det2 B -> gev (-1) <= gev 1.
Proof.
move=> d0 b0; rewrite /gev ler_pmul2r ?invr_gt0 // ler_pmul2l; last first.
  by rewrite mul1r invr_gt0 ltr0n.
by rewrite ler_add2l mulN1r mul1r -subr_ge0 opprK addr_ge0 // sqrtC_ge0.
Qed.
Lemma gdelta_real : gdelta A B \is Num.real.
Proof.
rewrite /gdelta -/(gtr A B) rpredB // ?rpredX ?gtr_real //.
by rewrite rpredM ?realn // rpredM // det2_real.
Qed.
Lemma gdelta_ge0 : 0 < B i0 i0 -> 0 <= det2 B -> 0 <= gdelta A B.
Proof.
move=> b0 d0; pose t := A i0 i1 - A i0 i0 * B i0 i1 / B i0 i0.
have bn : B i0 i0 != 0 by rewrite gt_eqF.
have tc : t^* = A i1 i0 - A i0 i0 * B i1 i0 / B i0 i0.
  rewrite /t rmorphB !rmorphM /= fmorphV /= (herm_off _ _ hA) (herm_off _ _ hB).
  by rewrite !conj_Creal ?herm_diag.
pose s := A i1 i1 - B i1 i0 * A i0 i1 / B i0 i0 - B i0 i1 * A i1 i0 / B i0 i0
          + A i0 i0 * B i0 i1 * B i1 i0 / (B i0 i0 * B i0 i0).
have sr : s \is Num.real.
  have -> : s = A i1 i1 - (B i1 i0 * A i0 i1 + (B i1 i0 * A i0 i1)^*) / B i0 i0
     + A i0 i0 * `|B i0 i1| ^+ 2 / (B i0 i0 * B i0 i0).
    rewrite normCK rmorphM (herm_off _ _ hA) !(herm_off _ _ hB) /s; cfield; exact/eqP.
  apply: rpredD; last first.
    by rewrite rpredM ?rpredV ?rpredM ?rpredX ?herm_diag ?normr_real.
  rewrite rpredB ?herm_diag // rpredM ?rpredV ?herm_diag //.
  by apply/CrealP; rewrite rmorphD conjCK addrC.
have e : gdelta A B = (A i0 i0 * (det2 B / B i0 i0) - s * B i0 i0) ^+ 2
      + 4%:R * `|t| ^+ 2 * det2 B.
  rewrite normCK tc /gdelta /s /t /det2; cfield; exact/eqP.
rewrite e addr_ge0 //.
  rewrite -realEsqr; apply: rpredB; apply: rpredM; rewrite ?herm_diag //.
  by rewrite rpredM ?rpredV ?herm_diag ?det2_real.
by rewrite mulr_ge0 // mulr_ge0 ?ler0n // exprn_ge0.
Qed.
End G2.

Lemma ctr_delta m n i j : ctr (delta_mx i j : 'M[C]_(m,n)) = delta_mx j i.
Proof.
apply/matrixP=> a b; rewrite ctrE !mxE andbC.
by case: (_ && _); rewrite ?rmorph1 ?rmorph0.
Qed.
Lemma qf_delta n (M : 'M[C]_n) i : qf M (delta_mx i 0) = M i i.
Proof. by rewrite /qf ctr_delta -rowE -colE !mxE. Qed.
Lemma delta_neq0 n (i : 'I_n) : delta_mx i 0 != 0 :> 'cV[C]_n.
Proof.
apply/eqP=> /matrixP/(_ i 0); rewrite !mxE !eqxx => /eqP.
by rewrite oner_eq0.
Qed.
Lemma pd_diag n (M : 'M[C]_n) i : pd M -> 0 < M i i.
Proof. by move=> [_ p]; rewrite -qf_delta; apply: p; apply: delta_neq0. Qed.
Lemma psd_diag n (M : 'M[C]_n) i : psd M -> 0 <= M i i.
Proof. by move=> [_ p]; rewrite -qf_delta; apply: p. Qed.
Lemma pd_det2 (M : 'M[C]_2) : pd M -> 0 < det2 M.
Proof.
move=> hM; have m0 := pd_diag i0 hM; have [h p] := hM.
pose v : 'cV[C]_2 := \col_i (if i == i0 then - M i0 i1 else M i0 i0).
have v0 : v != 0.
  apply/eqP=> /matrixP/(_ i1 0); rewrite !mxE /= => e.
  by move: m0; rewrite e ltxx.
have := p v v0.
have -> : qf M v = M i0 i0 * det2 M.
  rewrite /qf !mul2E !ctrE !mxE /= rmorphN !(herm_off _ _ h).
  rewrite /det2; cring.
by rewrite pmulr_rgt0.
Qed.

(* normalisation of columns *)
Lemma nrm2_2 (v : 'cV[C]_2) : nrm2 v = `|v i0 0| ^+ 2 + `|v i1 0| ^+ 2.
Proof. by rewrite /nrm2 sum2. Qed.
Lemma normalize_colsE (V : 'M[C]_2) eps k :
  col k (normalize_cols V eps) = (clamp (sqrtC (nrm2 (col k V))) eps)^-1 *: col k V.
Proof.
apply/matrixP=> i j; rewrite !mxE /divide nrm2_2 !mxE !mag_sqE.
by rewrite mulrC.
Qed.
Lemma nrm2Z n a (v : 'cV[C]_n) : nrm2 (a *: v) = `|a| ^+ 2 * nrm2 v.
Proof. by rewrite -!qf1 qf_vZ. Qed.
Lemma nrm2_normalized n (v : 'cV[C]_n) eps : v != 0 -> eps <= sqrtC (nrm2 v) ->
  nrm2 ((clamp (sqrtC (nrm2 v)) eps)^-1 *: v) = 1.
Proof.
move=> v0 h; rewrite clamp_id // nrm2Z normfV exprVn ger0_norm ?sqrtC_ge0 ?nrm2_ge0 //.
by rewrite sqrtCK mulVf // nrm2_eq0.
Qed.

Section G2main.
Variables (A B : 'M[C]_2) (eps : C).
Hypotheses (hA : herm A) (hB : herm B).
Hypotheses (e0 : 0 <= eps) (dB0 : 0 < det2 B) (dBe : eps <= det2 B) (de : eps <= gdelta A B).
Lemma geigh_2x2E : exists V, geigh_2x2 A B eps =
  ((fun k => if k == i0 then gev A B (-1) else gev A B 1), normalize_cols V eps)
  /\ forall k, col k V = gvec A B (if k == i0 then gev A B (-1) else gev A B 1).
Proof.
have g1 : (1 / 2%:R) * (gtr A B - sqrtC (gdelta A B)) / det2 B = gev A B (-1).
  by rewrite /gev mulN1r.
have g2 : (1 / 2%:R) * (gtr A B + sqrtC (gdelta A B)) / det2 B = gev A B 1.
  by rewrite /gev [1 * sqrtC _]mul1r.
eexists; split.
  rewrite /geigh_2x2 (gtrE hA hB) -!(det2_herm hA) -!(det2_herm hB).
  rewrite (clamp_id dBe) /gdelta -/(gtr A B).
  have := de; rewrite /gdelta -/(gtr A B) => /clamp_id ->.
  rewrite -/(gdelta A B) g1 g2.
  reflexivity.
by move=> k; apply: matrix22P => j; case/orP: (i01 k) => /eqP ->; rewrite !mxE.
Qed.

Let lam k := if k == i0 then gev A B (-1) else gev A B 1.
Lemma gvec0_iff l : l \is Num.real ->
  gvec A B l = 0 <-> A *m delta_mx i0 (0 : 'I_1) = l *: (B *m delta_mx i0 0).
Proof.
move=> lr; rewrite -!colE.
have e0' (x y : C) : x - y = 0 -> x = y by move/eqP; rewrite subr_eq0 => /eqP.
split=> h.
  have := congr1 (fun M : 'cV[C]_2 => M i0 0) h.
  have := congr1 (fun M : 'cV[C]_2 => M i1 0) h.
  rewrite !mxE /= => /e0' h1 /e0' h0.
  apply: matrix22P => j; rewrite !mxE //.
  by rewrite -(herm_off i0 i1 hA) -h0 rmorphM (conj_Creal lr) (herm_off _ _ hB).
have := congr1 (fun M : 'cV[C]_2 => M i0 0) h.
have := congr1 (fun M : 'cV[C]_2 => M i1 0) h.
rewrite !mxE /= => h1 h0.
apply: matrix22P => j; rewrite !mxE /=; last by rewrite h0 subrr.
by rewrite -(herm_off i1 i0 hA) h1 rmorphM (conj_Creal lr) (herm_off _ _ hB) subrr.
Qed.

Lemma geigh_2x2_main : exists (ev : 'I_2 -> C) (V : 'M[C]_2), geigh_2x2 A B eps = (ev, V) /\
  [/\ forall k, ev k \is Num.real, ev i0 <= ev i1,
      (forall k, A *m col k V = ev k *: (B *m col k V)) &
      forall k, exists2 c, 0 <= c & col k V = c *: gvec A B (ev k) /\
        (0 < eps -> 0 < c) /\
        (gvec A B (ev k) != 0 -> 0 < c) /\
        (gvec A B (ev k) != 0 -> eps <= sqrtC (nrm2 (gvec A B (ev k))) -> nrm2 (col k V) = 1)].
Proof.
have [V [-> hV]] := geigh_2x2E; do 2 eexists; split; first by [].
have d0 : 0 <= gdelta A B := le_trans e0 de.
have rl k : lam k \is Num.real by rewrite /lam; case: ifP => _; apply: gev_real; rewrite ?realN ?real1.
have bn : det2 B != 0 by rewrite gt_eqF.
have eig k : A *m gvec A B (lam k) = lam k *: (B *m gvec A B (lam k)).
  by rewrite /lam; case: ifP => _; apply: gvec_eig; rewrite ?sqrrN ?expr1n.
split=> //.
- by rewrite /=; apply: gev_le.
- move=> k; rewrite normalize_colsE hV -/(lam k) -!scalemxAr (eig k).
  by rewrite scalerA mulrC -scalerA.
move=> k; rewrite normalize_colsE hV -/(lam k).
have nr : sqrtC (nrm2 (gvec A B (lam k))) \is Num.real.
  by apply: ger0_real; rewrite sqrtC_ge0 nrm2_ge0.
have c0 : 0 <= clamp (sqrtC (nrm2 (gvec A B (lam k)))) eps.
  by apply: le_trans e0 (clamp_ge nr (ger0_real e0)).
exists (clamp (sqrtC (nrm2 (gvec A B (lam k)))) eps)^-1; first by rewrite invr_ge0.
split=> //; split; first by move=> ep; rewrite invr_gt0; apply: clamp_gt0.
split; last by move=> g0 he; apply: nrm2_normalized.
move=> g0; rewrite invr_gt0.
apply: lt_le_trans (clamp_geR nr (ger0_real e0)).
by rewrite sqrtC_gt0 nrm2_gt0.
Qed.
End G2main.

(* ordinary EVD *)
Section E2.
Variables (A : 'M[C]_2) (eps : C).
Hypotheses (hA : herm A).
Definition edelta (A : 'M[C]_2) : C := (A i0 i0 - A i1 i1) ^+ 2 + 4%:R * (A i0 i1 * A i1 i0).
Lemma edelta_ge0 : 0 <= edelta A.
Proof.
rewrite /edelta -(herm_off i0 i1 hA) -normCK addr_ge0 //.
  by rewrite -realEsqr; apply: rpredB; apply: herm_diag.
by rewrite mulr_ge0 ?ler0n // exprn_ge0.
Qed.
Definition eev (A : 'M[C]_2) s := (1 / 2%:R) * (A i0 i0 + A i1 i1 + s * sqrtC (edelta A)).
Definition evec (A : 'M[C]_2) (k : 'I_2) (l : C) : 'cV[C]_2 :=
  \col_i (if k == i0 then (if i == i0 then l - A i1 i1 else A i0 i1)
          else (if i == i0 then A i1 i0 else l - A i0 i0)).
Hypotheses (e0 : 0 <= eps) (de : eps <= edelta A).
Lemma eigh_2x2E : exists V, eigh_2x2 A eps =
  ((fun k => if k == i0 then eev A (-1) else eev A 1), normalize_cols V eps)
  /\ forall k, col k V = evec A k (if k == i0 then eev A (-1) else eev A 1).
Proof.
have g1 : (1 / 2%:R) * (A i0 i0 + A i1 i1 - sqrtC (edelta A)) = eev A (-1).
  by rewrite /eev mulN1r.
have g2 : (1 / 2%:R) * (A i0 i0 + A i1 i1 + sqrtC (edelta A)) = eev A 1.
  by rewrite /eev [1 * sqrtC _]mul1r.
have d : (A i0 i0 + A i1 i1) ^+ 2 - 4%:R * (A i0 i0 * A i1 i1 - A i0 i1 * A i1 i0) = edelta A.
  by rewrite /edelta; cring.
eexists; split.
  rewrite /eigh_2x2 !(Creal_ReP _ _) ?herm_diag // mag_sqM (herm_off _ _ hA).
  rewrite d (clamp_id de) g1 g2.
  reflexivity.
by move=> k; apply: matrix22P => j; case/orP: (i01 k) => /eqP ->; rewrite !mxE.
Qed.
Lemma eev_root s : s ^+ 2 = 1 ->
  (A i0 i0 - eev A s) * (A i1 i1 - eev A s) = A i0 i1 * A i1 i0.
Proof.
move=> s2; set l := eev A s.
have hl : 2%:R * l - (A i0 i0 + A i1 i1) = s * sqrtC (edelta A).
  by rewrite /l /eev; set X := s * _; rewrite mul1r mulVKf ?two_neq0 // [_ + X]addrC addrK.
have sq : (2%:R * l - (A i0 i0 + A i1 i1)) ^+ 2 = edelta A.
  by rewrite hl exprMn s2 mul1r sqrtCK.
have e : 4%:R * ((A i0 i0 - l) * (A i1 i1 - l) - A i0 i1 * A i1 i0) = 0.
  have -> : 0 = (2%:R * l - (A i0 i0 + A i1 i1)) ^+ 2 - edelta A by rewrite sq subrr.
  by rewrite /edelta; cring.
move/eqP: e; rewrite mulf_eq0 pnatr_eq0 /= subr_eq0 => /eqP //.
Qed.
Lemma eev_real s : s \is Num.real -> eev A s \is Num.real.
Proof.
move=> sr; rewrite /eev; apply: rpredM; first by rewrite mul1r rpredV realn.
apply: rpredD; first by apply: rpredD; apply: herm_diag.
by apply: rpredM => //; apply: ger0_real; rewrite sqrtC_ge0 edelta_ge0.
Qed.
Lemma eev_le : eev A (-1) <= eev A 1.
Proof.
rewrite /eev ler_pmul2l; last by rewrite mul1r invr_gt0 ltr0n.
by rewrite ler_add2l mulN1r mul1r -subr_ge0 opprK addr_ge0 // sqrtC_ge0 edelta_ge0.
Qed.
(* the returned columns are eigenvectors of the entrywise conjugate of A *)
Lemma evec_conj k s : s ^+ 2 = 1 ->
  map_mx conjC A *m evec A k (eev A s) = eev A s *: evec A k (eev A s).
Proof.
move=> s2; have h := eev_root s2; move: (eev A s) h => l h.
have e0' (x y : C) : x - y = 0 -> x = y by move/eqP; rewrite subr_eq0 => /eqP.
have h' : (A i0 i0 - l) * (A i1 i1 - l) - A i0 i1 * A i1 i0 = 0 by rewrite h subrr.
apply: matrix22P => j; rewrite mxZE mul2E !mxE !(herm_off _ _ hA) /=;
  case: (k == i0) => /=; apply: e0'.
- by rewrite -[RHS]oppr0 -h'; cring.
- by cring.
- by cring.
- by rewrite -[RHS]oppr0 -h'; cring.
Qed.
(* one entry of A v - l v for the returned columns *)
Lemma evec_resid k l :
  (A *m evec A k l - l *: evec A k l) (if k == i0 then i1 else i0) 0
  = (if k == i0 then l - A i1 i1 else A i0 i0 - l) * (A i1 i0 - A i0 i1).
Proof.
by case/orP: (i01 k) => /eqP -> /=; rewrite mxBE !mxZE mul2E !mxE /=; cring.
Qed.
Let lam k := if k == i0 then eev A (-1) else eev A 1.
Lemma eigh_2x2_main : exists (ev : 'I_2 -> C) (V : 'M[C]_2), eigh_2x2 A eps = (ev, V) /\
  [/\ forall k, ev k \is Num.real, ev i0 <= ev i1,
      (forall k, ev k * ev k - (A i0 i0 + A i1 i1) * ev k + det2 A = 0),
      (forall k, map_mx conjC A *m col k V = ev k *: col k V) &
      forall k, exists2 c, 0 <= c & col k V = c *: evec A k (ev k) /\
        (0 < eps -> 0 < c) /\
        (evec A k (ev k) != 0 -> 0 < c) /\
        (evec A k (ev k) != 0 -> eps <= sqrtC (nrm2 (evec A k (ev k))) -> nrm2 (col k V) = 1)].
Proof.
have [V [-> hV]] := eigh_2x2E; do 2 eexists; split; first by [].
have rl k : lam k \is Num.real by rewrite /lam; case: ifP => _; apply: eev_real; rewrite ?realN ?real1.
have root k : (A i0 i0 - lam k) * (A i1 i1 - lam k) = A i0 i1 * A i1 i0.
  by rewrite /lam; case: ifP => _; apply: eev_root; rewrite ?sqrrN ?expr1n.
have eig k : map_mx conjC A *m evec A k (lam k) = lam k *: evec A k (lam k).
  by rewrite /lam; case: ifP => _; apply: evec_conj; rewrite ?sqrrN ?expr1n.
split=> //.
- exact: eev_le.
- move=> k; rewrite -/(lam k).
  have -> : 0 = (A i0 i0 - lam k) * (A i1 i1 - lam k) - A i0 i1 * A i1 i0 by rewrite root subrr.
  by rewrite /det2; cring.
- move=> k; rewrite normalize_colsE hV -/(lam k) -!scalemxAr (eig k).
  by rewrite scalerA mulrC -scalerA.
move=> k; rewrite normalize_colsE hV -/(lam k).
have nr : sqrtC (nrm2 (evec A k (lam k))) \is Num.real.
  by apply: ger0_real; rewrite sqrtC_ge0 nrm2_ge0.
have c0 : 0 <= clamp (sqrtC (nrm2 (evec A k (lam k)))) eps.
  by apply: le_trans e0 (clamp_ge nr (ger0_real e0)).
exists (clamp (sqrtC (nrm2 (evec A k (lam k)))) eps)^-1; first by rewrite invr_ge0.
split=> //; split; first by move=> ep; rewrite invr_gt0; apply: clamp_gt0.
split; last by move=> g0 he; apply: nrm2_normalized.
move=> g0; rewrite invr_gt0.
apply: lt_le_trans (clamp_geR nr (ger0_real e0)).
by rewrite sqrtC_gt0 nrm2_gt0.
Qed.
(* for a non-real off-diagonal entry no returned column is an eigenvector *)
Lemma eigh_2x2_not_eig k : A i0 i1 \isn't Num.real ->
  A *m col k (eigh_2x2 A eps).2 != (eigh_2x2 A eps).1 k *: col k (eigh_2x2 A eps).2.
Proof.
move=> nr; have [ev [V [-> [_ _ root _ /(_ k) [c c0 [hc [_ [cp _]]]]]]]] := eigh_2x2_main.
have a0 : A i0 i1 != 0 by apply: contra nr => /eqP ->; apply: real0.
have a10 : A i1 i0 != 0 by rewrite -(herm_off i0 i1 hA) conjC_eq0.
have off : A i1 i0 - A i0 i1 != 0.
  rewrite -(herm_off i0 i1 hA) subr_eq0; apply: contra nr => /eqP h.
  by apply/CrealP.
have v0 : evec A k (ev k) != 0.
  apply/eqP=> /matrixP h; have := h (if k == i0 then i1 else i0) 0.
  case/orP: (i01 k) => /eqP -> /=; rewrite !mxE /= => /eqP; first by rewrite (negbTE a0).
  by rewrite (negbTE a10).
rewrite /= hc -scalemxAr scalerA [_ * c]mulrC -scalerA.
have c1 := cp v0; rewrite (inj_eq (scalerI (lt0r_neq0 c1))).
apply/eqP=> h; have := evec_resid k (ev k); rewrite h subrr mxE => /esym/eqP.
rewrite mulf_eq0 (negbTE off) orbF => /eqP h0.
have : (A i0 i0 - ev k) * (A i1 i1 - ev k) = A i0 i1 * A i1 i0.
  apply/eqP; rewrite -subr_eq0; apply/eqP; rewrite -(root k) /det2; cring.
move/eqP; have -> : (A i0 i0 - ev k) * (A i1 i1 - ev k) = 0.
  move: h0; case: (k == i0) => h0; last by rewrite h0 mul0r.
  by rewrite -[A i1 i1 - _]opprB h0 oppr0 mulr0.
by rewrite eq_sym mulf_eq0 (negbTE a0) (negbTE a10).
Qed.
(* for a real off-diagonal entry every returned column satisfies the eigen equation *)
Lemma eigh_2x2_real_eig k : A i0 i1 \is Num.real ->
  A *m col k (eigh_2x2 A eps).2 = (eigh_2x2 A eps).1 k *: col k (eigh_2x2 A eps).2.
Proof.
move=> r; have [ev [V [-> [_ _ _ h _]]]] := eigh_2x2_main; rewrite /= -h; congr (_ *m _).
apply/matrixP; apply: ord2P; apply: ord2P; rewrite mxE ?(herm_off _ _ hA) //.
  by rewrite -(herm_off i0 i1 hA) conj_Creal.
by rewrite -(herm_off i0 i1 hA) conj_Creal.
Qed.
End E2.

(* generalized EVD for n <> 2 through an eigh oracle *)
Section GN.
Variables (n : nat) (eighO : eigh_oracle C n).
Definition eigh_ok (eighO : eigh_oracle C n) : Prop := forall M : 'M[C]_n, herm M ->
  [/\ forall i, (eighO M).1 i \is Num.real,
      forall i j : 'I_n, (i <= j)%N -> (eighO M).1 i <= (eighO M).1 j,
      ctr (eighO M).2 *m (eighO M).2 = 1%:M
    & forall i, M *m col i (eighO M).2 = (eighO M).1 i *: col i (eighO M).2].
Hypothesis ok : eigh_ok eighO.

Definition dg (l : 'I_n -> C) : 'M[C]_n := \matrix_(i, j) (l i *+ (i == j)).
Lemma mul_dg m (U : 'M[C]_(m,n)) l i k : (U *m dg l) i k = U i k * l k.
Proof.
rewrite mxE (bigD1 k) //= big1 ?addr0 => [|j jk]; last first.
  by rewrite mxE (negbTE jk) mulr0n mulr0.
by rewrite mxE eqxx mulr1n.
Qed.
Lemma dg_mulE m (U : 'M[C]_(n,m)) l i k : (dg l *m U) i k = l i * U i k.
Proof.
rewrite mxE (bigD1 i) //= big1 ?addr0 => [|j ji]; last first.
  by rewrite mxE eq_sym (negbTE ji) mulr0n mul0r.
by rewrite mxE eqxx mulr1n.
Qed.
Lemma col_mulmx m p (M : 'M[C]_(m,p)) q (U : 'M[C]_(p,q)) k : col k (M *m U) = M *m col k U.
Proof. by rewrite !colE mulmxA. Qed.
Lemma eig_diag (M B U : 'M[C]_n) (l : 'I_n -> C) :
  (forall i, M *m col i U = l i *: (B *m col i U)) <-> M *m U = B *m U *m dg l.
Proof.
split=> h.
  apply/matrixP=> i k; rewrite mul_dg; have := congr1 (fun v : 'cV[C]_n => v i 0) (h k).
  by rewrite mxZE -!col_mulmx ![(col _ _) _ _]mxE mulrC.
move=> k; rewrite -!col_mulmx h; apply/matrixP=> i j.
by rewrite mxZE ![(col _ _) _ _]mxE mul_dg mulrC.
Qed.
Lemma dg_mul l l' : dg l *m dg l' = dg (fun i => l i * l' i).
Proof. by apply/matrixP=> i k; rewrite dg_mulE !mxE mulrnAr. Qed.
Lemma dg1 l : (forall i, l i = 1) -> dg l = 1%:M.
Proof. by move=> h; apply/matrixP=> i j; rewrite !mxE h. Qed.
Lemma ctr_dg l : (forall i, l i \is Num.real) -> ctr (dg l) = dg l.
Proof.
move=> h; apply/matrixP=> i j; rewrite !mxE eq_sym.
by case: eqP => [->|_]; rewrite ?mulr1n ?mulr0n ?rmorph0 // conj_Creal.
Qed.
Lemma eq_dg l l' : l =1 l' -> dg l = dg l'.
Proof. by move=> h; apply/matrixP=> i j; rewrite !mxE h. Qed.
Lemma dg_scale l (U : 'M[C]_n) : (\matrix_(i, j) (l i * U i j)) = dg l *m U.
Proof. by apply/matrixP=> i k; rewrite dg_mulE mxE. Qed.
Lemma dg_unit l : (forall i, l i != 0) -> dg l \in unitmx.
Proof.
move=> h; apply: (@mulmx1_unit _ _ _ (dg (fun i => (l i)^-1)) _).1.
by rewrite dg_mul dg1 // => i; rewrite mulfV.
Qed.
Lemma ctr_orth_unit (U : 'M[C]_n) : ctr U *m U = 1%:M -> U \in unitmx.
Proof. by case/mulmx1_unit. Qed.

(* Hermitian square roots through an orthonormal eigenbasis *)
Lemma spec_mul (U : 'M[C]_n) l l' : ctr U *m U = 1%:M ->
  (U *m (dg l *m ctr U)) *m (U *m (dg l' *m ctr U)) = U *m (dg (fun i => l i * l' i) *m ctr U).
Proof.
move=> h; rewrite -!mulmxA; congr (_ *m _); rewrite (mulmxA (ctr U)) h mul1mx.
by rewrite mulmxA dg_mul.
Qed.
Lemma spec_dec (M U : 'M[C]_n) l : ctr U *m U = 1%:M ->
  (forall i, M *m col i U = l i *: col i U) -> M = U *m (dg l *m ctr U).
Proof.
move=> h e; have /eig_diag : forall i, M *m col i U = l i *: (1%:M *m col i U).
  by move=> i; rewrite mul1mx.
rewrite mul1mx => h2; have h' : U *m ctr U = 1%:M by apply: mulmx1C.
by rewrite mulmxA -h2 -mulmxA h' mulmx1.
Qed.

Lemma geigh_n_main (A B : 'M[C]_n) : herm A -> herm B ->
  (forall i, 10%:R ^- 5 <= (eighO B).1 i) ->
  exists (ev : 'I_n -> C) (V : 'M[C]_n), geigh_n eighO A B = (ev, V) /\
  [/\ forall i, ev i \is Num.real, forall i j : 'I_n, (i <= j)%N -> ev i <= ev j,
      forall i, A *m col i V = ev i *: (B *m col i V),
      V \in unitmx & exists c : 'I_n -> C, (forall i, 0 < c i) /\
        ctr V *m B *m V = dg c].
Proof.
move=> hA hB hb.
have [br _ bU bE] := ok hB; rewrite /geigh_n.
move: (eighO B) hb br bU bE => [Bval Bvec] /= hb br bU bE.
have t0 : 0 < 10%:R ^- 5 :> C by rewrite invr_gt0 exprn_gt0 // ltr0n.
have bp i : 0 < Bval i := lt_le_trans t0 (hb i).
pose s i := sqrtC (Bval i).
have sE i : sqrtC (clamp (Bval i) (10%:R ^- 5)) = s i by rewrite clamp_id.
have sp i : 0 < s i by rewrite sqrtC_gt0.
have sr i : s i \is Num.real by apply: gtr0_real.
pose S := Bvec *m (dg (fun i => (s i)^-1) *m ctr Bvec).
have SE : Bvec *m (\matrix_(i, j) ((sqrtC (clamp (Bval i) (10%:R ^- 5)))^-1 * hermite Bvec i j)) = S.
  rewrite /S -dg_scale; congr (_ *m _); apply/matrixP=> i j; by rewrite !mxE sE.
rewrite SE.
have bU' : Bvec *m ctr Bvec = 1%:M by apply: mulmx1C.
have hS : ctr S = S.
  by rewrite /S !ctrM ctrK ctr_dg ?mulmxA // => i; rewrite rpredV.
have BE : B = Bvec *m (dg Bval *m ctr Bvec) := spec_dec bU bE.
have SBS : S *m B *m S = 1%:M.
  rewrite BE /S !spec_mul // (eq_dg (l' := fun=> 1)) ?dg1 ?mul1mx //.
  move=> i; rewrite mulrAC -[Bval i]sqrtCK -/(s i) expr2.
  by rewrite mulrC mulrACA mulfV ?gt_eqF // mulr1.
clear SE; clearbody S.
have uS : S \in unitmx.
  by case/mulmx1_unit: (SBS); rewrite unitmx_mul => /andP [].
have SBI : S *m B = invmx S by rewrite -[LHS](mulmxK uS) SBS mul1mx.
have hL : herm (S *m A *m hermite S).
  by rewrite /herm hermiteE !ctrM ctrK hA mulmxA.
have := ok hL; rewrite hermiteE hS in hL *.
case: (eighO _) => [ev U] /= [er es uU uE].
do 2 eexists; split; first by [].
pose c k := clamp (sqrtC (\sum_i `|(S *m U) i k| ^+ 2)) (10%:R ^- 5).
have cp k : 0 < c k.
  apply: clamp_gt0 => //; apply: ger0_real; rewrite sqrtC_ge0.
  by apply: sumr_ge0 => i _; apply: exprn_ge0.
set V := (\matrix_(i, k) _).
have VE : V = S *m U *m dg (fun k => (c k)^-1).
  by apply/matrixP=> i k; rewrite mul_dg !mxE.
have uUu := ctr_orth_unit uU.
split=> //.
- apply/eig_diag; rewrite VE !mulmxA.
  have /eig_diag : forall i, (S *m A *m S) *m col i U = ev i *: (1%:M *m col i U).
    by move=> i; rewrite mul1mx.
  rewrite mul1mx => h.
  have h2 : A *m S *m U = B *m S *m U *m dg ev.
    apply: (can_inj (mulKmx uS)); rewrite !mulmxA in h *.
    by rewrite h SBS mul1mx.
  rewrite h2 -!mulmxA; congr (_ *m (_ *m (_ *m _))).
  by rewrite !dg_mul; apply: eq_dg => i; rewrite mulrC.
- by rewrite VE !unitmx_mul uS uUu dg_unit // => i; rewrite invr_eq0 gt_eqF.
exists (fun k => (c k)^-1 * (c k)^-1); split; first by move=> i; rewrite mulr_gt0 ?invr_gt0.
rewrite VE !ctrM hS ctr_dg => [|i]; last by rewrite rpredV gtr0_real.
rewrite -!mulmxA (mulmxA B) (mulmxA S) (mulmxA S B S) SBS.
by rewrite mul1mx (mulmxA (ctr U)) uU mul1mx dg_mul.
Qed.
End GN.
End LP.
