(* Links the model lemmas to the specification vocabulary. *)
From Coq Require Import Ring Field.
From mathcomp Require Import all_ssreflect all_algebra.
From Verif Require Import CAlg Py LinalgModel LinalgSpec LinalgProofs.
Set Implicit Arguments. Unset Strict Implicit. Unset Printing Implicit Defensive.
Import GRing.Theory Num.Theory Order.TTheory.
Local Open Scope ring_scope.

Section Load.
Variable C : numClosedFieldType.
Lemma bigmax_in (I : eqType) (r : seq I) (F : I -> C) :
  \big[Num.max/0]_(i <- r) F i = 0 \/ exists i, \big[Num.max/0]_(i <- r) F i = F i.
Proof.
elim: r => [|i r IH]; first by left; rewrite big_nil.
rewrite big_cons /Order.max; case: ifP => _; first exact: IH.
by right; exists i.
Qed.
Lemma max_abs_in n (A : 'M[C]_n) : max_abs A = 0 \/ exists i j, max_abs A = `|A i j|.
Proof.
rewrite /max_abs; case: (bigmax_in (index_enum _) (fun j => \big[Num.max/0]_(i < n) `|A i j|)) => [->|[j ->]].
  by left.
case: (bigmax_in (index_enum _) (fun i => `|A i j|)) => [->|[i ->]]; first by left.
by right; exists i, j.
Qed.
Lemma load_factor_is n (A : 'M[C]_n) load : 0 < load -> LinalgSpec.is_load A load (load_factor A load).
Proof.
move=> l0; split; [exact: load_factor_ge|by move=> i j; exact: load_factor_max|].
rewrite /load_factor /clamp; case: ifP => [_|h]; first by left.
case: (max_abs_in A) => [e|[i [j e]]]; last by right; exists i, j; rewrite e.
by move: h; rewrite e mulr0 l0.
Qed.
End Load.

Section B0.
Variable C : numClosedFieldType.
Lemma i0E : i0 = 0 :> 'I_2. Proof. exact/val_inj. Qed.
Lemma i1E : i1 = 1 :> 'I_2. Proof. exact/val_inj. Qed.
Lemma detE (A : 'M[C]_2) : \det A = det2 A.
Proof.
rewrite (expand_det_row A i0) sum2 /cofactor !det_mx11 !mxE /= expr0 mul1r expr1 mulN1r mulrN.
rewrite /det2; congr (A _ _ * A _ _ - A _ _ * A _ _); exact: val_inj.
Qed.
Lemma pencil_discE (A B : 'M[C]_2) : pencil_disc A B = gdelta A B.
Proof. by rewrite /pencil_disc !detE /gdelta i0E i1E. Qed.
End B0.

Section C08.
Variable C : numClosedFieldType.
Lemma rls_objectiveE m n k (A : 'M[C]_(m,n)) (b : 'M[C]_(m,k)) load eps c x : 0 < eps ->
  rls_objective A (col c b) load eps x
  = \sum_i (row_weight A eps i) ^+ 2 * `|(A *m x) i 0 - b i c| ^+ 2 + load * nrm2 x.
Proof.
move=> e0; rewrite /rls_objective /nrm2; congr (_ + _); apply: eq_bigr => i _.
rewrite /row_weight -/(row_norm A i) [col c b i 0]mxE normrM exprMn mulrC; congr (_ ^+ 2 * _).
have nr : row_norm A i \is Num.real.
  by apply: ger0_real; rewrite sqrtC_ge0; apply: sumr_ge0 => j _; apply: exprn_ge0.
by rewrite normfV mul1r gtr0_norm //; exact: (clamp_gt0 nr e0).
Qed.
Lemma c08_lemma m n k (A : 'M[C]_(m,n)) (b : 'M[C]_(m,k)) (load eps : C) :
  0 < load -> 0 < eps ->
  exists x, solve_loaded_general A b load eps = Ok x /\
    forall (c : 'I_k) (y : 'cV[C]_n), y != col c x ->
      rls_objective A (col c b) load eps (col c x) < rls_objective A (col c b) load eps y.
Proof.
move=> l0 e0; have [x [h1 h2]] := slg_min A b l0 e0; exists x; split=> // c y ne.
by rewrite !rls_objectiveE //; apply: h2.
Qed.
End C08.

Section C09.
Variable C : numClosedFieldType.
Lemma c09_lemma n k (A : 'M[C]_n) (b : 'M[C]_(n,k)) (load : C) :
  (0 < n)%N -> psd A -> 0 < load ->
  exists l x y, [/\ solve_loaded A b load = Ok x, inv_loaded A load = Ok y,
    is_load A load l,
    solves (A + l%:M) b x /\ (forall x', solves (A + l%:M) b x' -> x' = x)
    & (A + l%:M) *m y = 1%:M /\ y *m (A + l%:M) = 1%:M].
Proof.
move=> n0 hA l0; exists (load_factor A load).
rewrite (solve_loaded_psd b n0 hA l0) (inv_loaded_psd n0 hA l0) scalemx1.
have u : A + (load_factor A load)%:M \in unitmx.
  by rewrite -scalemx1; apply: pd_unit; apply: pd_loaded.
do 2 eexists; split; [by []|by []| | |].
- exact: load_factor_is.
- by split; rewrite /solves ?mulKVmx // => x' <-; rewrite mulKmx.
- by split; rewrite ?mulmxV ?mulVmx.
Qed.
Lemma c09_ref (load : C) : 0 < load -> load <= 1 ->
  solve_loaded (- load%:M : 'M[C]_1) (1%:M : 'M[C]_1) load = Err LinAlgError
  /\ herm (- load%:M : 'M[C]_1).
Proof.
move=> l0 l1; split; last by rewrite /herm ctrN ctr_scalar conj_Creal ?gtr0_real.
rewrite /solve_loaded /= /torch_solve.
have -> : load_factor (- load%:M : 'M[C]_1) load = load.
  rewrite /load_factor /max_abs !big_ord_recl !big_ord0 !mxE /= mulr1n normrN gtr0_norm //.
  have -> : Num.max load 0 = load by rewrite /Order.max (le_gtF (ltW l0)).
  have -> : Num.max load 0 = load by rewrite /Order.max (le_gtF (ltW l0)).
  have r := gtr0_real l0; rewrite /clamp; case: (real_ltP (realM r r) r) => // h.
  apply/eqP; rewrite eq_le h andbT; apply: ler_pimulr => //; exact: ltW.
by rewrite scalemx1 addNr unitmxE det0 unitr0.
Qed.
End C09.

Section C10.
Variable C : numClosedFieldType.
Lemma adj2E (W : 'M[C]_2) : adj2 W = \adj W.
Proof.
have l00 : lift i0 (0 : 'I_1) = i1 by exact/val_inj.
have l10 : lift i1 (0 : 'I_1) = i0 by exact/val_inj.
apply/matrixP; apply: ord2P; apply: ord2P; rewrite !mxE /cofactor !det_mx11 !mxE ?l00 ?l10 /=.
- by rewrite addn0 expr0 mul1r.
- by rewrite addn0 expr1 mulN1r.
- by rewrite add0n expr1 mulN1r.
- by rewrite sqrrN expr1n mul1r.
Qed.
Lemma c10_lemma (W : 'M[C]_2) eps : 0 < eps ->
  exists d, [/\ eps <= `|d|, (eps <= `|\det W| -> d = \det W) & inv_2x2 W eps = d^-1 *: \adj W].
Proof.
move=> e0; have [d [h1 h2 h3]] := inv_2x2_det W e0; exists d; rewrite detE -adj2E; split=> //.
by apply/matrixP=> i j; rewrite h3 mxZE mulrC.
Qed.
End C10.

Section C11.
Variable C : numClosedFieldType.
Lemma c11_lemma (A B : 'M[C]_2) (eps : C) :
  herm A -> pd B -> 0 <= eps -> eps <= \det B -> eps <= pencil_disc A B ->
  exists (ev : 'I_2 -> C) (V : 'M[C]_2), geigh_2x2 A B eps = (ev, V) /\
  [/\ (forall k, ev k \is Num.real), ev 0 <= ev 1,
      (forall k, eigenpair A B (ev k) (col k V)),
      (forall k, \sum_i `|V i k| ^+ 2 <= 1) &
      (forall k, 0 < eps \/ ~ eigenpair A B (ev k) (e1 C) -> (col k V = 0 <-> eigenpair A B (ev k) (e1 C)))].
Proof.
rewrite detE pencil_discE => hA hB e0 dB de; have [hB' _] := hB.
have [ev [V [h [h1 h2 h3 h4]]]] := geigh_2x2_main hA hB' e0 (pd_det2 hB) dB de.
exists ev, V; split=> //; split=> //; first by rewrite -i0E -i1E.
- move=> k; have [c c0 [hc [c1 [c2 c3]]]] := h4 k.
  have -> : \sum_i `|V i k| ^+ 2 = nrm2 (col k V).
    by apply: eq_bigr => i _; rewrite mxE.
  have nr : sqrtC (nrm2 (gvec A B (ev k))) \is Num.real.
    by apply: ger0_real; rewrite sqrtC_ge0 nrm2_ge0.
  case: (altP (gvec A B (ev k) =P 0)) => [g0|g0].
    by rewrite hc g0 scaler0 -qf1 qf0v ler01.
  case: (real_leP (ger0_real e0) nr) => [he|he]; first by rewrite (c3 g0 he).
  suff -> : col k V = (clamp (sqrtC (nrm2 (gvec A B (ev k)))) eps)^-1 *: gvec A B (ev k).
    rewrite /clamp he nrm2Z normfV exprVn ger0_norm // mulrC.
    have ep : 0 < eps by apply: le_lt_trans he; rewrite sqrtC_ge0 nrm2_ge0.
    rewrite ler_pdivr_mulr ?exprn_gt0 // mul1r -[nrm2 _]sqrtCK.
    by rewrite ler_expn2r ?nnegrE ?sqrtC_ge0 ?nrm2_ge0 // ltW.
  have [V' [hV' hV2]] := geigh_2x2E hA hB' dB de.
  move: h; rewrite hV' => -[<- <-]; by rewrite normalize_colsE hV2.
- move=> k hk; have [c c0 [hc [c1 [c2 c3]]]] := h4 k.
  have i00 : e1 C = delta_mx i0 0 by rewrite /e1 /i0.
  rewrite /eigenpair i00 -gvec0_iff // hc.
  case: hk => [ep|nh].
    split=> [/eqP|->]; last by rewrite scaler0.
    by rewrite scaler_eq0 (gt_eqF (c1 ep)) /= => /eqP.
  have g0 : gvec A B (ev k) != 0.
    by apply/eqP=> g0; apply: nh; rewrite /eigenpair i00 -gvec0_iff.
  split=> [/eqP|->]; last by rewrite scaler0.
  by rewrite scaler_eq0 (gt_eqF (c2 g0)) /= => /eqP.
Qed.
Lemma c11_disc (A B : 'M[C]_2) : herm A -> pd B -> 0 <= pencil_disc A B /\ 0 < \det B.
Proof.
move=> hA hB; have [hB' _] := hB; rewrite detE pencil_discE; split; last exact: pd_det2.
by apply: gdelta_ge0 => //; [apply: pd_diag|apply/ltW/pd_det2].
Qed.
End C11.

Section C11diag.
Variable C : numClosedFieldType.
Add Field CfieldLB : (f_ft C).
Ltac cring := fpre; fnorm C; fatoms; ring.
Ltac cfield := fpre; fnorm C; fatoms; field.
Lemma c11_diag_lemma (A B : 'M[C]_2) (eps : C) :
  herm A -> pd B -> A 0 1 = 0 -> B 0 1 = 0 ->
  0 < eps -> eps <= \det B -> eps <= pencil_disc A B ->
  exists k, col k (geigh_2x2 A B eps).2 = 0.
Proof.
move=> hA hB a01 b01 e0 dB de.
have [ev [V [h [h1 h2 h3 _ h5]]]] := c11_lemma hA hB (ltW e0) dB de.
have [hB' _] := hB.
have b0 := pd_diag i0 hB; have b1 := pd_diag i1 hB.
have b0n : B i0 i0 != 0 by rewrite gt_eqF.
have b1n : B i1 i1 != 0 by rewrite gt_eqF.
rewrite -i0E -i1E in a01 b01.
have a10 : A i1 i0 = 0 by rewrite -(herm_off i0 i1 hA) a01 rmorph0.
have b10 : B i1 i0 = 0 by rewrite -(herm_off i0 i1 hB') b01 rmorph0.
have key k : A i0 i0 = ev k * B i0 i0 -> col k V = 0.
  move=> e; apply/h5; first by left.
  rewrite /eigenpair (_ : e1 C = delta_mx i0 0) // -!colE.
  by apply: matrix22P => j; rewrite !mxE // a10 b10 mulr0.
rewrite h /=.
case: (altP (A i0 i0 =P ev i0 * B i0 i0)) => [/key|n0]; first by exists i0.
case: (altP (A i0 i0 =P ev i1 * B i0 i0)) => [/key|n1]; first by exists i1.
exfalso.
have root k : A i0 i0 != ev k * B i0 i0 -> A i1 i1 = ev k * B i1 i1.
  move=> nk; have dBn : det2 B != 0 by rewrite gt_eqF // pd_det2.
  have : (A i0 i0 - ev k * B i0 i0) * (A i1 i1 - ev k * B i1 i1) = 0.
    rewrite detE in dB; rewrite pencil_discE in de.
    have [V' [hV' _]] := geigh_2x2E hA hB' dB de.
    move: h; rewrite hV' => -[<- _].
    case/orP: (i01 k) => /eqP -> /=.
      have := @gev_root _ A B (-1); rewrite sqrrN expr1n => /(_ erefl dBn) /=.
      by rewrite a01 a10 b01 b10 mulr0 subr0 mulr0 subr0.
    have := @gev_root _ A B 1; rewrite expr1n => /(_ erefl dBn) /=.
    by rewrite a01 a10 b01 b10 mulr0 subr0 mulr0 subr0.
  move/eqP; rewrite mulf_eq0 subr_eq0 (negbTE nk) /= subr_eq0 => /eqP //.
have r0 := root _ n0; have r1 := root _ n1.
have sumE : (ev i0 + ev i1) * (B i0 i0 * B i1 i1) = A i0 i0 * B i1 i1 + A i1 i1 * B i0 i0.
  rewrite detE in dB; rewrite pencil_discE in de.
  have [V' [hV' _]] := geigh_2x2E hA hB' dB de.
  move: h; rewrite hV' => -[<- _] /=.
  have dE : B i0 i0 * B i1 i1 = det2 B by rewrite /det2 b01 mul0r subr0.
  have gE : gtr A B = A i0 i0 * B i1 i1 + A i1 i1 * B i0 i0.
    by rewrite /gtr a01 a10 !mul0r !subr0.
  rewrite dE -gE /gev -mulrDl -mulrDr -mulrA mulVf; last by rewrite gt_eqF // pd_det2.
  rewrite mulr1; have -> : gtr A B + -1 * sqrtC (gdelta A B) + (gtr A B + 1 * sqrtC (gdelta A B))
     = 2%:R * gtr A B by cring.
  by rewrite mul1r mulKf // pnatr_eq0.
case/eqP: n0; move: sumE; rewrite r0.
have -> : ev i1 = ev i0 by apply: (mulIf b1n); rewrite -r0 -r1.
move=> e; apply: (mulIf b1n).
have : (ev i0 * B i0 i0) * B i1 i1 + ev i0 * B i1 i1 * B i0 i0 =
   A i0 i0 * B i1 i1 + ev i0 * B i1 i1 * B i0 i0 by rewrite -e; cring.
by move/addIr.
Qed.
End C11diag.

Section C12.
Variable C : numClosedFieldType.
Add Field CfieldLB12 : (f_ft C).
Ltac cring := fpre; fnorm C; fatoms; ring.
Lemma c12_disc (A : 'M[C]_2) : pencil_disc A 1%:M = edelta A.
Proof.
rewrite pencil_discE /gdelta /edelta /det2 !mxE /= !mulr1n !mulr0n; cring.
Qed.
Lemma c12_lemma (A : 'M[C]_2) (eps : C) :
  herm A -> 0 <= eps -> eps <= pencil_disc A 1%:M ->
  exists (ev : 'I_2 -> C) (V : 'M[C]_2), eigh_2x2 A eps = (ev, V) /\
  [/\ (forall k, ev k \is Num.real), ev 0 <= ev 1, (forall k, \det (A - (ev k)%:M) = 0)
    & forall k, eigenpair (map_mx conjC A) 1%:M (ev k) (col k V)].
Proof.
rewrite c12_disc => hA e0 de.
have [ev [V [h [h1 h2 h3 h4 _]]]] := eigh_2x2_main hA e0 de.
exists ev, V; split=> //; split=> //; first by rewrite -i0E -i1E.
  move=> k; rewrite detE -(h3 k) /det2 !mxE /= !mulr1n !mulr0n; cring.
by move=> k; rewrite /eigenpair mul1mx.
Qed.
Lemma c12_real_lemma (A : 'M[C]_2) (eps : C) k :
  herm A -> 0 <= eps -> eps <= pencil_disc A 1%:M -> A 0 1 \is Num.real ->
  eigenpair A 1%:M ((eigh_2x2 A eps).1 k) (col k (eigh_2x2 A eps).2).
Proof.
rewrite c12_disc -i0E -i1E => hA e0 de r; rewrite /eigenpair mul1mx.
exact: eigh_2x2_real_eig.
Qed.
Lemma c12_ref_lemma (A : 'M[C]_2) (eps : C) k :
  herm A -> 0 <= eps -> eps <= pencil_disc A 1%:M -> A 0 1 \isn't Num.real ->
  ~ eigenpair A 1%:M ((eigh_2x2 A eps).1 k) (col k (eigh_2x2 A eps).2).
Proof.
rewrite c12_disc -i0E -i1E => hA e0 de r; rewrite /eigenpair mul1mx; apply/eqP.
exact: eigh_2x2_not_eig.
Qed.
Lemma c12_disc_ge0 (A : 'M[C]_2) : herm A -> 0 <= pencil_disc A 1%:M.
Proof. by rewrite c12_disc => /edelta_ge0. Qed.
(* diag(a, b) with a > b: the first column is zero *)
Lemma c12_diag_lemma (A : 'M[C]_2) (eps : C) :
  herm A -> A 0 1 = 0 -> A 1 1 < A 0 0 -> 0 < eps -> eps <= pencil_disc A 1%:M ->
  col 0 (eigh_2x2 A eps).2 = 0 /\ col 1 (eigh_2x2 A eps).2 = 0.
Proof.
rewrite c12_disc => hA a01 ab e0 de; rewrite -i0E -i1E in a01 ab *.
have a10 : A i1 i0 = 0 by rewrite -(herm_off i0 i1 hA) a01 rmorph0.
have [V [-> hV]] := eigh_2x2E hA de; rewrite /= !normalize_colsE !hV /=.
have dE : sqrtC (edelta A) = A i0 i0 - A i1 i1.
  by rewrite /edelta a01 mul0r mulr0 addr0 sqrCK // subr_ge0 ltW.
have two : 2%:R != 0 :> C by rewrite pnatr_eq0.
have e1E : eev A (-1) = A i1 i1.
  rewrite /eev dE; have -> : A i0 i0 + A i1 i1 + -1 * (A i0 i0 - A i1 i1) = 2%:R * A i1 i1 by cring.
  by rewrite mul1r mulKf.
have e2E : eev A 1 = A i0 i0.
  rewrite /eev dE; have -> : A i0 i0 + A i1 i1 + 1 * (A i0 i0 - A i1 i1) = 2%:R * A i0 i0 by cring.
  by rewrite mul1r mulKf.
rewrite e1E e2E; have z k l : evec A k l = 0 -> (clamp (sqrtC (nrm2 (evec A k l))) eps)^-1 *: evec A k l = 0.
  by move=> ->; rewrite scaler0.
by split; apply: z; apply: matrix22P => j; rewrite !mxE /= ?a01 ?a10 ?subrr.
Qed.
End C12.

Section C13.
Variable C : numClosedFieldType.
(* diagonal matrix *)
Lemma c13_lemma n (eighO : eigh_oracle C n) (A B : 'M[C]_n) :
  eigensolver eighO -> herm A -> herm B ->
  (forall v : 'cV[C]_n, 10%:R ^- 5 * (\sum_i `|v i 0| ^+ 2) <= (ctr v *m B *m v) 0 0) ->
  exists (ev : 'I_n -> C) (V : 'M[C]_n), geigh_n eighO A B = (ev, V) /\
  [/\ (forall i, ev i \is Num.real), (forall i j : 'I_n, (i <= j)%N -> ev i <= ev j),
      (forall i, eigenpair A B (ev i) (col i V)), V \in unitmx
    & forall i j : 'I_n, i != j -> (ctr V *m B *m V) i j = 0].
Proof.
move=> ok hA hB hb.
have hb' i : 10%:R ^- 5 <= (eighO B).1 i.
  have [r _ o e] := ok B hB.
  have := hb (col i (eighO B).2); rewrite -/(nrm2 _).
  have -> : nrm2 (col i (eighO B).2) = 1.
    rewrite nrm2_ctr; have := congr1 (fun M : 'M[C]_n => M i i) o; rewrite !mxE eqxx mulr1n => <-.
    by apply: eq_bigr => j _; rewrite !ctrE !mxE.
  rewrite mulr1 -mulmxA e -scalemxAr mxZE -nrm2_ctr.
  have -> : nrm2 (col i (eighO B).2) = 1.
    rewrite nrm2_ctr; have := congr1 (fun M : 'M[C]_n => M i i) o; rewrite !mxE eqxx mulr1n => <-.
    by apply: eq_bigr => j _; rewrite !ctrE !mxE.
  by rewrite mulr1.
have [ev [V [h [h1 h2 h3 h4 [c [_ h5]]]]]] := geigh_n_main ok hA hB hb'.
exists ev, V; split=> //; split=> // i j ij.
by rewrite h5 !mxE (negbTE ij) mulr0n.
Qed.
End C13.
