(* AuxIVA_IP without regularisation decreases the scale free cost (C76). *)
From Coq Require Import Ring Field.
From mathcomp Require Import all_ssreflect all_algebra.
From Verif Require Import CAlg Py Batch LinalgModel LinalgSpec LinalgProofs LinalgBridge.
From Verif Require Import TissModel TissSpec TissProofs2 SrcModel SrcSpec CostModel CostSpec CostProofs IvaModel IvaSpec IvaProofs IvaOpt IvaBridge.
Set Implicit Arguments. Unset Strict Implicit. Unset Printing Implicit Defensive.
Import GRing.Theory Num.Theory Order.TTheory.
Local Open Scope ring_scope.
Local Open Scope py_scope.

(* ---- an exact solve *)
Section Exact.
Variable C : numClosedFieldType.
Lemma row_neq0 n (A : 'M[C]_n) i : A \in unitmx -> row i A != 0.
Proof.
move=> uA; apply/eqP => r0; have : row i A *m invmx A = row i 1%:M by rewrite -row_mul mulmxV.
rewrite r0 mul0mx => /rowP /(_ i); rewrite !mxE eqxx => /eqP; by rewrite eq_sym oner_eq0.
Qed.
Lemma slg0 n k (A : 'M[C]_n) (b : 'M[C]_(n, k)) : A \in unitmx ->
  exists x, solve_loaded_general A b 0 0 = Ok x /\ A *m x = b.
Proof.
move=> uA; rewrite slgE.
have wE i : row_weight A 0 i != 0.
  rewrite /row_weight div1r invr_eq0.
  have s0 : 0 <= \sum_j `|A i j| ^+ 2 by apply: sumr_ge0 => j _; rewrite exprn_ge0.
  rewrite clamp_id ?sqrtC_ge0 // sqrtC_eq0 psumr_eq0; last by move=> j _; rewrite exprn_ge0.
  apply: contra (row_neq0 i uA) => /allP h; apply/eqP/rowP => j; rewrite !mxE.
  by apply/eqP; have := h j (mem_index_enum _); rewrite /= sqrf_eq0 normr_eq0.
set A2 := \matrix_(i, j) _; set b2 := \matrix_(i, j) (b i j * _).
have A2E : A2 = diag_mx (\row_i row_weight A 0 i) *m A by apply/matrixP=> i j; rewrite mul_diag_mx !mxE mulrC.
have b2E : b2 = diag_mx (\row_i row_weight A 0 i) *m b by apply/matrixP=> i j; rewrite mul_diag_mx !mxE mulrC.
have uD : diag_mx (\row_i row_weight A 0 i) \in unitmx.
  by rewrite unitmxE det_diag unitfE prodf_seq_neq0; apply/allP => i _; rewrite mxE wE.
have u2 : A2 \in unitmx by rewrite A2E unitmx_mul uD.
have uc : ctr A2 \in unitmx by rewrite ctr_unit.
have uM : ctr A2 *m A2 \in unitmx by rewrite unitmx_mul uc.
rewrite raddf0 addr0 /torch_solve uM; eexists; split; first by [].
set x := invmx _ *m _; have : ctr A2 *m (A2 *m x) = ctr A2 *m b2 by rewrite mulmxA /x mulKVmx.
move/(can_inj (mulKmx uc)); rewrite A2E b2E -mulmxA; exact: (can_inj (mulKmx uD)).
Qed.
End Exact.

(* ---- the cost minimised over the scales *)
Section Core.
Variable C : numClosedFieldType.
Add Field Cfield_ipc : (f_ft C).
Ltac cring := fpre; fnorm C; fatoms; ring.
Ltac cfield := fpre; fnorm C; fatoms; field.
Variables (lg : C -> C) (nS nF nN : nat).
Hypothesis ll : log_like lg.
Hypothesis lm : log_mul lg.
Hypothesis f0 : (0 < nF)%N.
Hypothesis n0 : (0 < nN)%N.
Variables (Y Y' : 'I_nF -> 'M[C]_(nS, nN)) (g : 'I_nS -> C) (D D' : 'I_nF -> C).
Let r s n := frame_norm Y s n.
Let p (Z : 'I_nF -> 'M[C]_(nS, nN)) f s := \sum_n `|Z f s n| ^+ 2 / (2%:R * r s n).
Hypothesis rp : forall s n, 0 < r s n.
Hypothesis gp : forall s, 0 < g s.
Hypothesis pp : forall f s, 0 < p Y f s.
Hypothesis p'E : forall f s, p Y' f s = (g s)^-1.
Hypothesis Dp : forall f, 0 < D f.
Hypothesis Dle : forall f, D f <= D' f * ((\prod_s g s) * \prod_s p Y f s).
Lemma nF0 : 0 < nF%:R :> C. Proof. by rewrite ltr0n. Qed.
Lemma sum_p Z s : \sum_f p Z f s = \sum_n frame_norm Z s n ^+ 2 / (2%:R * r s n).
Proof.
rewrite exchange_big /=; apply: eq_bigr => n _; rewrite -mulr_suml; congr (_ / _).
by rewrite /frame_norm sqrtCK.
Qed.
Let R s := \sum_n r s n.
Lemma R_gt0 s : 0 < R s.
Proof.
rewrite /R (bigD1 (Ordinal n0)) //= ltr_paddr ?rp // sumr_ge0 // => n _; exact/ltW/rp.
Qed.
Let Q s := \sum_n frame_norm Y' s n.
Lemma fn_ge0 (Z : 'I_nF -> 'M[C]_(nS, nN)) s n : 0 <= frame_norm Z s n.
Proof. by rewrite sqrtC_ge0 sumr_ge0 // => f _; rewrite exprn_ge0. Qed.
Lemma Q_ge0 s : 0 <= Q s. Proof. by apply: sumr_ge0 => n _; exact: fn_ge0. Qed.
Lemma Q_gt0 s : 0 < Q s.
Proof.
rewrite lt_neqAle Q_ge0 andbT eq_sym psumr_eq0; last by move=> n _; exact: fn_ge0.
apply/negP => /allP h; have := sum_p Y' s; rewrite [RHS]big1.
  move/eqP; rewrite psumr_eq0; last by move=> f _; rewrite p'E invr_ge0 ltW ?gp.
  by move/allP/(_ (Ordinal f0) (mem_index_enum _)); rewrite /= p'E invr_eq0 gt_eqF ?gp.
by move=> n _; rewrite (eqP (h n (mem_index_enum _))) expr0n mul0r.
Qed.
Lemma Q_le s : Q s ^+ 2 * g s <= 2%:R * nF%:R * R s.
Proof.
rewrite -ler_pdivl_mulr ?gp //; apply: le_trans (cs_weighted (rp s) (fn_ge0 Y' s)) _.
rewrite -/(R s) [X in _ <= X]mulrAC ler_pmul2r ?R_gt0 //.
have e : \sum_n frame_norm Y' s n ^+ 2 / r s n = 2%:R * \sum_f p Y' f s.
  rewrite sum_p mulr_sumr; apply: eq_bigr => n _.
  by rewrite mulrCA invfM mulVKf // pnatr_eq0.
rewrite e (eq_bigr (fun=> (g s)^-1)) => [|f _]; last exact: p'E.
by rewrite sumr_const card_ord -[X in 2%:R * X <= _]mulr_natl mulrA.
Qed.
Lemma sum_lg s : \sum_f lg (p Y f s) <= nF%:R * lg (R s / (2%:R * nF%:R)).
Proof.
apply: jensen => //; first by rewrite divr_gt0 ?R_gt0 // mulr_gt0 ?nF0 ?ltr0n.
rewrite sum_p (eq_bigr (fun n => r s n / 2%:R)) => [|n _]; last first.
  by rewrite -/(r s n) invfM mulrCA expr2 mulfK ?gt_eqF ?rp // mulrC.
rewrite -mulr_suml -/(R s) invfM mulrCA [nF%:R * _]mulrC -mulrA mulVf ?mulr1 ?gt_eqF ?nF0 //.
Qed.
Lemma per_source s : nF%:R * (lg (Q s ^+ 2) + lg (g s)) + \sum_f lg (p Y f s) <= nF%:R * lg (R s ^+ 2).
Proof.
have q2 : 0 < Q s ^+ 2 by rewrite exprn_gt0 ?Q_gt0.
have h1 : lg (Q s ^+ 2) + lg (g s) <= lg (2%:R * nF%:R * R s).
  by rewrite -lm ?gp //; apply: (lg_mono ll) => //; [rewrite mulr_gt0 ?gp|exact: Q_le].
have t0 : 0 < 2%:R * nF%:R :> C by rewrite mulr_gt0 ?nF0 ?ltr0n.
have h2 : lg (R s ^+ 2) = lg (2%:R * nF%:R * R s) + lg (R s / (2%:R * nF%:R)).
  rewrite -lm; first last.
  - by rewrite divr_gt0 ?R_gt0.
  - by rewrite mulr_gt0 ?R_gt0.
  congr lg; move: (2%:R * nF%:R) t0 (R s) => t t0 x; have tn := lt0r_neq0 t0; by cfield; exact/eqP.
rewrite h2 [X in _ <= X]mulrDr; apply: ler_add; last exact: sum_lg.
by rewrite ler_pmul2l ?nF0.
Qed.
Lemma si_core : nF%:R * (\sum_s lg (Q s ^+ 2)) - \sum_f lg (D' f) <= nF%:R * (\sum_s lg (R s ^+ 2)) - \sum_f lg (D f).
Proof.
have PG : 0 < \prod_s g s by apply: prodr_gt0.
have PP f : 0 < \prod_s p Y f s by apply: prodr_gt0.
have D'p f : 0 < D' f.
  have := lt_le_trans (Dp f) (Dle f); by rewrite pmulr_lgt0 // mulr_gt0.
have hd f : lg (D f) <= lg (D' f) + (\sum_s lg (g s) + \sum_s lg (p Y f s)).
  rewrite -!(lg_prod lm) // -!lm ?mulr_gt0 //; exact: (lg_mono ll).
have hS : \sum_f lg (D f) <= \sum_f lg (D' f) + (nF%:R * (\sum_s lg (g s)) + \sum_s \sum_f lg (p Y f s)).
  have e0 : nF%:R * (\sum_s lg (g s)) = \sum_(f < nF) \sum_s lg (g s) by rewrite sumr_const card_ord mulr_natl.
  rewrite exchange_big /= e0 -!big_split /=.
  by apply: ler_sum => f _; exact: hd.
have hP : \sum_s (nF%:R * (lg (Q s ^+ 2) + lg (g s)) + \sum_f lg (p Y f s)) <= \sum_s nF%:R * lg (R s ^+ 2).
  by apply: ler_sum => s _; exact: per_source.
rewrite big_split /= -!mulr_sumr big_split /= mulrDr in hP.
rewrite -subr_ge0 in hS; rewrite -subr_ge0 in hP; rewrite -subr_ge0.
have := addr_ge0 hS hP; congr (0 <= _); cring.
Qed.
End Core.

(* ---- one source, as many microphones as sources *)
Section Source.
Variable C : numClosedFieldType.
Lemma form_wcov n nN (w : 'I_nN -> C) (X : 'M[C]_(n, nN)) (v : 'rV[C]_n) :
  form (wcov w X) (ctr v) (ctr v) = wpower w ((v *m X) 0).
Proof.
have -> : wcov w X = \sum_k w k *: (col k X *m ctr (col k X)).
  apply/matrixP=> c d; rewrite mxE summxE; apply: eq_bigr => k _.
  by rewrite mxE [(_ *m _) c d]mxE big_ord1 ctrE !mxE.
rewrite /form ctrK mulmx_sumr mulmx_suml summxE; apply: eq_bigr => k _.
rewrite -scalemxAr -scalemxAl mxE; congr (_ * _).
rewrite mulmxA -[_ *m ctr v]mulmxA -ctrM [col k X]colE mulmxA -colE normCK mxE big_ord1 ctrE.
by rewrite [col _ _ _ _]mxE.
Qed.
Lemma wcov_pd n nN (w : 'I_nN -> C) (X : 'M[C]_(n, nN)) : (forall k, 0 < w k) -> row_free X -> pd (wcov w X).
Proof.
move=> w0 fX; have [h p] := wcov_psd X (fun k => ltW (w0 k)); split=> // v v0.
rewrite lt_neqAle p andbT eq_sym; have := form_wcov w X (ctr v); rewrite ctrK formE sq_qf => ->.
apply/negP; rewrite psumr_eq0; last by move=> k _; rewrite mulr_ge0 ?exprn_ge0 // ltW.
move/allP => h0; have : ctr v *m X = 0.
  apply/rowP => k; have := h0 k (mem_index_enum _).
  by rewrite /= mulf_eq0 gt_eqF //= sqrf_eq0 normr_eq0 => /eqP ->; rewrite mxE.
by move/eqP; rewrite (mulmx_free_eq0 _ fX) -[0]ctr0 => /eqP /(@ctr_inj C) /eqP; apply/negP.
Qed.

Variables (nS nF nN : nat).
Local Notation nC := (nS + 0)%N.
Variables (X : sig C nF nN nC) (w : sig C nF nN nS).
Hypothesis fX : forall f, row_free (X f).
Hypothesis wp : forall f s n, 0 < w f s n.
Local Notation V f k := (wcov (w f k) (X f)).
Local Notation D W f := (\det (full_demix (W f) (0 : 'M[C]_(0, nS)))).
Lemma Vpd f k : pd (V f k). Proof. exact: wcov_pd. Qed.
(* power of source s for the demixing matrix W *)
Local Notation pw W f s := (form (V f s) (ctr (row s W)) (ctr (row s W))).

Lemma ip_source_exact (W : filt C nF nS nC) (J0 : filt C nF 0 nS) (k : 'I_nS) : (forall f, D W f != 0) ->
  exists (W' : filt C nF nS nC) (J : filt C nF 0 nS), ip_source X w 0 (W, J0) k = Ok (W', J) /\ forall f,
   [/\ forall i, i != k -> row i (W' f) = row i (W f), D W' f != 0, pw (W' f) f k = 1 &
       forall U : 'M[C]_(nS, nC), (forall i, i != k -> row i U = row i (W f)) ->
       `|\det (full_demix U (0 : 'M[C]_(0, nS)))| ^+ 2 <= `|D W' f| ^+ 2 * pw U f k].
Proof.
move=> dW; rewrite /ip_source /orthogonal_constraint ltnn; cbn [bind].
set J := [ffun=> 0].
have JE f : J f = 0 by rewrite ffunE.
pose P f (x : 'cV[C]_nC) := full_demix (W f) 0 *m V f k *m x = delta_mx (lshift 0 k) 0.
have [f|r [-> hr]] := @gather_pick _ _ 0 (fun f => solve_loaded_general
   (ip_WV (W f) (J f) (ip_V X w k f)) (delta_mx (lshift 0 k) 0 : 'cV[C]_nC) 0 0) P.
  rewrite ip_WVE ip_VE JE; apply: slg0; rewrite unitmx_mul unitmxE unitfE dW /=.
  exact/pd_unit/Vpd.
cbn [bind]; eexists; exists J; split; first by [].
move=> f.
set W' := [ffun _ => _].
have hrow i : i != k -> row i (W' f) = row i (W f).
  by move=> ne; apply/rowP=> c; rewrite !mxE ffunE mxE (negbTE ne).
have x0 : r f != 0.
  apply/eqP => e; have := hr f; rewrite /P e mulmx0 => /matrixP /(_ (lshift 0 k) 0).
  by rewrite !mxE !eqxx => /eqP; rewrite eq_sym oner_eq0.
set q := form (V f k) (r f) (r f).
have q0 : 0 < q by have [_ p] := Vpd f k; exact: p.
set a := (sqrtC q)^-1.
have a0 : 0 < a by rewrite invr_gt0 sqrtC_gt0.
have hk : row k (W' f) = a *: ctr (r f).
  apply/rowP=> c; rewrite mxE ffunE mxE eqxx scaleE ip_VE mxE ctrE mulrC; congr (_ * _).
  rewrite -/q (Creal_ReP _ (gtr0_real q0)) clamp_id //; exact: ltW.
have h1 : pw (W' f) f k = 1.
  rewrite hk ctrZ ctrK conj_Creal ?gtr0_real // formE sqZl sqZr sq_qf mulrA.
  rewrite conj_Creal ?gtr0_real // /a -invfM -expr2 sqrtCK mulVf //; exact: lt0r_neq0.
split=> //.
- rewrite (det_row_change (full_row _ hrow) (hr f)) full_rowk hk -!scalemxAl mxE.
  by rewrite mulf_neq0 // mulf_neq0 ?gt_eqF.
move=> U hU; have := @ip_exact_opt C nS 0 (V f k) (W f) 0 k (r f) a (W' f) U (pd_psd (Vpd f k)) (hr f) hrow hk hU.
by cbv zeta; rewrite h1 mulr1.
Qed.

Lemma c76_source_lemma (W : filt C nF nS nC) (J : filt C nF 0 nS) (k : 'I_nS) :
  (forall f, \det (full_demix (W f) (J f)) != 0) ->
  exists (W' : filt C nF nS nC) (J' : filt C nF 0 nS), ip_source X w 0 (W, J) k = Ok (W', J') /\ forall f,
   [/\ forall i, i != k -> row i (W' f) = row i (W f), \det (full_demix (W' f) (J' f)) != 0,
       wpower (w f k) ((W' f *m X f) k) = 1 &
       forall U : 'M[C]_(nS, nC), (forall i, i != k -> row i U = row i (W f)) ->
       `|\det (full_demix U (J f))| ^+ 2
       <= `|\det (full_demix (W' f) (J' f))| ^+ 2 * wpower (w f k) ((U *m X f) k)].
Proof.
move=> dW; have j0 (Z : 'M[C]_(0, nS)) : Z = 0 by exact: flatmx0.
have [f|W' [J' [h1 h2]]] := @ip_source_exact W J k; first by rewrite -(j0 (J f)).
exists W', J'; split=> // f; have [a1 a2 a3 a4] := h2 f.
have pE (U : 'M[C]_(nS, nC)) : pw U f k = wpower (w f k) ((U *m X f) k).
  by rewrite form_wcov; apply: eq_bigr => n _; rewrite -row_mul mxE.
rewrite (j0 (J' f)) -pE; split=> // U hU; by rewrite (j0 (J f)) -pE; exact: a4.
Qed.

Lemma ip_fold_exact (l : seq 'I_nS) : uniq l -> forall (W : filt C nF nS nC) (J0 : filt C nF 0 nS), (forall f, D W f != 0) ->
  exists (W' : filt C nF nS nC) (J : filt C nF 0 nS), foldM (ip_source X w 0) (W, J0) l = Ok (W', J) /\ forall f,
   [/\ forall i, i \notin l -> row i (W' f) = row i (W f), D W' f != 0,
       (forall k, k \in l -> pw (W' f) f k = 1) &
       `|D W f| ^+ 2 <= `|D W' f| ^+ 2 * \prod_(k <- l) pw (W f) f k].
Proof.
elim: l => [|k l IH] ul W J0 dW.
  by exists W, J0; split=> // f; split=> //; rewrite big_nil mulr1.
move: ul; rewrite cons_uniq => /andP [kl ul].
have [W1 [J1 [h1 p1]]] := ip_source_exact J0 k dW.
have [f|W2 [J2 [h2 p2]]] := IH ul W1 J1; first by have [_ ? _ _] := p1 f.
exists W2, J2; split.
  have -> : foldM (ip_source X w 0) (W, J0) (k :: l)
    = let* s := ip_source X w 0 (W, J0) k in foldM (ip_source X w 0) s l by [].
  by rewrite h1.
move=> f; have [a1 a2 a3 a4] := p1 f; have [b1 b2 b3 b4] := p2 f.
have rk i : i \in l -> row i (W1 f) = row i (W f).
  by move=> il; apply: a1; apply: contraNneq kl => <-.
split=> //.
- by move=> i; rewrite inE negb_or => /andP [ik il]; rewrite b1 // a1.
- by move=> i; rewrite inE => /orP [/eqP -> |il]; [rewrite b1|exact: b3].
have p0 i : 0 <= pw (W f) f i by have [_ p] := pd_psd (Vpd f i); exact: p.
apply: (le_trans (a4 _ (fun _ _ => erefl))); rewrite big_cons mulrCA [X in _ <= X]mulrC ler_wpmul2r //.
by apply: (le_trans b4); rewrite (eq_big_seq (fun k => pw (W f) f k)) // => i il; rewrite rk.
Qed.
End Source.

(* ---- one iteration, any number of iterations *)
Section Iter.
Variable C : numClosedFieldType.
Variables (lg : C -> C) (nS nF nN : nat).
Hypothesis ll : log_like lg.
Hypothesis lm : log_mul lg.
Hypothesis f0 : (0 < nF)%N.
Hypothesis n0 : (0 < nN)%N.
Local Notation nC := (nS + 0)%N.
Variables (X : sig C nF nN nC) (em : C).
Hypothesis m0 : 0 < em.
Hypothesis fX : forall f, row_free (X f).
Local Notation D W f := (\det (full_demix (W f) (0 : 'M[C]_(0, nS)))).
Local Notation iter := (ip_iter (laplace_model em) X 0).
Local Notation cost Y W := (laplace_cost_si lg Y (fun f => full_demix (W f) (0 : 'M[C]_(0, nS)))).

Lemma ip_iter_cost (Y : sig C nF nN nS) (W : filt C nF nS nC) (J : filt C nF 0 nS) :
  (forall f, D W f != 0) -> (forall f, Y f = W f *m X f) ->
  (forall s n, em <= 2%:R * frame_norm Y s n) ->
  exists (Y' : sig C nF nN nS) (W' : filt C nF nS nC) (J' : filt C nF 0 nS),
   iter (Y, W, J, tt) = Ok (Y', W', J', tt) /\
   [/\ forall f, D W' f != 0, forall f, Y' f = W' f *m X f & cost Y' W' <= cost Y W].
Proof.
move=> dW YE hu.
have rp s n : 0 < 2%:R * frame_norm Y s n := lt_le_trans m0 (hu s n).
have r0 s n : 0 < frame_norm Y s n by have := rp s n; rewrite pmulr_rgt0 ?ltr0n.
have wE f s n : (laplace_model em tt Y).1 f s n = (2%:R * frame_norm Y s n)^-1.
  rewrite /= ffunE mxE -(clamp_id (hu s n)) /laplace !mxE div1r.
  by congr (clamp (_ * sqrtC _) _)^-1; apply: eq_bigr => g _; rewrite mag_sqE mxE.
pose wt f : 'M[C]_(nS, nN) := \matrix_(s, n) (2%:R * frame_norm Y s n)^-1.
set g := ip_gain 0 Y.
have gp s : 0 < g s.
  rewrite /g /ip_gain mean_powE.
  have z0 : 0 <= mean_pow Y s.
    by rewrite divr_ge0 ?ler0n // sumr_ge0 // => f _; rewrite sumr_ge0 // => n _; rewrite exprn_ge0.
  rewrite clamp_id // /mean_pow divr_gt0 ?ltr0n ?muln_gt0 ?f0 // exchange_big /=.
  rewrite (bigD1 (Ordinal n0)) //= ltr_paddr ?sumr_ge0 //.
    by move=> n _; rewrite sumr_ge0 // => f _; rewrite exprn_ge0.
  by have := exprn_gt0 2 (r0 s (Ordinal n0)); rewrite /frame_norm sqrtCK.
have sg s : 0 < sqrtC (g s) by rewrite sqrtC_gt0.
pose p (Z : sig C nF nN nS) f s := \sum_n `|Z f s n| ^+ 2 / (2%:R * frame_norm Y s n).
rewrite /ip_iter.
have -> : laplace_model em tt Y = ((laplace_model em tt Y).1, tt) by [].
rewrite -/g; set W1 := (V in (V, J)); set w1 := (V in ip_source _ V _).
have w1E f s n : w1 f s n = g s / (2%:R * frame_norm Y s n).
  by rewrite /w1 ffunE mxE wE mulrC.
have W1E f : W1 f = scale_rows (fun s => (sqrtC (g s))^-1) (W f).
  by apply/matrixP => s c; rewrite /W1 ffunE !mxE clamp_id ?(ltW (sg s)) // mulrC.
have w1p f s n : 0 < w1 f s n by rewrite w1E divr_gt0.
have sgE s : `|(sqrtC (g s))^-1| ^+ 2 = (g s)^-1 by rewrite gtr0_norm ?invr_gt0 // exprVn sqrtCK.
have dE f : `|D W1 f| ^+ 2 = `|D W f| ^+ 2 / \prod_s g s.
  rewrite W1E det_scale normrM exprMn mulrC; congr (_ * _).
  rewrite -prodfV -[RHS](_ : \prod_s `|(sqrtC (g s))^-1| ^+ 2 = _).
    by rewrite normr_prod -prodrXl.
  by apply: eq_bigr => s _; rewrite sgE.
have pg : 0 < \prod_s g s by apply: prodr_gt0.
have dW1 f : D W1 f != 0.
  rewrite -normr_eq0 -sqrf_eq0 dE mulf_neq0 ?invr_eq0 ?(gt_eqF pg) //.
  by rewrite sqrf_eq0 normr_eq0.
have [W' [J' [h1 h2]]] := ip_fold_exact fX w1p (enum_uniq 'I_nS) J dW1.
rewrite h1; cbn [bind].
set Y' : sig C nF nN nS := [ffun f => W' f *m X f].
have Y'E f : Y' f = W' f *m X f by rewrite ffunE.
exists Y', W', J'; split=> //.
have dW' f : D W' f != 0 by have [] := h2 f.
have rowE Z (U : 'M[C]_(nS, nC)) f s : Z = U *m X f -> forall n, (row s U *m X f) 0 n = Z s n.
  by move=> -> n; rewrite -row_mul mxE.
have pY f s : form (wcov (w1 f s) (X f)) (ctr (row s (W1 f))) (ctr (row s (W1 f))) = p Y f s.
  rewrite form_wcov; apply: eq_bigr => n _.
  have -> : (row s (W1 f) *m X f) 0 n = (sqrtC (g s))^-1 * Y f s n.
    rewrite W1E YE !mxE mulr_sumr; apply: eq_bigr => c _; by rewrite !mxE mulrA.
  rewrite w1E normrM exprMn sgE [X in X * _]mulrC -mulrA mulVKf ?gt_eqF // mulrC.
  by [].
have pY' f s : p Y' f s = (g s)^-1.
  have [_ _ hk _] := h2 f; have := hk s; rewrite mem_enum => /(_ isT) h.
  apply: (mulfI (lt0r_neq0 (gp s))); rewrite mulfV ?gt_eqF // -h form_wcov mulr_sumr.
  by apply: eq_bigr => n _; rewrite w1E (rowE _ _ _ _ (Y'E f)) mulrA mulrAC.
have pp f s : 0 < p Y f s.
  rewrite -pY; have [_ q] := wcov_pd (w1p f s) (fX f); apply: q.
  have u1 : full_demix (W1 f) 0 \in unitmx by rewrite unitmxE unitfE.
  have := row_neq0 (lshift 0 s) u1; rewrite full_rowk; apply: contra => /eqP e.
  by rewrite -[row _ _]ctrK e ctr0.
split=> //.
apply: (@si_core C lg nS nF nN ll lm f0 n0 Y Y' g (fun f => `|D W f| ^+ 2) (fun f => `|D W' f| ^+ 2)) => //.
- by move=> f; rewrite exprn_gt0 // normr_gt0.
move=> f; have [_ _ _ hd] := h2 f; rewrite dE in hd.
rewrite mulrCA [X in _ <= X]mulrC -ler_pdivr_mulr //; apply: (le_trans hd).
by rewrite big_enum /= ler_wpmul2l ?exprn_ge0 //; under eq_bigr do rewrite pY.
Qed.

Lemma ip_loop_cost k (Y : sig C nF nN nS) (W : filt C nF nS nC) (J : filt C nF 0 nS) :
  (forall f, D W f != 0) -> (forall f, Y f = W f *m X f) ->
  (forall i z, (i < k)%N -> ip_loop (laplace_model em) X 0 i (Y, W, J, tt) = Ok z ->
    forall s n, em <= 2%:R * frame_norm z.1.1.1 s n) ->
  exists (Y' : sig C nF nN nS) (W' : filt C nF nS nC) (J' : filt C nF 0 nS),
   ip_loop (laplace_model em) X 0 k (Y, W, J, tt) = Ok (Y', W', J', tt) /\
   [/\ forall f, D W' f != 0, forall f, Y' f = W' f *m X f & cost Y' W' <= cost Y W].
Proof.
elim: k Y W J => [|k IH] Y W J dW YE hu; first by exists Y, W, J.
have [Y1 [W1 [J1 [e1 [d1 y1 c1]]]]] := ip_iter_cost J dW YE (hu 0%N _ (ltn0Sn _) erefl).
have st i : ip_loop (laplace_model em) X 0 i.+1 (Y, W, J, tt) = ip_loop (laplace_model em) X 0 i (Y1, W1, J1, tt).
  by cbn [ip_loop]; rewrite e1.
have [i z ik e|Y2 [W2 [J2 [e2 [d2 y2 c2]]]]] := IH Y1 W1 J1 d1 y1.
  by apply: (hu i.+1) => //; rewrite st.
exists Y2, W2, J2; rewrite st; split=> //; split=> //; exact: (le_trans c2).
Qed.

Lemma J0 (J : 'M[C]_(0, nS)) : J = 0. Proof. exact: flatmx0. Qed.
Lemma c76_iteration_lemma (Y : sig C nF nN nS) (W : filt C nF nS nC) (J : filt C nF 0 nS) :
  (forall f, \det (full_demix (W f) (J f)) != 0) -> (forall f, Y f = W f *m X f) ->
  (forall s n, em <= 2%:R * frame_norm Y s n) ->
  exists (Y' : sig C nF nN nS) (W' : filt C nF nS nC) (J' : filt C nF 0 nS),
   iter (Y, W, J, tt) = Ok (Y', W', J', tt) /\
   [/\ forall f, \det (full_demix (W' f) (J' f)) != 0, forall f, Y' f = W' f *m X f &
       laplace_cost_si lg Y' (fun f => full_demix (W' f) (J' f))
       <= laplace_cost_si lg Y (fun f => full_demix (W f) (J f))].
Proof.
move=> dW YE hu; have [f|Y' [W' [J' [h1 [h2 h3 h4]]]]] := @ip_iter_cost Y W J _ YE hu.
  by rewrite -(J0 (J f)).
exists Y', W', J'; split=> //; split=> // [f|]; first by rewrite (J0 (J' f)).
move: h4; rewrite /laplace_cost_si; congr (_ - _ <= _ - _); apply: eq_bigr => f _.
  by rewrite (J0 (J' f)).
by rewrite (J0 (J f)).
Qed.
Lemma c76_run_lemma k :
  (forall i z, (i < k)%N -> ip_raw (laplace_model em) X 0 i tt = Ok z ->
     forall s n, em <= 2%:R * frame_norm z.1.1.1 s n) ->
  exists (Y' : sig C nF nN nS) (W' : filt C nF nS nC) (J' : filt C nF 0 nS),
   ip_raw (laplace_model em) X 0 k tt = Ok (Y', W', J', tt) /\
   [/\ forall f, \det (full_demix (W' f) (J' f)) != 0, forall f, Y' f = W' f *m X f &
       laplace_cost_si lg Y' (fun f => full_demix (W' f) (J' f))
       <= laplace_cost_si lg (fun f => usubmx (X f)) (fun=> 1%:M : 'M[C]_(nS + 0))].
Proof.
have rawE i : ip_raw (laplace_model em) X 0 i tt
  = ip_loop (laplace_model em) X 0 i ([ffun f => usubmx (X f)], [ffun=> row_mx 1%:M 0], [ffun=> 0], tt).
  by rewrite /ip_raw /orthogonal_constraint ltnn.
have d1 f : \det (full_demix (([ffun=> row_mx 1%:M 0] : filt C nF nS nC) f) (0 : 'M[C]_(0, nS))) = 1.
  by rewrite det_full0 ffunE row_mxKl det1.
move=> hu; rewrite rawE.
have [f|f|i z ik e|Y' [W' [J' [h1 [h2 h3 h4]]]]] := @ip_loop_cost k [ffun f => usubmx (X f)] [ffun=> row_mx 1%:M 0] [ffun=> 0].
- by rewrite d1 oner_eq0.
- by rewrite !ffunE -[in RHS](vsubmxK (X f)) mul_row_col mul1mx mul0mx addr0.
- by apply: (hu i) => //; rewrite rawE.
exists Y', W', J'; split=> //; split=> // [f|]; first by rewrite (J0 (J' f)).
move: h4; rewrite /laplace_cost_si; congr (_ <= _).
  by congr (_ - _); apply: eq_bigr => f _; rewrite (J0 (J' f)).
congr (_ * _ - _); last by apply: eq_bigr => f _; rewrite d1 det1.
apply: eq_bigr => s _; congr (lg (_ ^+ 2)); apply: eq_bigr => n _.
by rewrite /frame_norm; congr sqrtC; apply: eq_bigr => f _; rewrite ffunE.
Qed.
End Iter.
