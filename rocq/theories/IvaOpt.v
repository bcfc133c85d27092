(* Optimality of the iterative projection updates. *)
From Coq Require Import Ring Field.
From mathcomp Require Import all_ssreflect all_algebra.
From Verif Require Import CAlg Py LinalgModel LinalgSpec LinalgProofs LinalgBridge TissSpec IvaSpec.
Set Implicit Arguments. Unset Strict Implicit. Unset Printing Implicit Defensive.
Import GRing.Theory Num.Theory Order.TTheory.
Local Open Scope ring_scope.

Section CS.
Variable C : numClosedFieldType.
Add Field Cfield_ivao : (f_ft C).
Ltac cring := fpre; fnorm C; fatoms; ring.

Lemma sqZl n (V : 'M[C]_n) a u v : sq V (a *: u) v = a^* * sq V u v.
Proof. by rewrite /sq ctrZ -!scalemxAl mxE. Qed.
Lemma sqZr n (V : 'M[C]_n) a u v : sq V u (a *: v) = a * sq V u v.
Proof. by rewrite /sq -scalemxAr mxE. Qed.
Lemma sq_qf n (V : 'M[C]_n) u : sq V u u = qf V u. Proof. by []. Qed.
Lemma qf_lin n (V : 'M[C]_n) (a b : C) u v : herm V -> a \is Num.real ->
  qf V (a *: u - b *: v)
  = a ^+ 2 * qf V u - a * (b * (sq V v u)^* + b^* * sq V v u) + `|b| ^+ 2 * qf V v.
Proof.
move=> h ar; rewrite qf_sub !qf_vZ !sqZl !sqZr (CrealP ar) (sq_conj v u h) [`|a|^+2]normCK (CrealP ar).
cring.
Qed.
Lemma psd_cs_pos n (V : 'M[C]_n) u v : psd V -> 0 < qf V v -> `|sq V v u| ^+ 2 <= qf V u * qf V v.
Proof.
move=> [h p] v0; have := p (qf V v *: u - sq V v u *: v).
rewrite qf_lin ?gtr0_real // ![_ * (sq V v u)^*]mulrC ![(sq V v u)^* * _]mulrC -normCK.
set A := qf V u; set B := qf V v; set s := `|sq V v u| ^+ 2.
have -> : B ^+ 2 * A - B * (s + s) + s * B = B * (A * B - s) by cring.
by rewrite pmulr_rge0 // subr_ge0.
Qed.
Lemma psd_cs n (V : 'M[C]_n) u v : psd V -> `|sq V v u| ^+ 2 <= qf V u * qf V v.
Proof.
move=> hV; have [h p] := hV.
have := p v; rewrite le_eqVlt => /orP [/eqP e|]; last exact: psd_cs_pos.
have := p u; rewrite le_eqVlt => /orP [/eqP e'|]; last first.
  move/(psd_cs_pos v hV); rewrite -(sq_conj v u h) norm_conjC => /le_trans -> //.
  by rewrite mulrC.
have := p (1 *: u - sq V v u *: v); rewrite qf_lin ?real1 // -e -e' !mulr0 add0r addr0 mul1r.
rewrite [_^* * _]mulrC -normCK -mulr2n oppr_ge0 -mulr_natl pmulr_rle0 ?ltr0n //.
Qed.
End CS.

Section Opt.
Variable C : numClosedFieldType.
Add Field Cfield_ivao2 : (f_ft C).
Ltac cring := fpre; fnorm C; fatoms; ring.

(* changing one row of a square matrix with D V x = e_k *)
Lemma det_row_change n (D D' V : 'M[C]_n) (x : 'cV[C]_n) k :
  (forall i, i != k -> row i D' = row i D) -> D *m V *m x = delta_mx k 0 ->
  \det D' = \det D * (row k D' *m V *m x) 0 0.
Proof.
move=> hr hx.
have cE j : cofactor D' k j = cofactor D k j.
  rewrite /cofactor; congr (_ * \det _); apply/matrixP=> a b; rewrite !mxE.
  have ne : lift k a != k by rewrite eq_sym neq_lift.
  by move/rowP: (hr _ ne) => /(_ (lift j b)); rewrite !mxE.
rewrite (expand_det_row D' k).
have -> : \sum_j D' k j * cofactor D' k j = (row k D' *m (\adj D *m (delta_mx k 0 : 'cV[C]_n))) 0 0.
  rewrite [RHS]mxE; apply: eq_bigr => j _; rewrite cE mxE; congr (_ * _).
  by rewrite -colE !mxE.
by rewrite -hx !mulmxA -[row k D' *m _ *m D]mulmxA mul_adj_mx mul_mx_scalar -!scalemxAl mxE.
Qed.

Lemma formE n (V : 'M[C]_n) u v : form V u v = sq V u v. Proof. by []. Qed.

Lemma rls_argmin_uniq m n (A : 'M[C]_(m, n)) b load eps x y :
  rls_argmin A b load eps x -> rls_argmin A b load eps y -> x = y.
Proof.
move=> hx hy; case: (altP (x =P y)) => // ne.
have := hy x ne; have := hx y; rewrite eq_sym => /(_ ne) h1 h2.
by have := lt_trans h1 h2; rewrite ltxx.
Qed.

Variables (nS nB : nat).
Local Notation nC := (nS + nB)%N.
Implicit Types (V : 'M[C]_nC) (W : 'M[C]_(nS, nC)) (J : 'M[C]_(nB, nS)).

Lemma ip_row_norm V W J eps k W' : psd V -> 0 < eps -> ip_row V W J eps k W' ->
  let w := ctr (row k W') in 0 <= form V w w <= 1 /\
  forall x, rls_argmin (full_demix W J *m V) (delta_mx (lshift nB k) 0) eps eps x ->
    eps <= form V x x -> form V w w = 1.
Proof.
move=> hV e0 [_ [x [hx hr]]] w; have [h p] := hV.
have q0 : 0 <= form V x x := p x.
have rq : 'Re (form V x x) = form V x x by apply/Creal_ReP/ger0_real.
set m := Num.max (form V x x) eps.
have m0 : 0 < m by rewrite /m; move: (clamp_gt0 (ger0_real q0) e0).
have wE : w = (sqrtC m)^-1 *: x.
  rewrite /w hr rq ctrZ ctrK -/m conj_Creal // realV ger0_real // sqrtC_ge0; exact: ltW.
have fE : form V w w = form V x x / m.
  rewrite formE sq_qf wE qf_vZ normfV exprVn ger0_norm ?sqrtC_ge0 ?(ltW m0) // sqrtCK mulrC; exact.
split; first rewrite fE divr_ge0 //=; first rewrite ler_pdivr_mulr // mul1r.
  by move: (clamp_geR (ger0_real q0) (gtr0_real e0)).
  exact: ltW.
move=> y hy; rewrite (rls_argmin_uniq hy hx) => le; rewrite fE.
have -> : m = form V x x by exact: (clamp_id le).
by rewrite mulfV // gt_eqF // (lt_le_trans e0).
Qed.

Lemma full_row W W' J k : (forall i, i != k -> row i W' = row i W) ->
  forall i, i != lshift nB k -> row i (full_demix W' J) = row i (full_demix W J).
Proof.
move=> h i ne; apply/rowP=> c; rewrite !mxE; case: splitP => // j e.
have : row j W' = row j W.
  by apply: h; apply: contra_neq ne => jk; apply: val_inj; rewrite /= e jk.
by move/rowP/(_ c); rewrite !mxE.
Qed.
Lemma full_rowk W J k : row (lshift nB k) (full_demix W J) = row k W.
Proof. by apply/rowP=> c; rewrite !mxE (unsplitK (inl k)). Qed.

(* when the system is solved exactly, the new row maximises
   |det [W; J, -I]|^2 / (w^H V w) over all values of row k *)
Lemma ip_exact_opt V W J k (x : 'cV[C]_nC) (a : C) W' U : psd V ->
  full_demix W J *m V *m x = delta_mx (lshift nB k) 0 ->
  (forall i, i != k -> row i W' = row i W) -> row k W' = a *: ctr x ->
  (forall i, i != k -> row i U = row i W) ->
  let w := ctr (row k W') in let u := ctr (row k U) in
  `|\det (full_demix U J)| ^+ 2 * form V w w <= `|\det (full_demix W' J)| ^+ 2 * form V u u.
Proof.
move=> hV hx hW' hk hU; cbv zeta; set w := ctr (row k W'); set u := ctr (row k U).
have [h p] := hV.
rewrite !(det_row_change (full_row _ hU) hx) !(det_row_change (full_row _ hW') hx) !full_rowk.
have -> : (row k U *m V *m x) 0 0 = sq V u x by rewrite /sq /u ctrK.
have -> : (row k W' *m V *m x) 0 0 = a * qf V x by rewrite hk -!scalemxAl mxE.
have -> : form V w w = `|a| ^+ 2 * qf V x.
  by rewrite formE sq_qf /w hk ctrZ ctrK qf_vZ norm_conjC.
rewrite !normrM !exprMn formE sq_qf.
set d := `|\det (full_demix W J)| ^+ 2; set b := `|a| ^+ 2.
have q0 : 0 <= qf V x := p x.
have -> : `|qf V x| ^+ 2 = qf V x * qf V x by rewrite normCK (CrealP (ger0_real q0)).
have -> : d * (b * (qf V x * qf V x)) * qf V u = d * (b * qf V x) * (qf V u * qf V x) by cring.
have -> : d * `|sq V u x| ^+ 2 * (b * qf V x) = d * (b * qf V x) * `|sq V u x| ^+ 2 by cring.
apply: ler_wpmul2l; first by rewrite !mulr_ge0 ?exprn_ge0 ?normr_ge0.
by rewrite [qf V u * _]mulrC; apply: psd_cs.
Qed.
End Opt.
