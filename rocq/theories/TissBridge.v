From Coq Require Import Ring Field.
From mathcomp Require Import all_ssreflect all_algebra.
From Verif Require Import CAlg Py Batch LinalgModel LinalgSpec LinalgProofs LinalgBridge.
From Verif Require Import TissModel TissSpec TissProofs TissProofs2.
Set Implicit Arguments. Unset Strict Implicit. Unset Printing Implicit Defensive.
Import GRing.Theory Num.Theory Order.TTheory.
Local Open Scope ring_scope.
Local Open Scope py_scope.

Section B.
Variable C : numClosedFieldType.
Add Field Cfield_tissb : (f_ft C).
Ltac cring := fpre; fnorm C; fatoms; ring.
Ltac cfield := fpre; fnorm C; fatoms; field.
Variables (nS nB nF nT dl nN : nat).
Local Notation nC := (nS + nB)%N.

(* ---- C07 *)
Lemma ago_ext m (M M' : 'M[C]_(m, nN)) c (n : 'I_nN) k :
  (forall p : 'I_nN, (p + k = n)%N -> M c p = M' c p) -> ago M c n k = ago M' c n k.
Proof. by move=> h; apply: eq_bigr => p /eqP /h. Qed.

Lemma tap_delay (t : 'I_nT) (p n : 'I_nN) : (p + (nT + dl - t) = n)%N -> (p + dl < n)%N.
Proof.
move=> <-; rewrite ltn_add2l -(ltn_add2l t) subnKC.
  by rewrite ltn_add2r.
by rewrite (leq_trans (ltnW (ltn_ord t))) // leq_addr.
Qed.
Lemma demix_entry (X : sig C nF nN nC) Xb (W : filt C nF nS nC) (H : tfilt C nF nT nS nC) f s n :
  demix_derev X Xb W H f s n = \sum_d W f s d * X f d n - \sum_d \sum_t H f t s d * Xb f t d n.
Proof. by rewrite /demix_derev ffunE mxE. Qed.
Lemma causal (X X' : sig C nF nN nC) (W : filt C nF nS nC) (H : tfilt C nF nT nS nC) f s (n : 'I_nN) :
  (forall c (p : 'I_nN), (p <= n)%N -> X f c p = X' f c p) ->
  demix_derev X (delayed nT dl X) W H f s n = demix_derev X' (delayed nT dl X') W H f s n.
Proof.
move=> h; rewrite !demix_entry; congr (_ - _).
  by apply: eq_bigr => c _; rewrite h.
apply: eq_bigr => c _; apply: eq_bigr => t _; rewrite !delayedE; congr (_ * _).
apply: ago_ext => p /tap_delay lt; apply: h; rewrite (leq_trans (leq_addr dl p)) //; exact: ltnW.
Qed.
Lemma reverb_old (X X' : sig C nF nN nC) (H : tfilt C nF nT nS nC) f s (n : 'I_nN) :
  (forall c (p : 'I_nN), (p + dl < n)%N -> X f c p = X' f c p) ->
  \sum_d \sum_t H f t s d * delayed nT dl X f t d n
  = \sum_d \sum_t H f t s d * delayed nT dl X' f t d n.
Proof.
move=> h; apply: eq_bigr => c _; apply: eq_bigr => t _; rewrite !delayedE; congr (_ * _).
by apply: ago_ext => p /tap_delay; apply: h.
Qed.
Lemma no_direct (X X' : sig C nF nN nC) (W : filt C nF nS nC) (H : tfilt C nF nT nS nC) f s (n : 'I_nN) :
  (forall c (p : 'I_nN), (p + dl < n)%N -> X f c p = X' f c p) ->
  demix_derev X (delayed nT dl X) W H f s n - \sum_c W f s c * X f c n
  = demix_derev X' (delayed nT dl X') W H f s n - \sum_c W f s c * X' f c n.
Proof.
move=> /reverb_old h; rewrite !demix_entry h.
by rewrite addrAC subrr [in RHS]addrAC subrr.
Qed.

(* ---- C15 *)
Lemma c15_lemma (St : Type) (model : St -> sig C nF nN nS -> sig C nF nN nS * St)
    (X : sig C nF nN nC) (eps : C) n dmc m0 x :
  forward_raw nT dl model X eps n dmc m0 = Ok x ->
  filter_output dl X (stW x) (fun f => stH x f) (stY x).
Proof.
move=> h; apply: invS_filter; move: h.
have -> : forward_raw nT dl model X eps n dmc m0 = forward_raw nT dl model X eps n false m0.
  by case: dmc => //; rewrite forward_raw_dmc.
rewrite /forward_raw; case E: (init _ _ _ _ _) => [x0|//] /=.
apply: (iterate_inv (P := @invS C nS nB nF nT dl nN St X)); last exact: init_inv E.
move=> a b; exact: one_iter_inv.
Qed.

(* ---- C18 *)
Lemma step1_other (w Y : 'M[C]_(nS, nN)) (W : 'M[C]_(nS, nC)) (H : taps C nT nS nC) eps src c :
  (0 < nN)%N -> 0 < eps -> c != src -> (forall n, 0 <= w c n) ->
  let Y' := (step1 w eps (Y, W, H) src).1.1 in
  [/\ wpower (w c) (Y' c) <= wpower (w c) (Y c),
      (eps <= wpower (w c) (Y src) / nN%:R -> wcorr (w c) (Y' c) (Y src) = 0)
    & (eps <= wpower (w c) (Y src) / nN%:R ->
       forall u, wpower (w c) (Y' c) <= wenergy (w c) (Y c) (Y src) u)].
Proof.
move=> n0 e0 ne w0 Y'.
have yE n : Y' c n = Y c n - iss1 src Y w eps c 0 * Y src n.
  by rewrite /Y' /= mxBE outer_entry [row _ _ _ _]mxE.
have N0 : 0 < nN%:R :> C by rewrite ltr0n.
set p := wpower (w c) (Y src); set q := wcorr (w c) (Y c) (Y src).
have p0 : 0 <= p by exact: wpower_ge0.
have vE : iss1 src Y w eps c 0 = q / (nN%:R * clamp (p / nN%:R) eps).
  by rewrite iss1_other // -/p -/q invfM [RHS]mulrA.
have pr : p / nN%:R \is Num.real by rewrite ger0_real // divr_ge0 // ltW.
have d0 : 0 < nN%:R * clamp (p / nN%:R) eps by rewrite mulr_gt0 // clamp_gt0.
have eE : wpower (w c) (Y' c) = wenergy (w c) (Y c) (Y src) (iss1 src Y w eps c 0).
  by rewrite /wpower /wenergy; apply: eq_bigr => n _; rewrite yE.
split.
- rewrite eE vE; apply: wenergy_dec => //.
  rewrite mulrC -ler_pdivr_mulr //; apply: clamp_geR => //; exact: gtr0_real.
- move=> h; have pp : 0 < p.
    by move: (lt_le_trans e0 h); rewrite pmulr_lgt0 // invr_gt0.
  rewrite -[RHS](@wcorr_resid _ _ (w c) (Y c) (Y src) pp); apply: eq_bigr => n _.
  by rewrite yE vE clamp_id // mulrC [nN%:R * _]mulrC divfK ?gt_eqF // mulrC -/p -/q.
- move=> h u; have pp : 0 < p.
    by move: (lt_le_trans e0 h); rewrite pmulr_lgt0 // invr_gt0.
  rewrite eE vE clamp_id // [nN%:R * _]mulrC divfK ?gt_eqF //; exact: wenergy_min.
Qed.
Lemma step1_self (w Y : 'M[C]_(nS, nN)) (W : 'M[C]_(nS, nC)) (H : taps C nT nS nC) eps src :
  (0 < nN)%N -> 0 < eps -> eps <= wpower (w src) (Y src) / nN%:R ->
  let Y' := (step1 w eps (Y, W, H) src).1.1 in
  wpower (w src) (Y' src) / nN%:R = 1.
Proof.
move=> n0 e0 h Y'.
have N0 : 0 < nN%:R :> C by rewrite ltr0n.
set p := wpower (w src) (Y src) / nN%:R in h.
have p0 : 0 < p := lt_le_trans e0 h.
have yE n : Y' src n = Y src n / sqrtC p.
  rewrite /Y' /= mxBE outer_entry [row _ _ _ _]mxE iss1_src clamp_id // -/p.
  by rewrite div1r mulrBl mul1r opprB [LHS]addrC subrK mulrC.
have -> : wpower (w src) (Y' src) = wpower (w src) (Y src) / p.
  rewrite /wpower mulr_suml; apply: eq_bigr => n _; rewrite yE normrM exprMn normrV ?unitfE ?gt_eqF ?sqrtC_gt0 //.
  by rewrite exprVn [`|sqrtC p|]ger0_norm ?sqrtCK ?mulrA // ltW // sqrtC_gt0.
by rewrite mulrAC -/p mulfV // gt_eqF.
Qed.
Lemma step23_lemma (w Y : 'M[C]_(nS, nN)) (z : 'rV[C]_nN) eps c (v : 'cV[C]_nS) :
  v = iss23 Y w z eps -> 0 < eps -> (forall n, 0 <= w c n) ->
  let Y' := Y - v *m z in
  [/\ wpower (w c) (Y' c) <= wpower (w c) (Y c),
      (eps <= wpower (w c) (z 0) -> wcorr (w c) (Y' c) (z 0) = 0)
    & (eps <= wpower (w c) (z 0) ->
       forall u, wpower (w c) (Y' c) <= wenergy (w c) (Y c) (z 0) u)].
Proof.
move=> vE0 e0 w0 Y'.
have yE n : Y' c n = Y c n - v c 0 * z 0 n by rewrite /Y' mxBE outer_entry.
set p := wpower (w c) (z 0); set q := wcorr (w c) (Y c) (z 0).
have p0 : 0 <= p by exact: wpower_ge0.
have vE : v c 0 = q / clamp p eps by rewrite vE0 iss23E.
have d0 : 0 < clamp p eps by rewrite clamp_gt0 // ger0_real.
have eE : wpower (w c) (Y' c) = wenergy (w c) (Y c) (z 0) (v c 0).
  by rewrite /wpower /wenergy; apply: eq_bigr => n _; rewrite yE.
split.
- rewrite eE vE; apply: wenergy_dec => //.
  apply: clamp_geR; [exact: ger0_real|exact: gtr0_real].
- move=> h; have pp : 0 < p := lt_le_trans e0 h.
  rewrite -[RHS](@wcorr_resid _ _ (w c) (Y c) (z 0) pp); apply: eq_bigr => n _.
  by rewrite yE vE clamp_id.
- move=> h u; have pp : 0 < p := lt_le_trans e0 h.
  rewrite eE vE clamp_id //; exact: wenergy_min.
Qed.

(* ---- C20 *)
Lemma xcorrE m n (A : 'M[C]_(m, nN)) (B : 'M[C]_(n, nN)) : xcorr A B = nN%:R^-1 *: (A *m ctr B).
Proof.
apply/matrixP=> i j; rewrite !mxE mulrC; congr (_ * _); by apply: eq_bigr => k _; rewrite ctrE.
Qed.
Definition noisy_output (W : 'M[C]_(nS, nC)) (H : taps C nT nS nC) (Xf : 'M[C]_(nC, nN))
    (Xbf : taps C nT nC nN) : 'M[C]_(nS, nN) := W *m Xf + \sum_t H t *m Xbf t.

Lemma bg_A (X : sig C nF nN nC) Xb (W : 'M[C]_(nS, nC)) (H : taps C nT nS nC) f :
  W *m C_XX X f + \sum_t H t *m C_XbarX X Xb f t = xcorr (noisy_output W H (X f) (Xb f)) (X f).
Proof.
have -> : C_XX X f = xcorr (X f) (X f) by [].
rewrite xcorrE -scalemxAr xcorrE /noisy_output mulmxDl scalerDr mulmxA; congr (_ + _).
rewrite mulmx_suml scaler_sumr; apply: eq_bigr => t _.
have -> : C_XbarX X Xb f t = xcorr (Xb f t) (X f) by [].
by rewrite xcorrE -scalemxAr mulmxA.
Qed.
Lemma xcorr_l (Y : 'M[C]_(nS, nN)) (X : 'M[C]_(nC, nN)) : lsubmx (xcorr Y X) = xcorr Y (usubmx X).
Proof. by apply/matrixP=> i j; rewrite !mxE; congr (_ / _); apply: eq_bigr => k _; rewrite !mxE. Qed.
Lemma xcorr_r (Y : 'M[C]_(nS, nN)) (X : 'M[C]_(nC, nN)) : rsubmx (xcorr Y X) = xcorr Y (dsubmx X).
Proof. by apply/matrixP=> i j; rewrite !mxE; congr (_ / _); apply: eq_bigr => k _; rewrite !mxE. Qed.
Lemma xcorr_bg (Y : 'M[C]_(nS, nN)) (X : 'M[C]_(nC, nN)) (J : 'M[C]_(nB, nS)) :
  xcorr Y (background X J) = xcorr Y (usubmx X) *m ctr J - xcorr Y (dsubmx X).
Proof.
by rewrite !xcorrE /background ctrB ctrM mulmxBr scalerBr mulmxA -scalemxAl.
Qed.
Lemma rls_bg (Y : 'M[C]_(nS, nN)) (X : 'M[C]_(nC, nN)) eps (J : 'M[C]_(nB, nS)) b :
  rls_objective (xcorr Y (usubmx X)) (col b (xcorr Y (dsubmx X))) eps eps (ctr (row b J))
  = bg_objective Y X eps J b.
Proof.
rewrite /rls_objective /bg_objective; congr (_ + _ * _); last first.
  by apply: eq_bigr => j _; rewrite ctrE mxE norm_conjC.
apply: eq_bigr => i _; congr (`| _ / _| ^+ 2).
rewrite xcorr_bg mxBE [col _ _ _ _]mxE; congr (_ - _).
by rewrite !mxE; apply: eq_bigr => j _; congr (_ * _); rewrite !ctrE mxE.
Qed.
Lemma c20_lemma (X : sig C nF nN nC) Xb (W : 'M[C]_(nS, nC)) (H : taps C nT nS nC) f eps :
  0 < eps -> exists J, background_f W H (C_XX X f) (C_XbarX X Xb f) eps = Ok J /\
  forall b J', row b J' != row b J ->
   bg_objective (noisy_output W H (X f) (Xb f)) (X f) eps J b
   < bg_objective (noisy_output W H (X f) (Xb f)) (X f) eps J' b.
Proof.
move=> e0; rewrite /background_f bg_A xcorr_l xcorr_r; set Y := noisy_output _ _ _ _.
have [x [-> h]] := c08_lemma (xcorr Y (usubmx (X f))) (xcorr Y (dsubmx (X f))) e0 e0.
exists (ctr x); split=> // b J' ne; rewrite -!rls_bg.
have e : ctr (row b (ctr x)) = col b x by apply/matrixP=> i j; rewrite ctrE !mxE conjCK.
rewrite e; apply: h; apply: contra_neq ne => e2.
by apply: (@ctr_inj C); rewrite e2 e.
Qed.

(* ---- C21 *)
Lemma full_solve (W : 'M[C]_(nS, nC)) (J : 'M[C]_(nB, nS)) (a : 'cV[C]_nS) (ref : 'I_nC) :
  (lsubmx W + rsubmx W *m J)^T *m a
   = match split ref with inl r => delta_mx r 0 | inr r => (row r J)^T end
  <-> exists b : 'rV[C]_nB, row_mx a^T b *m full_demix W J = delta_mx 0 ref.
Proof.
have dE : delta_mx 0 ref = row_mx (match split ref with inl r => delta_mx 0 r | inr _ => 0 end)
                                  (match split ref with inl _ => 0 | inr r => delta_mx 0 r end) :> 'rV[C]_nC.
  apply/rowP=> j; rewrite !mxE eqxx /=.
  case: (splitP ref) => [r er|r er]; case: (splitP j) => [k ek|k ek]; rewrite mxE //=.
  - by rewrite -!(inj_eq val_inj) /= er ek.
  - by rewrite -(inj_eq val_inj) /= er ek; apply/eqP; rewrite pnatr_eq0 eqb0 gtn_eqF // (leq_trans (ltn_ord r)) // leq_addr.
  - by rewrite -(inj_eq val_inj) /= er ek; apply/eqP; rewrite pnatr_eq0 eqb0 ltn_eqF // (leq_trans (ltn_ord k)) // leq_addr.
  - by rewrite -!(inj_eq val_inj) /= er ek eqn_add2l.
rewrite dE /full_demix.
have mE (b : 'rV[C]_nB) : row_mx a^T b *m col_mx W (row_mx J (- 1%:M))
   = row_mx (a^T *m lsubmx W + b *m J) (a^T *m rsubmx W - b).
  by rewrite mul_row_col -{1}[W]hsubmxK !mul_mx_row add_row_mx mulmxN mulmx1.
pose e1 : 'rV[C]_nS := match split ref with inl r => delta_mx 0 r | inr _ => 0 end.
pose e2 : 'rV[C]_nB := match split ref with inl _ => 0 | inr r => delta_mx 0 r end.
rewrite -/e1 -/e2.
have r1 : match split ref with inl r => delta_mx r 0 | inr r => (row r J)^T end = (e1 + e2 *m J)^T.
  rewrite /e1 /e2; case: (split ref) => r.
    by rewrite mul0mx addr0 trmx_delta.
  by rewrite add0r -rowE.
rewrite r1; split=> [h|[b]].
  exists (a^T *m rsubmx W - e2); rewrite mE; congr row_mx; last by rewrite opprB addrC subrK.
  have := congr1 trmx h; rewrite trmx_mul !trmxK mulmxDr mulmxA => e.
  by rewrite mulmxBl addrA e addrK.
rewrite mE => /eq_row_mx [h1 h2]; apply: trmx_inj; rewrite trmx_mul !trmxK mulmxDr mulmxA.
by rewrite -h1 -h2 mulmxBl addrACA subrr addr0.
Qed.
End B.
