From Coq Require Import Ring Field.
From mathcomp Require Import all_ssreflect all_algebra.
From Verif Require Import CAlg Py Batch LinalgModel LinalgSpec LinalgProofs LinalgBridge.
From Verif Require Import TissModel TissSpec TissProofs TissProofs2 TissBridge.
Set Implicit Arguments. Unset Strict Implicit. Unset Printing Implicit Defensive.
Import GRing.Theory Num.Theory Order.TTheory.
Local Open Scope ring_scope.
Local Open Scope py_scope.

Section B.
Variable C : numClosedFieldType.
Variables (nS nB nF nT dl nN : nat).
Local Notation nC := (nS + nB)%N.
Variable St : Type.
Variable model : St -> sig C nF nN nS -> sig C nF nN nS * St.
Variables (X : sig C nF nN nC) (eps : C).

Lemma pb_fE (W : 'M[C]_(nS, nC)) J ref :
  pb_f W J ref = solve_loaded_general (pb_matrix W J) (pb_target J ref) (c5 C) (c5 C).
Proof.
rewrite /pb_f /pb_matrix /pb_target; case: ifP => // /negbT; rewrite -eqn0Ngt => /eqP z.
have -> : rsubmx W *m J = 0.
  apply/matrixP=> i j; rewrite !mxE big1 // => k _; by have := ltn_ord k; rewrite {2}z.
rewrite addr0; congr solve_loaded_general; case: (split ref) => // r.
by have := ltn_ord r; rewrite {2}z.
Qed.

Lemma c21_lemma n dmc ref m0 : 0 < eps -> (0 < nN)%N ->
  exists Y W J m x (a : 'I_nF -> 'cV[C]_nS),
  [/\ forward nT dl model X eps n.+1 dmc (Some ref) m0 = Ok (Y, W, J, m),
      forward_raw nT dl model X eps n.+1 dmc m0 = Ok x,
      W = stW x /\ J = stJ x,
      (forall f s k, Y f s k = a f s 0 * stY x f s k) &
      (forall f (a' : 'cV[C]_nS), a' != a f ->
        rls_objective (pb_matrix (W f) (J f)) (pb_target (J f) ref) (10%:R ^- 5) (10%:R ^- 5) (a f)
        < rls_objective (pb_matrix (W f) (J f)) (pb_target (J f) ref) (10%:R ^- 5) (10%:R ^- 5) a')].
Proof.
move=> e0 n0; have [x hx] := forward_raw_ok nT dl model X e0 n0 n.+1 dmc m0.
rewrite /forward hx /=.
have := @gather_total _ _ 0 (fun f => pb_f (stW x f) (stJ x f) ref) (fun f => pb_f_ok _ _ _).
case E: (gather _ _) => [a|//] _ /=.
do 4 eexists; exists x, (fun f => a f); split=> //; first by move=> f s k; rewrite ffunE mxE.
move=> f a' ne; have := gather_inv E f; rewrite pb_fE.
have [y [-> h]] := c08_lemma (pb_matrix (stW x f) (stJ x f)) (pb_target (stJ x f) ref) (c5_gt0 C) (c5_gt0 C).
case=> ya; have c0 (M : 'cV[C]_nS) : col 0 M = M by apply/matrixP=> i j; rewrite mxE ord1.
by move: (h 0 a'); rewrite !c0 ya => /(_ ne).
Qed.

(* any exact solution of the system bounds the residual *)
Lemma rls_residual m n (A : 'M[C]_(m,n)) (b : 'cV[C]_m) load e (x xs : 'cV[C]_n) :
  0 < load -> 0 < e ->
  (forall y, y != x -> rls_objective A b load e x < rls_objective A b load e y) ->
  A *m xs = b ->
  \sum_i `|((A *m x) i 0 - b i 0) / Num.max (row_norm A i) e| ^+ 2 <= load * \sum_j `|xs j 0| ^+ 2.
Proof.
move=> l0 e0 h ex.
have le : rls_objective A b load e x <= rls_objective A b load e xs.
  by case: (altP (xs =P x)) => [->//|/h/ltW].
apply: le_trans (_ : rls_objective A b load e x <= _).
  rewrite ler_addl mulr_ge0 ?(ltW l0) //; exact: nrm2_ge0.
apply: (le_trans le); rewrite /rls_objective ex big1 ?add0r // => i _.
by rewrite subrr mul0r normr0 expr0n.
Qed.

Lemma pb_sum (x : st C nS nB nF nT nN St) (a : 'cV[C]_nS) ref f n :
  filter_output dl X (stW x) (fun f => stH x f) (stY x) ->
  pb_matrix (stW x f) (stJ x f) *m a = pb_target (stJ x f) ref ->
  exists b : 'rV[C]_nB,
  \sum_s a s 0 * stY x f s n
  = X f ref n - \sum_k b 0 k * background (X f) (stJ x f) k n
    - \sum_s a s 0 * reverb dl (X f) (fun t => stH x f t) s n.
Proof.
move=> hy /full_solve [b hb]; exists b.
have -> : \sum_s a s 0 * stY x f s n
   = \sum_s a s 0 * (stW x f *m X f) s n - \sum_s a s 0 * reverb dl (X f) (fun t => stH x f t) s n.
  by rewrite -sumrB; apply: eq_bigr => s _; rewrite hy -mulrBr mxE.
congr (_ - _); apply/eqP; rewrite eq_sym subr_eq; apply/eqP.
have -> : X f ref n = ((delta_mx 0 ref : 'rV[C]_nC) *m X f) 0 n by rewrite -rowE mxE.
rewrite -hb -mulmxA /full_demix mul_col_mx mul_row_col mxE; congr (_ + _).
  by rewrite mxE; apply: eq_bigr => s _; rewrite mxE.
rewrite mxE; apply: eq_bigr => k _; congr (_ * _).
have -> : row_mx (stJ x f) (- 1%:M) *m X f = background (X f) (stJ x f).
  by rewrite -{1}[X f]vsubmxK mul_row_col mulNmx mul1mx.
by [].
Qed.

(* ---- C22 *)
Lemma init_Y m0 x : init nT dl X eps m0 = Ok x ->
  forall f, stY (St := St) x f = usubmx (X f).
Proof.
rewrite /init; case: (if _ then _ else _) => [J|//] [<-] f /=.
rewrite demix_derevE /eyeW /zeroH !ffunE -{1}[X f]vsubmxK mul_row_col mul1mx mul0mx addr0.
by rewrite big1 ?subr0 // => t _; rewrite ffunE mul0mx.
Qed.
Lemma c22_lemma dmc pb m0 : 0 < eps ->
  exists J, forward nT dl model X eps 0 dmc pb m0
    = Ok ([ffun f => usubmx (X f)], [ffun f => row_mx 1%:M 0], J, m0).
Proof.
move=> e0; have [x hx] := init_ok nT dl X e0 m0.
have hY := init_Y hx.
have rawE : forward_raw nT dl model X eps 0 dmc m0 = Ok x.
  suff h : forward_raw nT dl model X eps 0 false m0 = Ok x by case: dmc => //; rewrite forward_raw_dmc.
  by rewrite /forward_raw hx.
have eW : stW x = [ffun f => row_mx 1%:M 0] /\ stM x = m0.
  by move: hx; rewrite /init; case: (if _ then _ else _) => [J|//] [<-].
exists (stJ x); rewrite /forward rawE /=.
have eY : stY x = [ffun f => usubmx (X f)] by apply/ffunP => f; rewrite hY ffunE.
by case: eW => <- <-; rewrite -eY; case: pb.
Qed.
End B.

(* ---- C20: a witness for the wrong sign *)
Section Witness.
Variable C : numClosedFieldType.
Definition wX : sig C 1 2 (1 + 1) :=
  [ffun f => \matrix_(c, n) if (c == 0) || (n == 1) then 1 else 0].
Definition wW : 'M[C]_(1, 1 + 1) := row_mx 1%:M 0.
Definition wH : taps C 1 1 (1 + 1) := [ffun t => row_mx 1%:M 0].
Definition wXb := delayed 1 0 wX.
Local Notation u0 := (lshift 1 (0 : 'I_1)).
Local Notation u1 := (rshift 1 (0 : 'I_1)).
Lemma sel (M : 'M[C]_(1 + 1, 2)) n : (row_mx 1%:M 0 *m M) 0 n = M u0 n.
Proof. by rewrite -{1}[M]vsubmxK mul_row_col mul1mx mul0mx addr0 mxE. Qed.
Lemma wXb0 n : wXb 0 0 u0 n = (n == 1)%:R.
Proof.
rewrite delayedE /ago; case/orP: (i01 n) => /eqP ->;
  by rewrite big_mkcond !big_ord_recl big_ord0 /= ?ffunE ?mxE /= ?addr0 ?add0r.
Qed.
Lemma wX0 n : wX 0 u0 n = 1.
Proof. by rewrite ffunE mxE. Qed.
Lemma wX1 n : wX 0 u1 n = (n == 1)%:R.
Proof. by rewrite ffunE mxE /=; case: (n == 1). Qed.
Definition wY : 'M[C]_(1, 2) := demix_derev wX wXb [ffun f => wW] [ffun f => wH] 0.
Lemma wYE n : wY 0 n = (n == 0)%:R.
Proof.
rewrite /wY demix_entry.
have -> : \sum_d [ffun _ => wW] 0 0 d * wX 0 d n = 1.
  transitivity ((wW *m wX 0) 0 n); last by rewrite sel wX0.
  by rewrite [RHS]mxE; apply: eq_bigr => d _; rewrite [in LHS]ffunE.
have -> : \sum_d \sum_t ([ffun _ => wH] : tfilt C 1 1 1 (1+1)) 0 t 0 d * wXb 0 t d n = (n == 1)%:R.
  transitivity ((wW *m wXb 0 0) 0 n); last by rewrite sel wXb0.
  by rewrite [RHS]mxE; apply: eq_bigr => d _; rewrite big_ord1 [([ffun=> wH] : tfilt C 1 1 1 (1+1)) 0]ffunE [wH 0]ffunE.
by case/orP: (i01 n) => /eqP ->; rewrite /= ?subr0 ?subrr.
Qed.
Lemma wNE n : noisy_output wW wH (wX 0) (wXb 0) 0 n = 1 + (n == 1)%:R.
Proof.
rewrite /noisy_output mxDE sel wX0 big_ord1 ffunE; congr (_ + _).
by rewrite sel wXb0.
Qed.
Lemma wcorr0 : xcorr wY (background (wX 0) 0) 0 0 = 0.
Proof.
rewrite mxE big1 ?mul0r // => k _; rewrite wYE /background mul0mx sub0r mxNE [dsubmx _ _ _]mxE wX1.
by case/orP: (i01 k) => /eqP ->; rewrite /= ?mul0r ?rmorphN ?rmorph0 ?oppr0 ?mulr0.
Qed.
Lemma wbg0 eps : bg_objective wY (wX 0) eps (0 : 'M[C]_1) 0 = 0.
Proof.
rewrite /bg_objective !big_ord1 [(0 : 'M_1) _ _]mxE normr0 expr0n mulr0 addr0.
by rewrite wcorr0 mul0r normr0 expr0n.
Qed.
Lemma wA1 : xcorr (noisy_output wW wH (wX 0) (wXb 0)) (usubmx (wX 0)) 0 0 != 0.
Proof.
rewrite mxE sum2 !wNE ![usubmx _ _ _]mxE !wX0 /= !rmorph1 !mulr1 addr0.
by rewrite gt_eqF // divr_gt0 ?ltr0n // ?addr_gt0 ?ltr01.
Qed.
Lemma wA2 : xcorr (noisy_output wW wH (wX 0) (wXb 0)) (dsubmx (wX 0)) 0 0 != 0.
Proof.
rewrite mxE sum2 !wNE ![dsubmx _ _ _]mxE !wX1 /= rmorph0 rmorph1 mulr0 mulr1 add0r.
by rewrite gt_eqF // divr_gt0 ?ltr0n // ?addr_gt0 ?ltr01.
Qed.
Lemma c20_ref eps : 0 < eps ->
  exists J, background_f wW wH (C_XX wX 0) (C_XbarX wX wXb 0) eps = Ok J /\
   bg_objective wY (wX 0) eps (0 : 'M[C]_1) 0 < bg_objective wY (wX 0) eps J 0.
Proof.
move=> e0; rewrite /background_f bg_A xcorr_l xcorr_r slg_ok //=.
eexists; split; first by [].
set J := ctr _; rewrite wbg0 /bg_objective.
rewrite ltr_paddl ?sumr_ge0 // => [i _|]; first exact: exprn_ge0.
rewrite big_ord1 pmulr_rgt0 // exprn_gt0 // normr_gt0.
rewrite /J ctrE conjC_eq0; set A2 := (\matrix_(_, _) _); set b2 := (\matrix_(_, _) _).
apply/eqP => z.
have zz : invmx (ctr A2 *m A2 + eps%:M) *m (ctr A2 *m b2) = 0 by apply/matrixP=> i j; rewrite !ord1 z mxE.
have u := pd_unit (pd_load (psd_gram A2) e0).
have := congr1 (mulmx (ctr A2 *m A2 + eps%:M)) zz; rewrite mulKVmx // mulmx0 => /matrixP /(_ 0 0).
rewrite mxE big_ord1 ctrE [A2 _ _]mxE [b2 _ _]mxE [RHS]mxE => /eqP; apply/negP.
have rw i : row_weight (xcorr (noisy_output wW wH (wX 0) (wXb 0)) (usubmx (wX 0))) eps i != 0.
  by rewrite gt_eqF // row_weight_gt0.
rewrite mulf_neq0 ?conjC_eq0 // mulf_neq0 ?rw //; [exact: wA1|exact: wA2].
Qed.
Lemma c20_wit eps : 0 < eps ->
  exists (X : sig C 1 2 (1 + 1)) (W : 'M[C]_(1, 1 + 1)) (H : taps C 1 1 (1 + 1)) J (J' : 'M[C]_1),
  let Y := demix_derev X (delayed 1 0 X) [ffun f => W] [ffun f => H] 0 in
  [/\ background_f W H (C_XX X 0) (C_XbarX X (delayed 1 0 X) 0) eps = Ok J,
      bg_objective Y (X 0) eps J' 0 < bg_objective Y (X 0) eps J 0
    & xcorr Y (background (X 0) J') 0 0 = 0].
Proof.
move=> e0; have [J [h1 h2]] := c20_ref e0.
by exists wX, wW, wH, J, 0; split=> //; exact: wcorr0.
Qed.
End Witness.

Section B2.
Variable C : numClosedFieldType.
Lemma c18_bg nS nB nT nN (w Y : 'M[C]_(nS, nN))
    (W : 'M[C]_(nS, nS + nB)) (H : taps C nT nS (nS + nB)) Z J eps (b : 'I_nB) (c : 'I_nS) :
  0 < eps -> (forall n, 0 <= w c n) ->
  let Y' := (step2 w eps Z J (Y, W, H) b).1.1 in
  [/\ wpower (w c) (Y' c) <= wpower (w c) (Y c),
      (eps <= wpower (w c) (Z b) -> wcorr (w c) (Y' c) (Z b) = 0)
    & (eps <= wpower (w c) (Z b) ->
       forall u, wpower (w c) (Y' c) <= wenergy (w c) (Y c) (Z b) u)].
Proof.
move=> e0 w0 Y'; have := step23_lemma (erefl (iss23 Y w (row b Z) eps)) e0 w0.
have pE : wpower (w c) (row b Z 0) = wpower (w c) (Z b).
  by apply: eq_bigr => n _; rewrite mxE.
have cE y : wcorr (w c) y (row b Z 0) = wcorr (w c) y (Z b).
  by apply: eq_bigr => n _; rewrite mxE.
have eE y u : wenergy (w c) y (row b Z 0) u = wenergy (w c) y (Z b) u.
  by apply: eq_bigr => n _; rewrite mxE.
move=> -[h1 h2 h3]; split=> //; [by rewrite -pE -cE | by move=> h u; rewrite -eE; apply: h3; rewrite pE].
Qed.
Lemma c18_tap nS nB nT nN (w Y : 'M[C]_(nS, nN))
    (W : 'M[C]_(nS, nS + nB)) (H : taps C nT nS (nS + nB)) (Xb : taps C nT (nS + nB) nN) eps
    (d : 'I_(nS + nB)) (t : 'I_nT) (c : 'I_nS) :
  0 < eps -> (forall n, 0 <= w c n) ->
  let Y' := (step3 w eps Xb (Y, W, H) (d, t)).1.1 in
  [/\ wpower (w c) (Y' c) <= wpower (w c) (Y c),
      (eps <= wpower (w c) (Xb t d) -> wcorr (w c) (Y' c) (Xb t d) = 0)
    & (eps <= wpower (w c) (Xb t d) ->
       forall u, wpower (w c) (Y' c) <= wenergy (w c) (Y c) (Xb t d) u)].
Proof.
move=> e0 w0 Y'; have := step23_lemma (erefl (iss23 Y w (row d (Xb t)) eps)) e0 w0.
have pE : wpower (w c) (row d (Xb t) 0) = wpower (w c) (Xb t d).
  by apply: eq_bigr => n _; rewrite mxE.
have cE y : wcorr (w c) y (row d (Xb t) 0) = wcorr (w c) y (Xb t d).
  by apply: eq_bigr => n _; rewrite mxE.
have eE y u : wenergy (w c) y (row d (Xb t) 0) u = wenergy (w c) y (Xb t d) u.
  by apply: eq_bigr => n _; rewrite mxE.
move=> -[h1 h2 h3]; split=> //; [by rewrite -pE -cE | by move=> h u; rewrite -eE; apply: h3; rewrite pE].
Qed.

Lemma c20_bad nS nB nF nT dl nN (X : sig C nF nN (nS + nB))
    (W : filt C nF nS (nS + nB)) (H : tfilt C nF nT nS (nS + nB)) eps : 0 < eps ->
  exists J, background_update W H X (delayed nT dl X) eps = Ok J /\
  forall f b (J' : 'M[C]_(nB, nS)), row b J' != row b (J f) ->
   let Ybad : 'M[C]_(nS, nN) := \matrix_(s, n) (\sum_c W f s c * X f c n
      + reverb dl (X f) (fun t => H f t) s n) in
   bg_objective Ybad (X f) eps (J f) b < bg_objective Ybad (X f) eps J' b.
Proof.
move=> e0; have [J [h1 h2]] := background_update_ok W H X (delayed nT dl X) e0.
exists J; split=> // f b J' ne; set Ybad := (X in let Y0 := X in _); rewrite /=.
have -> : Ybad = noisy_output (W f) (H f) (X f) (delayed nT dl X f).
  apply/matrixP=> s n; rewrite /Ybad /noisy_output !mxE summxE; congr (_ + _).
  rewrite /reverb exchange_big; apply: eq_bigr => t _; rewrite mxE.
  by apply: eq_bigr => c _; rewrite delayedE.
have [J0 [h3 h4]] := c20_lemma X (delayed nT dl X) (W f) (H f) f e0.
by move: (h2 f) h4; rewrite h3 => -[->]; apply.
Qed.
Lemma c20_good nS nB nF nT dl nN (X : sig C nF nN (nS + nB))
    (W : filt C nF nS (nS + nB)) (H : tfilt C nF nT nS (nS + nB)) (Y : sig C nF nN nS) eps :
  0 < eps -> (forall f t, H f t = 0) -> filter_output dl X W (fun f => H f) Y ->
  exists J, background_update W H X (delayed nT dl X) eps = Ok J /\
  forall f b (J' : 'M[C]_(nB, nS)), row b J' != row b (J f) ->
   bg_objective (Y f) (X f) eps (J f) b < bg_objective (Y f) (X f) eps J' b.
Proof.
move=> e0 hz hy; have [J [h1 h2]] := c20_bad dl X W H e0.
exists J; split=> // f b J' /h2 /=.
have -> // : \matrix_(s, n) (\sum_c W f s c * X f c n + reverb dl (X f) (fun t => H f t) s n) = Y f.
apply/matrixP=> s n; rewrite mxE hy; congr (_ + _); rewrite /reverb !big1 ?oppr0 // => c _;
  rewrite big1 // => t _; by rewrite hz mxE mul0r.
Qed.
Lemma pb_sum0 nS nF dl nN (St : Type) (X : sig C nF nN (nS + 0))
    (x : st C nS 0 nF 0 nN St) (a : 'cV[C]_nS) ref f n :
  filter_output dl X (stW x) (fun f => stH x f) (stY x) ->
  (lsubmx (stW x f))^T *m a = (match split ref with inl r => delta_mx r 0 | inr _ => 0 end) ->
  \sum_s a s 0 * stY x f s n = X f ref n.
Proof.
move=> hy hs.
have hp : pb_matrix (stW x f) (stJ x f) *m a = pb_target (stJ x f) ref.
  rewrite /pb_matrix /pb_target thinmx0 mul0mx addr0; move: hs; by case: (split ref) => [r|[]].
have [b ->] := pb_sum n hy hp.
rewrite big_ord0 subr0 big1 ?subr0 // => s _; rewrite /reverb big1 ?mulr0 // => c _.
by rewrite big_ord0.
Qed.
End B2.
