(* Proofs of C80. *)
From Coq Require Import Ring Field.
From mathcomp Require Import all_ssreflect all_algebra.
From Verif Require Import CAlg Py Batch LinalgModel LinalgSpec LinalgProofs LinalgBridge TissModel
  EigExists SrcModel SrcSpec SrcProofs FiveModel FiveSpec FiveProofs FiveBridge FiveCostModel FiveCostSpec.
Set Implicit Arguments. Unset Strict Implicit. Unset Printing Implicit Defensive.
Import GRing.Theory Num.Theory Order.TTheory.
Local Open Scope ring_scope.

Section Descent.
Variable C : numClosedFieldType.
Add Field fiveC : (f_ft C).
Ltac cring := fpre; fnorm C; fatoms; ring.
Variables (nF nN : nat).
Implicit Types Y : 'M[C]_(nF, nN).
Lemma frame_ge0 Y n : 0 <= frame Y n.
Proof. by rewrite sqrtC_ge0 sumr_ge0 // => f _; rewrite exprn_ge0. Qed.
Lemma frame_sq Y n : frame Y n ^+ 2 = \sum_f `|Y f n| ^+ 2.
Proof. by rewrite sqrtCK. Qed.
Lemma energy_ge0 (a : 'rV[C]_nN) : 0 <= energy a.
Proof. by rewrite sumr_ge0 // => n _; rewrite exprn_ge0. Qed.
Lemma energy_gt0 (a : 'rV[C]_nN) : a != 0 -> 0 < energy a.
Proof.
move=> a0; rewrite lt_def energy_ge0 andbT; apply: contra a0; rewrite /energy psumr_eq0; last first.
  by move=> n _; rewrite exprn_ge0.
move=> /allP h; apply/eqP/matrixP=> i n; rewrite !ord1 mxE; apply/eqP.
by have := h n; rewrite mem_index_enum expf_eq0 /= normr_eq0 => /(_ isT).
Qed.
Lemma wenergy_gt0 (w a : 'rV[C]_nN) : (forall n, 0 < w 0 n) -> a != 0 -> 0 < wenergy w a.
Proof.
move=> w0 a0; rewrite lt_def; apply/andP; split; last first.
  by rewrite sumr_ge0 // => n _; rewrite mulr_ge0 ?exprn_ge0 // ltW.
apply: contra a0; rewrite /wenergy psumr_eq0; last by move=> n _; rewrite mulr_ge0 ?exprn_ge0 // ltW.
move=> /allP h; apply/eqP/matrixP=> i n; rewrite !ord1 mxE; apply/eqP.
have := h n; rewrite mem_index_enum mulf_eq0 (gt_eqF (w0 n)) expf_eq0 /= normr_eq0; exact.
Qed.
(* r' <= (r'^2 / r + r) / 2 *)
Lemma amgm (r s : C) : 0 < r -> 0 <= s -> s <= (s ^+ 2 / r + r) / 2%:R.
Proof.
move=> r0 s0; rewrite ler_pdivl_mulr ?ltr0n //.
have -> : s ^+ 2 / r + r = (s ^+ 2 + r ^+ 2) / r by rewrite mulrDl; congr (_ + _); rewrite expr2 mulfK // gt_eqF.
rewrite ler_pdivl_mulr //; have h : 0 <= (s - r) ^+ 2.
  by rewrite -realEsqr rpredB // ?ger0_real // ltW.
rewrite -subr_ge0; suff -> : s ^+ 2 + r ^+ 2 - s * 2%:R * r = (s - r) ^+ 2 by [].
cring.
Qed.
Variables (Y Y' : 'M[C]_(nF, nN)) (w : 'M[C]_(nF, nN)).
Hypothesis r0 : forall n, 0 < frame Y n.
Hypothesis wE : forall f n, w f n = (2%:R * frame Y n)^-1.
Hypothesis y0 : forall f, row f Y != 0.
Hypothesis y0' : forall f, row f Y' != 0.
Hypothesis opt : forall f, wenergy (row f w) (row f Y') * energy (row f Y) <= wenergy (row f w) (row f Y) * energy (row f Y').
Let w0 f n : 0 < (row f w) 0 n.
Proof. by rewrite mxE wE invr_gt0 mulr_gt0 ?ltr0n. Qed.
Let we f := wenergy (row f w) (row f Y).
Let we' f := wenergy (row f w) (row f Y').
Let e0 f : 0 < we f. Proof. exact: wenergy_gt0. Qed.
Let e0' f : 0 < we' f. Proof. exact: wenergy_gt0. Qed.
Definition best f : C := sqrtC (we f / we' f).
Lemma best_gt0 f : 0 < best f.
Proof. by rewrite sqrtC_gt0 divr_gt0. Qed.
Lemma sum_we (Z : 'M[C]_(nF, nN)) : \sum_f wenergy (row f w) (row f Z) = \sum_n frame Z n ^+ 2 / (2%:R * frame Y n).
Proof.
rewrite exchange_big /=; apply: eq_bigr => n _; rewrite frame_sq mulr_suml; apply: eq_bigr => f _.
by rewrite !mxE wE mulrC.
Qed.
Lemma energyZ (a : C) (x : 'rV[C]_nN) : energy (a *: x) = `|a| ^+ 2 * energy x.
Proof. by rewrite /energy mulr_sumr; apply: eq_bigr => n _; rewrite mxE normrM exprMn. Qed.
Lemma wenergyZ (v : 'rV[C]_nN) (a : C) (x : 'rV[C]_nN) : wenergy v (a *: x) = `|a| ^+ 2 * wenergy v x.
Proof. by rewrite /wenergy mulr_sumr; apply: eq_bigr => n _; rewrite mxE normrM exprMn mulrCA. Qed.
Lemma row_rescale (a : 'I_nF -> C) (Z : 'M[C]_(nF, nN)) f : row f (rescale a Z) = a f *: row f Z.
Proof. by apply/matrixP=> i n; rewrite !mxE. Qed.
Let best2 f : `|best f| ^+ 2 = we f / we' f.
Proof. by rewrite gtr0_norm ?best_gt0 // sqrtCK. Qed.
Lemma norms_le : \sum_n frame (rescale best Y') n <= \sum_n frame Y n.
Proof.
pose R := \sum_n frame Y n.
have h : \sum_n frame (rescale best Y') n ^+ 2 / (2%:R * frame Y n) = \sum_n frame Y n ^+ 2 / (2%:R * frame Y n).
  rewrite -!sum_we; apply: eq_bigr => f _; rewrite row_rescale wenergyZ best2 -/(we' f) divfK ?gt_eqF //.
apply: (@le_trans _ _ (\sum_n (frame (rescale best Y') n ^+ 2 / frame Y n + frame Y n) / 2%:R)).
  by apply: ler_sum => n _; apply: amgm => //; apply: frame_ge0.
have t : 2%:R != 0 :> C by rewrite pnatr_eq0.
have E (Z : 'M[C]_(nF, nN)) : \sum_n (frame Z n ^+ 2 / frame Y n + frame Y n) / 2%:R =
   \sum_n frame Z n ^+ 2 / (2%:R * frame Y n) + R / 2%:R.
  rewrite /R mulr_suml -big_split /=; apply: eq_bigr => n _; rewrite mulrDl invfM; congr (_ + _).
  by rewrite mulrA mulrAC.
rewrite E h -E le_eqVlt; apply/orP; left; apply/eqP; apply: eq_bigr => n _.
have -> : frame Y n ^+ 2 / frame Y n = frame Y n by rewrite expr2 mulfK // gt_eqF.
by rewrite -mulr2n -mulr_natr mulfK.
Qed.
Lemma energies_ge f : energy (row f Y) <= energy (row f (rescale best Y')).
Proof. by rewrite row_rescale energyZ best2 mulrAC ler_pdivl_mulr // [energy (row f Y) * _]mulrC; apply: opt. Qed.
Lemma spread_le : spread (rescale best Y') <= spread Y.
Proof.
have p : 0 < \prod_f energy (row f Y) by apply: prodr_gt0 => f _; apply: energy_gt0.
have pl : \prod_f energy (row f Y) <= \prod_f energy (row f (rescale best Y')).
  by apply: ler_prod => f _; rewrite energy_ge0 energies_ge.
apply: ler_pmul.
- by rewrite exprn_ge0 // sumr_ge0 // => n _; apply: frame_ge0.
- by rewrite invr_ge0 ltW // (lt_le_trans p).
- apply: ler_expn2r; rewrite ?nnegrE ?norms_le // ?sumr_ge0 // => n _; apply: frame_ge0.
- by rewrite lef_pinv ?posrE // (lt_le_trans p).
Qed.
End Descent.

Section One.
Variable C : numClosedFieldType.
Lemma spread_one nN (Y : 'M[C]_(1, nN)) (a : 'I_1 -> C) : 0 < a 0 -> spread (rescale a Y) = spread Y.
Proof.
move=> a0; rewrite /spread !big_ord1 row_rescale energyZ gtr0_norm //.
have fE n : frame (rescale a Y) n = a 0 * frame Y n.
  by rewrite /frame !big_ord1 mxE normrM sqrCK ?mulr_ge0 // sqrCK // gtr0_norm.
rewrite (eq_bigr _ (fun n _ => fE n)) -mulr_sumr muln1 exprMn invfM mulrACA mulfV ?mul1r //.
by rewrite expf_eq0 /= gt_eqF.
Qed.
End One.

Section Five.
Variable C : numClosedFieldType.
Variable eighO : forall n, eigh_oracle C n.
Arguments eighO : clear implicits.
Variables (k nF nN : nat).
Local Notation nC := k.+1.
Variables (X : sig C nF.+1 nN nC) (mic : 'I_nC) (em : C).
Local Notation fwd := (five_forward eighO (lap em) X mic None).
Hypothesis ok : forall n, eigensolver (eighO n).
Hypothesis n0 : (0 < nN)%N.
Hypothesis fp : forall f, full_power (X (lift ord0 f)).
Hypothesis r2 : forall f, real_if_two (sample_cov (X (lift ord0 f))).
Hypothesis m0 : 0 < em.
Lemma fwd_filter n Y m f : fwd n tt = Ok (Y, m) -> exists g, row (lift ord0 f) Y = filtered g (X (lift ord0 f)).
Proof.
case: n => [|n] h; last by have [] := c27_lemma ok n0 (@fp f) (@r2 f) h.
rewrite (fwd0 h) /five_init; set z := \sum_d _.
exists (ctr (z *: row 0 (five_Q eighO (X (lift ord0 f))))); rewrite filteredE ctrK -scalemxAl -row_mul.
by apply/matrixP=> i j; rewrite !ord1 !mxE.
Qed.
Lemma lap_w (Y : 'M[C]_(nF, nN)) f n : em <= 2%:R * frame Y n -> laplace em Y f n = (2%:R * frame Y n)^-1.
Proof.
move=> h; have fE : frame Y n = sqrtC (\sum_f mag_sq (Y f n)).
  by rewrite /frame; congr sqrtC; apply: eq_bigr => g _; rewrite mag_sqE.
by rewrite /laplace mxE -fE clamp_id // div1r.
Qed.
Lemma row_above (Y : 'M[C]_(nF.+1, nN)) f : row f (above_dc Y) = row (lift ord0 f) Y.
Proof. by apply/matrixP=> i n; rewrite !mxE. Qed.
Lemma descent_lemma n Yp mp Y m : fwd n tt = Ok (Yp, mp) -> fwd n.+1 tt = Ok (Y, m) ->
  (forall j, em <= 2%:R * frame (above_dc Yp) j) ->
  (forall f, row f (above_dc Yp) != 0) -> (forall f, row f (above_dc Y) != 0) ->
  exists a : 'I_nF -> C, (forall f, 0 < a f) /\ spread (rescale a (above_dc Y)) <= spread (above_dc Yp).
Proof.
move=> hp h hm y0 y0'.
have r0 j : 0 < frame (above_dc Yp) j.
  have := lt_le_trans m0 (hm j); rewrite pmulr_rgt0 ?ltr0n //.
pose w := laplace em (above_dc Yp).
have wE f j : w f j = (2%:R * frame (above_dc Yp) j)^-1 by apply: lap_w.
exists (best (above_dc Yp) (above_dc Y) w); split; first by move=> f; apply: best_gt0.
apply: spread_le => // f.
have [Yq [mq [hq ex]]] := c62_lemma ok n0 (@fp f) (@r2 f) h.
have e : Yq = Yp by move: hq; rewrite hp => -[<- _].
move: ex; rewrite e /= -/w => ex.
have [j|_ h2] := ex; first by rewrite -/(above_dc Yp) wE rpredV rpredM ?realn ?ger0_real ?frame_ge0.
have [g gE] := fwd_filter f hp; move: (h2 g); rewrite -gE !row_above; exact.
Qed.
End Five.

Section One2.
Variable C : numClosedFieldType.
Lemma one_lemma (eighO : forall n, eigh_oracle C n) k nN (X : sig C 2 nN k.+1) (mic : 'I_k.+1) (em : C) n Yp mp Y m :
  (forall n, eigensolver (eighO n)) -> (0 < nN)%N ->
  full_power (X (lift ord0 0)) -> real_if_two (sample_cov (X (lift ord0 0))) -> 0 < em ->
  five_forward eighO (lap em) X mic None n tt = Ok (Yp, mp) -> five_forward eighO (lap em) X mic None n.+1 tt = Ok (Y, m) ->
  (forall j, em <= 2%:R * frame (above_dc Yp) j) ->
  row 0 (above_dc Yp) != 0 -> row 0 (above_dc Y) != 0 -> spread (above_dc Y) <= spread (above_dc Yp).
Proof.
move=> ok n0 fp r2 m0 hp h hm y0 y0'.
have o1 (P : 'I_1 -> Prop) : P 0 -> forall f, P f by move=> p f; rewrite ord1.
have F1 := o1 (fun f => full_power (X (lift ord0 f))) fp.
have F2 := o1 (fun f => real_if_two (sample_cov (X (lift ord0 f)))) r2.
have F3 := o1 (fun f => is_true (row f (above_dc Yp) != 0)) y0.
have F4 := o1 (fun f => is_true (row f (above_dc Y) != 0)) y0'.
have [a [a0 s]] := descent_lemma ok n0 F1 F2 m0 hp h hm F3 F4.
by move: s; rewrite spread_one.
Qed.
End One2.

(* ---- two frames and two channels: the output is the reference microphone in the frame
   with the smaller weight *)
Section Two.
Variable C : numClosedFieldType.
Add Field fiveC2 : (f_ft C).
Ltac cring := fpre; fnorm C; fatoms; ring.
Variable eighO : forall n, eigh_oracle C n.
Arguments eighO : clear implicits.
Hypothesis ok : forall n, eigensolver (eighO n).
Lemma two_frames (X : 'M[C]_2) (w : 'rV[C]_2) mic : full_power X -> real_if_two (k := 1) (sample_cov X) ->
  w 0 i0 \is Num.real -> w 0 i0 < w 0 i1 ->
  let y := outr eighO X mic (smallest_eigh eighO (five_V w (five_white eighO X))) in
  y 0 i0 = X mic i0 /\ y 0 i1 = 0.
Proof.
move=> fp r2 wr lt y; rewrite /y {y}; set Z := five_white eighO X; set u := smallest_eigh _ _.
have [o e v] := basis_ok (basisP (k := 1) ok r2) fp.
have rl i : five_val eighO X i \is Num.real by apply: gtr0_real; apply: lt_le_trans (tiny_gt0 C 5) (v i).
have G : Z *m ctr Z = 2%:R%:M by apply: gram_white => //; apply: (c26_lemma (k := 1)).
have two : 2%:R != 0 :> C by rewrite pnatr_eq0.
have G' : ctr Z *m Z = 2%:R%:M.
  have : (2%:R^-1 *: Z) *m ctr Z = 1%:M by rewrite -scalemxAl G scale_scalar_mx mulVf.
  move/mulmx1C; rewrite -scalemxAr => /(congr1 (fun M => 2%:R *: M)).
  by rewrite scalerA mulfV // scale1r scale_scalar_mx mulr1.
have wr' n : w 0 n \is Num.real.
  case/orP: (i01 n) => /eqP -> //; have := lt; rewrite -subr_gt0 => /gtr0_real /rpredD /(_ wr).
  by rewrite subrK.
have [_ qV] := five_VE Z wr'.
have [u1 _] := rayleigh 0 (@ok 2%N) (five_V_herm w Z); rewrite -/(smallest_eigh eighO (five_V w Z)) -/u in u1.
pose d : 'rV[C]_2 := \row_n (n == i0)%:R; pose g : 'cV[C]_2 := 2%:R^-1 *: (Z *m ctr d).
have hr : (2%:R^-1 : C)^* = 2%:R^-1 by rewrite conj_Creal // rpredV realn.
have gZ : ctr g *m Z = d by rewrite /g ctrZ ctrM ctrK hr -scalemxAl -mulmxA G' mul_mx_scalar scalerA mulVf // scale1r.
have ng : nrm2 g = 2%:R^-1.
  rewrite nrm2_ctr {2}/g -scalemxAr mulmxA gZ mxZE [(_ *m _) _ _]mxE sum2 !ctrE !mxE /= rmorph1 rmorph0; cring.
have [_ ray] := rayleigh g (@ok 2%N) (five_V_herm w Z).
pose p := ctr u *m Z.
have pe : `|p 0 i0| ^+ 2 + `|p 0 i1| ^+ 2 = 2%:R.
  have : (p *m ctr p) 0 0 = 2%:R.
    by rewrite /p ctrM ctrK mulmxA -[ctr u *m Z *m ctr Z]mulmxA G mul_mx_scalar -scalemxAl mxZE -nrm2_ctr u1 mulr1.
  by rewrite mxE sum2 !ctrE -!normCK.
have p1 : p 0 i1 = 0.
  have wd : wenergy w d = w 0 i0 by rewrite /wenergy sum2 !mxE /= normr0 normr1 expr1n expr0n /= mulr1 mulr0 addr0.
  move: ray; rewrite -/(smallest_eigh eighO (five_V w Z)) -/u !qV gZ -/p ng wd [wenergy w p]sum2.
  rewrite ler_pdivr_mulr ?ltr0n // -pe mulrDr ler_add2l -subr_ge0 -mulrBl => h.
  apply/eqP; rewrite -normr_eq0 -[_ == 0](@expf_eq0 _ _ 2); apply: contraLR h => h.
  rewrite -real_ltNge ?real0 // ?rpredM ?rpredB ?rpredX ?normr_real //.
  rewrite nmulr_rlt0 ?subr_lt0 // lt_def h exprn_ge0 //.
have p0 : `|p 0 i0| ^+ 2 = 2%:R by move: pe; rewrite p1 normr0 expr0n addr0.
have zE : zz eighO X mic u * 2%:R = X mic i0 * (p 0 i0)^*.
  have : (row mic X *m ctr p) 0 0 = zz eighO X mic u * 2%:R.
    rewrite {1}[X](unwhiten o rl) -/Z row_mul /p ctrM ctrK mulmxA -[_ *m Z *m ctr Z]mulmxA G mul_mx_scalar -scalemxAl mxZE.
    by rewrite zzE mulrC.
  by move<-; rewrite mxE sum2 !ctrE p1 rmorph0 mulr0 addr0 mxE.
rewrite outrE -/Z -/p !mxZE p1 mulr0; split=> //.
by apply: (mulIf two); rewrite mulrAC zE -mulrA [(p 0 i0)^* * _]mulrC -normCK p0.
Qed.

Variable em : C.
Definition badF (f : 'I_2) : 'M[C]_2 := if f == i0 then mx22 4%:R 0 1 1 else mx22 1 4%:R 0 1.
Definition bad : sig C 3 2 2 := [ffun g => if unlift ord0 g is Some f then badF f else 0].
Definition badY : 'M[C]_2 := mx22 4%:R 0 1 4%:R.
Definition badY' : 'M[C]_2 := mx22 4%:R 0 1 0.
Lemma badE f : bad (lift ord0 f) = badF f.
Proof. by rewrite ffunE liftK. Qed.
Lemma tiny2 : 10%:R ^- 5 * 33%:R <= 2%:R^-1 :> C.
Proof.
rewrite -[2%:R^-1]mul1r ler_pdivl_mulr ?ltr0n // -mulrA mulrC ler_pdivr_mulr ?exprn_gt0 ?ltr0n //.
by rewrite mul1r -natrM -natrX ler_nat.
Qed.
Lemma sq_add (a b : C) : `|a + b| ^+ 2 <= 2%:R * (`|a| ^+ 2 + `|b| ^+ 2).
Proof.
have par : `|a + b| ^+ 2 + `|a - b| ^+ 2 = 2%:R * (`|a| ^+ 2 + `|b| ^+ 2).
  by rewrite !normCK rmorphB rmorphD; cring.
by rewrite -par ler_addl exprn_ge0.
Qed.
Lemma power_crit (F : 'M[C]_2) : (forall v : 'cV[C]_2, \sum_i `|v i 0| ^+ 2 <= 33%:R * \sum_n `|\sum_c (v c 0)^* * F c n| ^+ 2) ->
  full_power F.
Proof.
move=> h v; rewrite -mulr_suml [leRHS]mulrC.
apply: le_trans (ler_wpmul2l _ (h v)) _; first by rewrite invr_ge0 exprn_ge0 ?ler0n.
rewrite mulrA; apply: ler_wpmul2r tiny2.
by rewrite sumr_ge0 // => n _; rewrite exprn_ge0.
Qed.
Lemma bad_power f : full_power (badF f).
Proof.
rewrite /badF; case: ifP => _; apply: power_crit => v; rewrite !sum2 !mxE /= ?mulr1 ?mulr0 ?add0r ?addr0.
- rewrite -[`|v i0 0|]norm_conjC -[`|v i1 0|]norm_conjC.
  move: (v i0 0)^* (v i1 0)^* => a b.
  have e : `|a| ^+ 2 <= `|a * 4%:R| ^+ 2 by rewrite normrM exprMn ler_pemulr ?exprn_ge0 // normr_nat -natrX ler1n.
  apply: le_trans (ler_add e (lexx _)) _.
  have -> : a * 4%:R = (a * 4%:R + b) + - b by rewrite addrK.
  apply: le_trans (ler_add (sq_add _ _) (lexx _)) _; rewrite normrN addrK.
  set x := `|_ + b| ^+ 2; set y := `|b| ^+ 2; have x0 : 0 <= x by rewrite exprn_ge0.
  have y0 : 0 <= y by rewrite exprn_ge0.
  have -> : 2%:R * (x + y) + y = 2%:R * x + 3%:R * y by cring.
  by rewrite mulrDr; apply: ler_add; apply: ler_wpmul2r => //; rewrite ler_nat.
- rewrite -[`|v i0 0|]norm_conjC -[`|v i1 0|]norm_conjC.
  move: (v i0 0)^* (v i1 0)^* => a b.
  have -> : `|b| ^+ 2 = `|(a * 4%:R + b) + - (a * 4%:R)| ^+ 2 by rewrite [a * 4%:R + b]addrC addrK.
  apply: le_trans (ler_add (lexx _) (sq_add _ _)) _; rewrite normrN normrM exprMn normr_nat.
  set x := `|_ + b| ^+ 2; set y := `|a| ^+ 2; have x0 : 0 <= x by rewrite exprn_ge0.
  have y0 : 0 <= y by rewrite exprn_ge0.
  have -> : y + 2%:R * (x + y * 4%:R ^+ 2) = 33%:R * y + 2%:R * x by cring.
  by rewrite mulrDr ler_add2l; apply: ler_wpmul2r => //; rewrite ler_nat.
Qed.
Lemma bad_cov f : [/\ sample_cov (badF f) i0 i0 = (if f == i0 then 8%:R else 17%:R / 2%:R), sample_cov (badF f) i0 i1 = 2%:R,
  sample_cov (badF f) i1 i0 = 2%:R & sample_cov (badF f) i1 i1 = (if f == i0 then 1 else 2%:R^-1)].
Proof.
have t : 2%:R != 0 :> C by rewrite pnatr_eq0.
rewrite /badF; case: ifP => _; split; rewrite mxE sum2 !mxE /= ?rmorph1 ?rmorph0 ?conjC_nat.
- by apply: (mulIf t); rewrite divfK //; cring.
- by apply: (mulIf t); rewrite divfK //; cring.
- by apply: (mulIf t); rewrite divfK //; cring.
- by apply: (mulIf t); rewrite divfK //; cring.
- by apply: (mulIf t); rewrite !divfK //; cring.
- by apply: (mulIf t); rewrite divfK //; cring.
- by apply: (mulIf t); rewrite divfK //; cring.
- by apply: (mulIf t); rewrite divfK // mulVf //; cring.
Qed.
Lemma tiny15 (x : C) : 1 <= x -> 10%:R ^- 15 <= x.
Proof. by apply: le_trans; rewrite invf_le1 ?exprn_gt0 ?ltr0n // exprn_ege1 // ler1n. Qed.
Lemma bad_two f : real_if_two (k := 1) (sample_cov (badF f)).
Proof.
have [c00 c01 c10 c11] := bad_cov f; rewrite /real_if_two -i0E -i1E c01; split; first exact: realn.
- by apply: tiny15; rewrite normr_nat ler1n.
apply: tiny15; rewrite c12_disc /edelta c00 c01 c10 c11.
have s x : x \is Num.real -> 1 <= x ^+ 2 + 4%:R * (2%:R * 2%:R) :> C.
  by move=> r; rewrite -[leLHS]add0r ler_add ?real_exprn_even_ge0 // -!natrM ler1n.
by case: ifP => _; apply: s; rewrite rpredB ?realn ?real1 ?rpredM ?rpredV ?realn.
Qed.
Hypothesis m0 : 0 < em.
Hypothesis m8 : em <= 8%:R.
Lemma bad_frame0 : frame badY i0 = sqrtC 17%:R.
Proof. by rewrite /frame sum2 !mxE /= normr_nat normr1 -natrX expr1n -(natrD _ _ 1). Qed.
Lemma bad_frame1 : frame badY i1 = 4%:R.
Proof. by rewrite /frame sum2 !mxE /= normr_nat normr0 expr0n add0r sqrCK // ler0n. Qed.
Lemma lt17 : 4%:R < sqrtC 17%:R :> C.
Proof. by rewrite -(@ltr_pexpn2r _ 2) ?nnegrE ?sqrtC_ge0 ?ler0n // sqrtCK -natrX ltr_nat. Qed.
Lemma bad_em j : em <= 2%:R * frame badY j.
Proof.
have h : em <= 2%:R * 4%:R by rewrite -natrM.
case/orP: (i01 j) => /eqP ->; last by rewrite bad_frame1.
by apply: le_trans h _; rewrite ler_pmul2l ?ltr0n // bad_frame0 ltW // lt17.
Qed.
Lemma bad_loop : five_loop eighO (lap em) bad i0 None 1 badY tt = Ok (badY', tt).
Proof.
rewrite /=; congr (Ok (_, _)); apply/matrixP=> f n; rewrite mxE.
set u := [ffun _ => _].
have [] := @two_frames (badF f) (row f (laplace em badY)) i0 (bad_power f) (bad_two f).
- by rewrite [row _ _ _ _]mxE lap_w ?bad_em // bad_frame0 rpredV rpredM ?realn // ger0_real // sqrtC_ge0 ler0n.
- rewrite [row _ _ _ i0]mxE [row _ _ _ i1]mxE !lap_w ?bad_em // bad_frame0 bad_frame1.
  by rewrite ltf_pinv ?posrE ?mulr_gt0 ?sqrtC_gt0 ?ltr0n // ltr_pmul2l ?ltr0n // lt17.
move=> y0 y1.
have E : \sum_c (u f c 0 * (\sum_c0 five_Qinv eighO (no_dc bad f) i0 c0 * u f c0 0)^*)^* * five_white eighO (no_dc bad f) c n =
  outr eighO (badF f) i0 (smallest_eigh eighO (five_V (row f (laplace em badY)) (five_white eighO (badF f)))) 0 n.
  by rewrite [RHS]mxE /zz /u ffunE /no_dc badE.
rewrite [LHS]E {E}; case/orP: (i01 n) => /eqP ->; rewrite ?y0 ?y1 /badF.
all: by case/orP: (i01 f) => /eqP ->; rewrite !mxE.
Qed.
Lemma bad_spread : spread badY < spread badY'.
Proof.
have E1 : spread badY = (sqrtC 17%:R + 4%:R) ^+ 4 / (16%:R * 17%:R).
  rewrite /spread !sum2 bad_frame0 bad_frame1 big_ord_recl big_ord1; congr (_ / (_ * _)).
    by rewrite /energy sum2 !mxE /= normr0 expr0n addr0 normr_nat -natrX.
  by rewrite /energy sum2 !mxE /= normr1 expr1n normr_nat -natrX -(natrD _ 1).
have E2 : spread badY' = 17%:R ^+ 2 / 16%:R.
  have f0 : frame badY' i0 = sqrtC 17%:R.
    by rewrite /frame sum2 !mxE /= normr_nat normr1 -natrX expr1n -(natrD _ _ 1).
  have f1 : frame badY' i1 = 0 by rewrite /frame sum2 !mxE /= normr0 expr0n addr0 sqrtC0.
  rewrite /spread !sum2 f0 f1 addr0 big_ord_recl big_ord1 (exprM _ 2 2) sqrtCK; congr (_ / _).
  rewrite /energy !sum2 !mxE /= normr0 expr0n !addr0 normr_nat normr1 expr1n mulr1 -natrX //.
rewrite E1 E2 ltr_pdivr_mulr ?mulr_gt0 ?ltr0n // mulrA divfK ?pnatr_eq0 //.
have h : sqrtC 17%:R + 4%:R < 2%:R * sqrtC 17%:R :> C.
  by rewrite mulrDl mul1r ltr_add2l lt17.
apply: (@lt_trans _ _ ((2%:R * sqrtC 17%:R) ^+ 4)).
  have q0 : 0 <= sqrtC 17%:R :> C by rewrite sqrtC_ge0 ler0n.
  have a : sqrtC 17%:R + 4%:R \is @Num.nneg C by rewrite nnegrE addr_ge0 ?ler0n.
  have b : 2%:R * sqrtC 17%:R \is @Num.nneg C by rewrite nnegrE mulr_ge0 ?ler0n.
  by rewrite ltr_pexpn2r.
by rewrite exprMn (exprM (sqrtC _) 2 2) sqrtCK -!natrX -!natrM ltr_nat.
Qed.
Lemma bad_row f : [/\ row f badY = row i0 (bad (lift ord0 f)), row f badY != 0 & row f badY' != 0].
Proof.
rewrite badE /badF; split.
- by apply/matrixP=> i n; rewrite !ord1; case/orP: (i01 f) => /eqP ->; case/orP: (i01 n) => /eqP ->; rewrite !mxE.
- apply/eqP=> /matrixP /(_ 0 i0) /eqP; case/orP: (i01 f) => /eqP ->; rewrite !mxE /= ?pnatr_eq0 ?oner_eq0 //.
- apply/eqP=> /matrixP /(_ 0 i0) /eqP; case/orP: (i01 f) => /eqP ->; rewrite !mxE /= ?pnatr_eq0 ?oner_eq0 //.
Qed.
End Two.

Section Fin.
Variable C : numClosedFieldType.
Lemma bad_lemma (em : C) : 0 < em -> em <= 8%:R ->
  exists (X : sig C 3 2 2) (Y Y' : 'M[C]_2),
  [/\ forall f, full_power (X (lift ord0 f)), forall f, real_if_two (k := 1) (sample_cov (X (lift ord0 f))),
      forall f, row f Y = row ord0 (X (lift ord0 f)), forall j, em <= 2%:R * frame Y j &
  [/\ forall f, row f Y != 0, forall f, row f Y' != 0,
      (forall eighO : (forall n, eigh_oracle C n), (forall n, eigensolver (eighO n)) ->
         five_loop eighO (lap em) X ord0 None 1 Y tt = Ok (Y', tt)) &
      spread Y < spread Y']].
Proof.
move=> m0 m8; exists (bad C), (badY C), (badY' C).
have z : ord0 = i0 :> 'I_2 by apply/val_inj.
split; [by move=> f; rewrite badE; apply: bad_power|by move=> f; rewrite badE; apply: bad_two| |exact: bad_em|split].
- by move=> f; rewrite z; have [] := bad_row C f.
- by move=> f; have [] := bad_row C f.
- by move=> f; have [] := bad_row C f.
- by move=> eighO ok; rewrite z; apply: bad_loop.
- exact: bad_spread.
Qed.
Lemma one_ex : exists (eighO : forall n, eigh_oracle C n) Yp mp Y m,
  let X : sig C 2 2 1 := [ffun=> \row_n (n.+1)%:R] in
  [/\ forall n, eigensolver (eighO n), full_power (X (lift ord0 0)), real_if_two (k := 0) (sample_cov (X (lift ord0 0))),
      five_forward eighO (lap 1) X 0 None 1 tt = Ok (Yp, mp) &
  [/\ five_forward eighO (lap 1) X 0 None 2 tt = Ok (Y, m), forall j, 1 <= 2%:R * frame (above_dc Yp) j,
      row 0 (above_dc Yp) != 0 & row 0 (above_dc Y) != 0]].
Proof.
pose X : sig C 2 2 1 := [ffun=> \row_n (n.+1)%:R].
have [eighO ok] := eigensolver_exists C.
have [Yp [mp hp]] := five_returns eighO (@lap C 1 2 1) X 0 1 tt.
have [Y [m h]] := five_returns eighO (@lap C 1 2 1) X 0 2 tt.
have w0 m' Z f j : 0 <= (lap (1 : C) m' Z : 'M[C]_(1, 2) * unit).1 f j.
  by have /andP[/ltW] := laplace_usable Z (ltr01 : 0 < (1 : C)) f j.
have [_ rp] := c28_lemma ok w0 hp; have [_ r] := c28_lemma ok w0 h.
have X0 : row 0 (X (lift ord0 0)) = \row_n (n.+1)%:R by apply/matrixP=> i j; rewrite !mxE ffunE !mxE.
have nz : \row_n (n.+1)%:R != 0 :> 'rV[C]_2.
  by apply/eqP=> /matrixP /(_ 0 i0) /eqP; rewrite !mxE oner_eq0.
have Xe c n : X (lift ord0 0) c n = (n.+1)%:R by rewrite ffunE mxE.
have fp : full_power (X (lift ord0 0)).
  move=> v; rewrite big_ord1 sum2 !big_ord1 !Xe mulr1 norm_conjC -mulrDl ler_pdivl_mulr ?ltr0n //.
  set x := `|v 0 0| ^+ 2; have x0 : 0 <= x by rewrite exprn_ge0.
  apply: (@le_trans _ _ x); last by rewrite ler_addl exprn_ge0.
  rewrite mulrAC ler_pimull // ler_pdivr_mull ?exprn_gt0 ?ltr0n // mulr1 -natrX ler_nat.
  by [].
exists eighO, Yp, mp, Y, m; rewrite -/X; split=> //; split=> //.
- move=> j; rewrite /frame big_ord1 [above_dc _ _ _]mxE.
  have -> : Yp (lift ord0 0) j = row (lift ord0 0) Yp 0 j by rewrite mxE.
  rewrite rp X0 mxE normr_nat sqrCK ?ler0n // -natrM ler1n.
  by [].
- by rewrite row_above rp X0.
- by rewrite row_above r X0.
Qed.
End Fin.
