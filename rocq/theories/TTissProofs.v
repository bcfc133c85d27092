(* T_ISS on a batch computes, for every element of the batch, what the model of one batch element
   (TissModel.v) computes. *)
From Coq Require Import String Ascii ZArith.
From mathcomp Require Import all_ssreflect all_algebra.
From mathcomp Require Import zify.
From Verif Require TorchShape.
From Verif Require Import CAlg Py Batch LinalgModel TissModel TensorModel TOpsModel TSpec TSepSpec TensorProofs TEinsum TOpsProofs TTissModel.
Set Implicit Arguments. Unset Strict Implicit. Unset Printing Implicit Defensive.
Import GRing.Theory Num.Theory Order.TTheory.
Local Open Scope ring_scope.
Arguments clip : simpl never.
Arguments TorchShape.bc2 : simpl never.
Arguments Nat.eqb : simpl never.

Section Steps.
Variable C : numClosedFieldType.
Local Notation tensor := (tensor C).
Variables (nS nB F T N : nat) (B : seq nat) (eps : C).
Local Notation nC := (nS + nB)%N.
Local Notation sig k n t b := (sig_at F n k t b).
Definition taps_at s c (H : tensor) (b : seq nat) : {ffun 'I_F -> taps C T s c} :=
  [ffun f => [ffun t => \matrix_(k, d) at_ H [:: nat_of_ord t, nat_of_ord d, nat_of_ord f, nat_of_ord k & b]]].
Definition xb_at c (X : tensor) (b : seq nat) : {ffun 'I_F -> taps C T c N} :=
  [ffun f => [ffun t => \matrix_(k, n) at_ X [:: nat_of_ord n, nat_of_ord t, nat_of_ord f, nat_of_ord k & b]]].
Lemma tapsE s c H b f t k d : taps_at s c H b f t k d = at_ H [:: nat_of_ord t, nat_of_ord d, nat_of_ord f, nat_of_ord k & b].
Proof. by rewrite !ffunE mxE. Qed.
Lemma xbE c X b f t k n : xb_at c X b f t k n = at_ X [:: nat_of_ord n, nat_of_ord t, nat_of_ord f, nat_of_ord k & b].
Proof. by rewrite !ffunE mxE. Qed.
Definition vcol (v : tensor) (b : seq nat) (f : 'I_F) : 'cV[C]_nS := \col_s at_ v [:: nat_of_ord f, nat_of_ord s & b].
Lemma vcolE v b f s j : vcol v b f s j = at_ v [:: nat_of_ord f, nat_of_ord s & b].
Proof. by rewrite mxE. Qed.

Variable w : tensor.
Hypothesis sw : sh w = [:: N, F, nS & B].

Lemma iss1_at (src : 'I_nS) (Y : tensor) : sh Y = [:: N, F, nS & B] -> (0 < N)%N ->
  exists v, [/\ t_iss1 (Z.of_nat src) Y w eps = Ok v, sh v = [:: F, nS & B] &
    forall b f, inr B b -> vcol v b f = iss1 src (sig nS N Y b f) (sig nS N w b f) eps].
Proof.
move=> sY N0; rewrite /t_iss1 /TorchShape.size {1}sY; cbn [List.nth_error bind].
have [Xs [-> sXs hXs]] := sel2 sY (ltn_ord src); cbn [bind]; rewrite (gtn_eqF N0).
have [t1 [-> s1 h1]] := e_wxz sw sY (sXs : sh (tmap conjC Xs) = _); cbn [bind]; cbv zeta.
have [t2 [-> s2 h2]] := e_wz sw (sXs : sh (tmap (@mag_sq C) Xs) = _); cbn [bind].
have [v [-> sv hv]] := tdivideE eps (s1 : sh (tmap (fun x => x * (1 / N%:R)) t1) = _) (s2 : sh (tmap (fun x => x * (1 / N%:R)) t2) = _); cbn [bind].
have [vs [-> svs hvs]] := sel1 (s2 : sh (tmap (fun x => x * (1 / N%:R)) t2) = _) (ltn_ord src); cbn [bind].
have [u [-> su hu]] := asg1 sv (svs : sh (tmap (fun x => 1 - 1 / sqrtC (clamp x eps)) vs) = _) (ltn_ord src).
exists u; split=> // b f hb; apply/matrixP => s j; rewrite vcolE [RHS]mxE.
rewrite hu /= ?ltn_ord // hvs; cbn [at_ tmap]; rewrite -[nat_of_ord s == src]/(s == src).
have hf (k : 'I_nS) : inr [:: F, nS & B] [:: nat_of_ord f, nat_of_ord k & b] by rewrite /= !ltn_ord.
have d k : at_ t2 [:: nat_of_ord f, nat_of_ord k & b] = \sum_n sig nS N w b f k n * mag_sq (sig nS N Y b f src n).
  by rewrite h2 //; apply: eq_bigr => n _; rewrite !sigE; cbn [at_ tmap]; rewrite hXs.
case: eqP => [e|ne]; first by rewrite d.
rewrite hv //; cbn [at_ tmap]; rewrite d h1 //; congr (divide (_ * _) _ _).
by apply: eq_bigr => n _; rewrite !sigE; cbn [at_ tmap]; rewrite hXs.
Qed.
Lemma iss23_at (Y Zs : tensor) (zf : seq nat -> 'I_F -> 'rV[C]_N) : sh Y = [:: N, F, nS & B] -> sh Zs = [:: N, F & B] ->
  (forall b f n, inr B b -> at_ Zs [:: nat_of_ord n, nat_of_ord f & b] = zf b f 0 n) ->
  exists v, [/\ t_iss23 Y Zs w eps = Ok v, sh v = [:: F, nS & B] &
    forall b f, inr B b -> vcol v b f = iss23 (sig nS N Y b f) (sig nS N w b f) (zf b f) eps].
Proof.
move=> sY sZ hZ; rewrite /t_iss23.
have [t1 [-> s1 h1]] := e_wxz sw sY (sZ : sh (tmap conjC Zs) = _); cbn [bind].
have [t2 [-> s2 h2]] := e_wz sw (sZ : sh (tmap (@mag_sq C) Zs) = _); cbn [bind].
have [v [-> sv hv]] := tdivideE eps s1 s2.
exists v; split=> // b f hb; apply/matrixP => s j; rewrite vcolE [RHS]mxE.
have hf : inr [:: F, nS & B] [:: nat_of_ord f, nat_of_ord s & b] by rewrite /= !ltn_ord.
rewrite hv // h1 // h2 //; congr (divide _ _ _); apply: eq_bigr => n _; rewrite !sigE; cbn [at_ tmap]; by rewrite hZ.
Qed.
(* x - einsum(v, row of x) *)
Lemma sub_outer n (X d v : tensor) (xr : seq nat -> 'I_F -> 'rV[C]_n) : sh X = [:: n, F, nS & B] -> sh d = [:: n, F, nS & B] ->
  (forall b k f j, inr [:: n, F, nS & B] [:: k, f, j & b] -> at_ d [:: k, f, j & b] = at_ v [:: f, j & b] * (if insub f is Some f' then if insub k is Some k' then xr b f' 0 k' else 0 else 0)) ->
  exists X', [/\ tsub X d = Ok X', sh X' = [:: n, F, nS & B] & forall b f, inr B b -> sig nS n X' b f = sig nS n X b f - vcol v b f *m xr b f].
Proof.
move=> sX sd hd; have [X' [e sX' hX']] := tzip_same (fun x y => x - y) sX sd; exists X'; split=> // b f hb.
have hf (k : 'I_n) (j : 'I_nS) : inr [:: n, F, nS & B] [:: nat_of_ord k, nat_of_ord f, nat_of_ord j & b] by rewrite /= !ltn_ord.
by apply/matrixP => j k; rewrite sigE mxE [in RHS]mxE [in RHS]mxE big_ord1 sigE vcolE hX' // hd // !valK.
Qed.
Definition okYWH (st : tensor * tensor * tensor) : Prop :=
  [/\ sh st.1.1 = [:: N, F, nS & B], sh st.1.2 = [:: nC, F, nS & B] & sh st.2 = [:: T, nC, F, nS & B]].
Definition rdYWH (st : tensor * tensor * tensor) (x : seq nat * 'I_F) : issst C nS nB T N :=
  (sig nS N st.1.1 x.1 x.2, sig nS nC st.1.2 x.1 x.2, taps_at nS nC st.2 x.1 x.2).
Lemma step1_at (src : 'I_nS) st : (0 < N)%N -> okYWH st ->
  exists st', [/\ t_step1 w eps (Z.of_nat src) st = Ok st', okYWH st' &
    forall x, inr B x.1 -> rdYWH st' x = step1 (sig nS N w x.1 x.2) eps (rdYWH st x) src].
Proof.
move=> N0; case: st => [[Y W] H] [/= sY sW sH]; rewrite /t_step1.
have [v [-> sv hv]] := iss1_at src sY N0; cbn [bind].
have [Ys [-> sYs hYs]] := sel2 sY (ltn_ord src); cbn [bind].
have [d [-> sd hd]] := e_vx sv sYs; cbn [bind].
have [|Y' [-> sY' hY']] := @sub_outer N Y d v (fun b f => row src (sig nS N Y b f)) sY sd.
  move=> b k f j h; rewrite hd // hYs; congr (_ * _).
  case/and4P: h => h1 h2 _ _; by rewrite (insubT (fun x => x < F)%N h2) (insubT (fun x => x < N)%N h1) mxE sigE.
cbn [bind]; have [Ws [-> sWs hWs]] := sel2 sW (ltn_ord src); cbn [bind].
have [d2 [-> sd2 hd2]] := e_vd sv sWs; cbn [bind].
have [|W' [-> sW' hW']] := @sub_outer nC W d2 v (fun b f => row src (sig nS nC W b f)) sW sd2.
  move=> b k f j h; rewrite hd2 // hWs; congr (_ * _).
  case/and4P: h => h1 h2 _ _; by rewrite (insubT (fun x => x < F)%N h2) (insubT (fun x => x < nC)%N h1) mxE sigE.
cbn [bind]; have [Hs [-> sHs hHs]] := sel3 sH (ltn_ord src); cbn [bind].
have [d3 [-> sd3 hd3]] := e_vdt sv sHs; cbn [bind].
have [H' [e sH' hH']] := tzip_same (fun x y => x - y) sH sd3; rewrite /tsub e; cbn [bind].
eexists; split; [reflexivity|by split|move=> [b f] /= hb].
rewrite /rdYWH /step1 /= hY' // hW' // hv //; congr (_, _, _).
apply/ffunP => t; apply/matrixP => j k; rewrite tapsE ffunE mxE [X in _ = _ + X]mxE mxE big_ord1 tapsE [row _ _ _ _]mxE tapsE.
have h : inr [:: T, nC, F, nS & B] [:: nat_of_ord t, nat_of_ord k, nat_of_ord f, nat_of_ord j & b] by rewrite /= !ltn_ord.
by rewrite hH' // hd3 // hHs -hv // vcolE.
Qed.
Section Bg.
Variables (Zt J : tensor).
Hypothesis sZ : sh Zt = [:: N, F, nB & B].
Hypothesis sJ : sh J = [:: nS, F, nB & B].
Definition okYW (st : tensor * tensor) : Prop := sh st.1 = [:: N, F, nS & B] /\ sh st.2 = [:: nC, F, nS & B].
Lemma step2_at (H : tensor) (bak : 'I_nB) st : okYW st -> 
  exists st', [/\ t_step2 w eps nS Zt J (Z.of_nat bak) st = Ok st', okYW st' &
    forall x, inr B x.1 -> rdYWH (st', H) x = step2 (sig nS N w x.1 x.2) eps (sig nB N Zt x.1 x.2) (sig nB nS J x.1 x.2) (rdYWH (st, H) x) bak].
Proof.
case: st => [Y W] [/= sY sW]; rewrite /t_step2.
have [Zb [-> sZb hZb]] := sel2 sZ (ltn_ord bak); cbn [bind].
have [|v [-> sv hv]] := @iss23_at Y Zb (fun b f => row bak (sig nB N Zt b f)) sY sZb; first by move=> b f n hb; rewrite mxE sigE hZb.
cbn [bind]; have [d [-> sd hd]] := e_vx sv sZb; cbn [bind].
have [|Y' [-> sY' hY']] := @sub_outer N Y d v (fun b f => row bak (sig nB N Zt b f)) sY sd.
  move=> b k f j h; rewrite hd // hZb; congr (_ * _).
  case/and4P: h => h1 h2 _ _; by rewrite (insubT (fun x => x < F)%N h2) (insubT (fun x => x < N)%N h1) mxE sigE.
cbn [bind]; have [Jb [-> sJb hJb]] := sel2 sJ (ltn_ord bak); cbn [bind].
have [d2 [-> sd2 hd2]] := e_vd sv sJb; cbn [bind].
have [W1 [-> sW1 hW1]] := slice_to0 sW; cbn [bind].
have [W2 [e2 sW2 hW2]] := tzip_same (fun x y => x - y) sW1 sd2; rewrite /tsub e2; cbn [bind].
have [W3 [-> sW3 hW3]] := assign_to0 sW sW2; cbn [bind].
have lt : (nS + bak < nC)%N by rewrite ltn_add2l.
have -> : Z.add (Z.of_nat nS) (Z.of_nat bak) = Z.of_nat (nS + bak) by lia.
have [Wb [-> sWb hWb]] := sel0 sW3 lt; cbn [bind].
have [Wv [e3 sWv hWv]] := tzip_same +%R sWb sv; rewrite /tadd e3; cbn [bind].
have [W4 [-> sW4 hW4]] := asg0 sW3 sWv lt; cbn [bind].
eexists; split; [reflexivity|by split|move=> [b f] /= hb].
rewrite /rdYWH /step2 /= hY' // hv //; congr (_, _, _).
apply/matrixP => j k; rewrite sigE.
have hf : inr [:: F, nS & B] [:: nat_of_ord f, nat_of_ord j & b] by rewrite /= !ltn_ord.
rewrite hW4 // hWv // hWb hW3 // hW3 //.
rewrite -[k]splitK; case: (split k) => k' /=; rewrite ?row_mxEl ?row_mxEr.
  have lk := ltn_ord k'; rewrite ltn_eqF ?lk; last by apply: ltn_addr.
  rewrite hW2; last by rewrite /= ltn_ord.
  rewrite hW1 hd2; last by rewrite /= ltn_ord.
  by rewrite -hv // mxE [X in _ = _ + X]mxE mxE mxE big_ord1 vcolE [row _ _ _ _]mxE hJb !sigE /=.
rewrite eqn_add2l !ltnNge !leq_addr /= -[nat_of_ord k' == bak]/(k' == bak) -hv //.
rewrite mxE mxE mxE big_ord1 vcolE [delta_mx _ _ _ _]mxE eqxx sigE /=; case: eqP => [->|ne]; rewrite ?mulr1 ?mulr0 ?addr0 //.
Qed.
End Bg.
Section Taps.
Variable Xb : tensor.
Hypothesis sXb : sh Xb = [:: N, T, F, nC & B].
Definition okYH (st : tensor * tensor) : Prop := sh st.1 = [:: N, F, nS & B] /\ sh st.2 = [:: T, nC, F, nS & B].
Lemma step3_at (W : tensor) (src : 'I_nC) (tap : 'I_T) st : okYH st ->
  exists st', [/\ t_step3 w eps Xb (Z.of_nat src) (Z.of_nat tap) st = Ok st', okYH st' &
    forall x, inr B x.1 -> rdYWH (st'.1, W, st'.2) x = step3 (sig nS N w x.1 x.2) eps (xb_at nC Xb x.1 x.2) (rdYWH (st.1, W, st.2) x) (src, tap)].
Proof.
case: st => [Y H] [/= sY sH]; rewrite /t_step3.
have [Xt [-> sXt hXt]] := sel1 sXb (ltn_ord tap); cbn [bind].
have [Xst [-> sXst hXst]] := sel2 sXt (ltn_ord src); cbn [bind].
have [|v [-> sv hv]] := @iss23_at Y Xst (fun b f => row src (xb_at nC Xb b f tap)) sY sXst.
  by move=> b f n hb; rewrite mxE xbE hXst hXt.
cbn [bind]; have [d [-> sd hd]] := e_vx sv sXst; cbn [bind].
have [|Y' [-> sY' hY']] := @sub_outer N Y d v (fun b f => row src (xb_at nC Xb b f tap)) sY sd.
  move=> b k f j h; rewrite hd // hXst hXt; congr (_ * _).
  case/and4P: h => h1 h2 _ _; by rewrite (insubT (fun x => x < F)%N h2) (insubT (fun x => x < N)%N h1) mxE xbE.
cbn [bind]; have [Hs [-> sHs hHs]] := sel1 sH (ltn_ord src); cbn [bind].
have [Hst [-> sHst hHst]] := sel0 sHs (ltn_ord tap); cbn [bind].
have [HV [e sHV hHV]] := tzip_same +%R sHst sv; rewrite /tadd e; cbn [bind].
have [Hs' [-> sHs' hHs']] := asg0 sHs sHV (ltn_ord tap); cbn [bind].
have [H' [-> sH' hH']] := asg1 sH sHs' (ltn_ord src); cbn [bind].
eexists; split; [reflexivity|by split|move=> [b f] /= hb].
rewrite /rdYWH /step3 /= hY' // hv //; congr (_, _, _).
apply/ffunP => t; apply/matrixP => j k; rewrite tapsE ffunE.
have hf : inr [:: F, nS & B] [:: nat_of_ord f, nat_of_ord j & b] by rewrite /= !ltn_ord.
rewrite hH' /= ?ltn_ord // -[nat_of_ord k == src]/(k == src) hHs' // -[nat_of_ord t == tap]/(t == tap) hHV // hHst !hHs.
case: (t =P tap) => [->|ne]; last by rewrite tapsE; case: eqP => // ->.
rewrite -hv // mxE mxE big_ord1 vcolE [delta_mx _ _ _ _]mxE eqxx tapsE /=.
by case: eqP => [->|nk]; rewrite ?mulr1 ?mulr0 ?addr0.
Qed.
End Taps.
End Steps.
