From Coq Require Import Ring Field.
From mathcomp Require Import all_ssreflect all_algebra.
From Verif Require Import CAlg Py LinalgModel LinalgSpec LinalgProofs LinalgBridge.
From Verif Require Import TissModel TissSpec IvaModel IvaSpec IvaProofs IvaOpt IvaIp2.
Set Implicit Arguments. Unset Strict Implicit. Unset Printing Implicit Defensive.
Import GRing.Theory Num.Theory Order.TTheory.
Local Open Scope ring_scope.

Section B.
Variable C : numClosedFieldType.

Lemma wcov_psd n nN (w : 'I_nN -> C) (X : 'M[C]_(n, nN)) : (forall k, 0 <= w k) -> psd (wcov w X).
Proof.
move=> w0.
have -> : wcov w X = \sum_k w k *: (col k X *m ctr (col k X)).
  apply/matrixP=> c d; rewrite mxE summxE; apply: eq_bigr => k _.
  by rewrite mxE [(_ *m _) c d]mxE big_ord1 ctrE !mxE.
by apply: psd_sum => k _; apply: psdZ => //; exact: psd_outer.
Qed.

Variables (nF nN : nat).
Lemma ip2_VE (X w : 'M[C]_(2, nN)) k : (forall k n, 0 <= w k n) ->
  ip2_V X w k = nN%:R^-1 *: wcov (w k) X.
Proof.
move=> w0; rewrite /ip2_V.
have -> : \matrix_(c, d) ((\sum_n w k n * X c n * (X d n)^*) / nN%:R) = nN%:R^-1 *: wcov (w k) X.
  by apply/matrixP=> c d; rewrite !mxE mulrC; congr (_ * _); apply: eq_bigr => n _; rewrite mulrA.
rewrite hermiteE ctrZ; have [-> _] := wcov_psd X (w0 k).
rewrite conj_Creal ?rpredV ?realn // -mulr2n -scaler_nat scalerA mul1r mulVf ?scale1r //.
by rewrite pnatr_eq0.
Qed.

Variable St : Type.
Variable model : St -> sig C nF nN 2 -> sig C nF nN 2 * St.
Variables (Xo : sig C nF nN 2) (eps : C).

Lemma ip2_none n m0 : ip2_forward model Xo eps n None m0
  = ((ip2_loop model Xo eps n m0).1.1.1, (ip2_loop model Xo eps n m0).2).
Proof. by rewrite /ip2_forward; case: (ip2_loop _ _ _ _ _) => [[[]]]. Qed.

Definition ip2_w (wt Y : sig C nF nN 2) (f : 'I_nF) : 'M[C]_(2, nN) :=
  \matrix_(s, k) (wt f s k * Num.max (mean_pow Y s) (10%:R ^- 5)).

Lemma ip2_step n mic m0 Y m : ip2_forward model Xo eps n None m0 = (Y, m) ->
  let wt := (model m Y).1 in
  exists Y' W out, [/\ ip2_forward model Xo eps n.+1 None m0 = (Y', (model m Y).2),
    ip2_forward model Xo eps n.+1 (Some mic) m0 = (out, (model m Y).2),
    forall f, Y' f = W f *m Xo f,
    forall f, W f = hermite (ip2_eigvec (ip2_V (Xo f) (ip2_w wt Y f) i0) (ip2_V (Xo f) (ip2_w wt Y f) i1) eps) &
    forall f s k, out f s k = inv_2x2 (W f) (10%:R ^- 6) mic s * Y' f s k].
Proof.
rewrite ip2_none => -[hY hm] wt.
have lE : ip2_loop model Xo eps n.+1 m0 = ip2_iter model Xo eps (ip2_loop model Xo eps n m0) by [].
case E0: (ip2_loop model Xo eps n m0) hY hm => [[[Y0 W0] A0] m1] /= hY hm.
rewrite E0 hY hm in lE.
rewrite /ip2_forward lE /ip2_iter -/wt; case E: (model m Y) => [wt1 m2].
have we : wt = wt1 by rewrite /wt E.
rewrite we /=; eexists; exists (fun f => hermite (ip2_eigvec (ip2_V (Xo f) (ip2_w wt1 Y f) i0) (ip2_V (Xo f) (ip2_w wt1 Y f) i1) eps)).
have wE f : \matrix_(s, n0) (wt1 f s n0 * ip2_gain Y s) = ip2_w wt1 Y f.
  by apply/matrixP=> s k; rewrite !mxE /ip2_gain mean_powE.
eexists; split; [by []|by []| | |].
- by move=> f; rewrite !ffunE /ip2_update /= wE.
- by [].
- by move=> f s k; rewrite !ffunE mxE /ip2_update /= wE.
Qed.

(* row mic of inv_2x2 W times W X *)
Lemma inv22_sum (W : 'M[C]_2) (X : 'M[C]_(2, nN)) (Y : 'M[C]_(2, nN)) mic k : Y = W *m X ->
  \sum_s inv_2x2 W (10%:R ^- 6) mic s * Y s k
  = (if 10%:R ^- 6 <= `|\det W| then X mic k else \det W / 10%:R ^- 6 * X mic k).
Proof.
have c6 : 0 < (10%:R ^- 6 : C) by rewrite invr_gt0 exprn_gt0 // ltr0n.
move=> ->; have -> : \sum_s inv_2x2 W (10%:R ^- 6) mic s * (W *m X) s k
    = (inv_2x2 W (10%:R ^- 6) *m (W *m X)) mic k by rewrite [RHS]mxE.
rewrite mulmxA; case: ifP => [h|/negbT h].
  have h' : 10%:R ^- 6 <= `|det2 W| by rewrite -detE.
  by have [-> _] := inv_2x2_inv c6 h'; rewrite mul1mx.
have -> : inv_2x2 W (10%:R ^- 6) = (10%:R ^- 6)^-1 *: \adj W.
  have lt : `|det2 W| < 10%:R ^- 6 by rewrite -detE real_ltNge ?normr_real ?gtr0_real.
  by rewrite -adj2E; apply/matrixP=> i j; rewrite [LHS]mxE -[_ - _]/(det2 W) lt mxZE mulrC.
by rewrite -scalemxAl mul_adj_mx scale_scalar_mx mul_scalar_mx mxZE mulrC [RHS]mulrC; congr (_ * _); rewrite mulrC.
Qed.

Lemma c24_lemma n mic m0 Y m : 0 < eps -> (0 < nN)%N ->
  ip2_forward model Xo eps n None m0 = (Y, m) ->
  let wt := (model m Y).1 in
  exists Y' W out, [/\ ip2_forward model Xo eps n.+1 None m0 = (Y', (model m Y).2),
    ip2_forward model Xo eps n.+1 (Some mic) m0 = (out, (model m Y).2),
    forall f, Y' f = W f *m Xo f,
    (forall f, let V s := nN%:R^-1 *: wcov (fun k => wt f s k * Num.max (mean_pow Y s) (10%:R ^- 5)) (Xo f) in
       (forall s k, 0 <= wt f s k) -> pd (V 0) -> eps <= \det (V 0) -> eps <= pencil_disc (V 1) (V 0) ->
       ip2_solution V eps (W f)) &
    forall f k, \sum_s out f s k
      = (if 10%:R ^- 6 <= `|\det (W f)| then Xo f mic k else \det (W f) / 10%:R ^- 6 * Xo f mic k)].
Proof.
move=> e0 n0 h wt; have [Y' [W [out [h1 h2 h3 h4 h5]]]] := ip2_step mic h.
exists Y', W, out; split=> //.
- move=> f V w0 p0 hd hp; rewrite h4 -/wt.
  have w0' s k : 0 <= ip2_w wt Y f s k.
    rewrite mxE mulr_ge0 //; have c5 : 0 < (10%:R ^- 5 : C) by rewrite invr_gt0 exprn_gt0 // ltr0n.
    have mp : mean_pow Y s \is Num.real.
      apply/ger0_real; apply: divr_ge0; last exact: ler0n.
      by apply: sumr_ge0 => g _; apply: sumr_ge0 => j _; apply: exprn_ge0.
    exact: ltW (clamp_gt0 mp c5).
  have VE s : ip2_V (Xo f) (ip2_w wt Y f) s = V s.
    rewrite ip2_VE // /V; congr (_ *: _); apply/matrixP=> c d; rewrite !mxE.
    by apply: eq_bigr => k _; rewrite mxE.
  have -> : ip2_V (Xo f) (ip2_w wt Y f) i0 = V 0 by rewrite VE i0E.
  have -> : ip2_V (Xo f) (ip2_w wt Y f) i1 = V 1 by rewrite VE i1E.
  apply: ip2_sol => //; apply: psdZ; first by rewrite invr_ge0 ler0n.
  by apply: wcov_psd => k; have := w0' 1 k; rewrite mxE.
- move=> f k; rewrite -(inv22_sum mic k (h3 f)); apply: eq_bigr => s _; exact: h5.
Qed.
End B.

Section Run.
Variable C : numClosedFieldType.
Variables (nS nB nF nN : nat) (St : Type).
Variable model : St -> {ffun 'I_nF -> 'M[C]_(nS, nN)} -> {ffun 'I_nF -> 'M[C]_(nS, nN)} * St.

(* along a run the current signals are the demixing matrices applied to the input *)
Lemma run_demix (X : 'I_nF -> 'M[C]_(nS + nB, nN)) eps m0 n Y W J m :
  ip_run model X eps m0 n Y W J m -> forall f, Y f = W f *m X f.
Proof.
case=> [{}Y {}W {}J hY hW _|{}n {}Y {}W {}J {}m Y' W' J' m' _ _ h] f; last by have [] := h f.
by rewrite hY hW -{2}[X f]vsubmxK mul_row_col mul1mx mul0mx addr0.
Qed.
End Run.

Section Alg.
Variable C : numClosedFieldType.
Add Field ivaBr : (f_ft C).
Ltac cring := fpre; fnorm C; fatoms; ring.
Lemma rls1_alg (a b c e : C) : (1 + e) * c = 1 ->
  (a - 1) * (b - 1) + e * (a * b) - ((c - 1) * (c - 1) + e * (c * c)) = (1 + e) * ((a - c) * (b - c)).
Proof.
move=> h; have -> : (1 + e) * ((a - c) * (b - c))
  = (a - 1) * (b - 1) + e * (a * b) - ((c - 1) * (c - 1) + e * (c * c)) - ((1 + e) * c - 1) * (a + b - c - c).
  by cring.
by rewrite h subrr mul0r subr0.
Qed.
End Alg.

Section Sc.
Variable C : numClosedFieldType.
Add Field ivaBr2 : (f_ft C).
Ltac cring := fpre; fnorm C; fatoms; ring.
Lemma c25_lemma nF nN (St : Type)
    (model : St -> sig C nF nN 2 -> sig C nF nN 2 * St) (Xo : sig C nF nN 2) (eps : C) n (mic : 'I_2) m0 :
  exists (a : 'I_nF -> 'I_2 -> C), forall f s k,
    (ip2_forward model Xo eps n (Some mic) m0).1 f s k = a f s * (ip2_forward model Xo eps n None m0).1 f s k.
Proof.
case: n => [|n]; first by exists (fun _ _ => 1) => f s k; rewrite mul1r.
rewrite /ip2_forward; case: (ip2_loop _ _ _ _ _) => [[[Y W] A] m] /=.
by exists (fun f s => A f mic s) => f s k; rewrite ffunE mxE.
Qed.

(* V0 = I, V1 = [[2, 1], [1, 2]] *)
Lemma ip2_ex (eps : C) : 0 < eps -> eps <= 1 ->
  ip2_eigvec 1%:M (mx22 2%:R 1 1 2%:R) eps = (sqrtC 2%:R)^-1 *: mx22 (-1) (-1) (-1) 1.
Proof.
move=> e0 e1; rewrite /ip2_eigvec.
have [re im] : (forall k, 'Re (k%:R : C) = k%:R) /\ (forall k, 'Im (k%:R : C) = 0).
  by split=> k; [apply/Creal_ReP/realn|apply/Creal_ImP/realn].
have [re1 im1] : 'Re (1 : C) = 1 /\ 'Im (1 : C) = 0 := conj (re 1%N) (im 1%N).
have [re0 im0] : 'Re (0 : C) = 0 /\ 'Im (0 : C) = 0 := conj (re 0%N) (im 0%N).
have s2 : 0 < sqrtC (2%:R : C) by rewrite sqrtC_gt0 ltr0n.
have n2 : 2%:R != 0 :> C by rewrite pnatr_eq0.
have es : eps <= sqrtC 2%:R.
  by apply: le_trans e1 _; rewrite -[X in X <= _]sqrtC1 ler_sqrtC ?qualifE ?ler01 ?ler0n // ler1n.
have m2 (z : C) : mag_sq z = `|z| ^+ 2 by rewrite mag_sqE.
have -> : (geigh_2x2 (mx22 2%:R 1 1 2%:R) 1%:M eps).2 = (sqrtC 2%:R)^-1 *: mx22 (-1) (-1) 1 (-1) :> 'M[C]_2.
  rewrite /geigh_2x2 /= !mxE /= mulr1n mulr0n /mag_sq !re !re0 !re1 !im1 !im0.
  have -> : 2%:R * 1 + 2%:R * 1 - 2%:R * (1 * 0 + 0 * 0) = 4%:R :> C.
    by rewrite !mulr1 !mulr0 addr0 mulr0 subr0 -natrD.
  have -> : (4%:R ^+ 2 - 4%:R * ((2%:R * 2%:R - (1 ^+ 2 + 0 ^+ 2)) * (1 * 1 - (0 ^+ 2 + 0 ^+ 2)))) = 2%:R ^+ 2 :> C.
    by rewrite expr1n expr0n /= !addr0; cring.
  rewrite clamp_id; last by apply: le_trans e1 _; rewrite -natrX ler1n.
  rewrite clamp_id; last by rewrite expr0n /= addr0 mulr1 subr0.
  rewrite sqrCK ?ler0n // expr0n /= addr0 mulr1 subr0 !divr1 !mulr1 !mulr0 !sub0r.
  have -> : 1 / 2%:R * (4%:R - 2%:R) = 1 :> C by rewrite -natrB // div1r mulVf.
  have -> : 1 / 2%:R * (4%:R + 2%:R) = 3%:R :> C by rewrite -natrD -[(4 + 2)%N]/(2 * 3)%N natrM div1r mulKf.
  have -> : 2%:R - 1 = 1 :> C by cring.
  have -> : 2%:R - 3%:R = -1 :> C by rewrite -opprB -natrB.
  apply/matrixP; apply: ord2P; apply: ord2P;
    rewrite [LHS]mxE [RHS]mxE /divide !m2 !mxE /= !normrN !normr1 !expr1n -mulr2n clamp_id // mulrC //.
set F : 'M[C]_2 := \matrix_(i, k) (_ *: mx22 _ _ _ _) i (rev_ord k).
have -> : F = (sqrtC 2%:R)^-1 *: mx22 (-1) (-1) (-1) 1.
  by apply/matrixP; apply: ord2P; apply: ord2P; rewrite !mxE.
have sq : (sqrtC 2%:R)^-1 * (sqrtC 2%:R)^-1 = 2%:R^-1 :> C.
  by rewrite -expr2 exprVn sqrtCK.
have sr : (sqrtC 2%:R)^-1 \is (@Num.real C) by rewrite rpredV gtr0_real.
have c7 : 10%:R ^- 7 <= 1 :> C by rewrite invf_le1 ?exprn_gt0 ?ltr0n // -natrX ler1n.
have key (z : C) : z = 1 -> clamp (sqrtC (clamp `|z| (10%:R ^- 7))) eps = 1.
  by move=> ->; rewrite normr1 (clamp_id c7) sqrtC1 clamp_id.
apply/matrixP; apply: ord2P; apply: ord2P; rewrite [LHS]mxE key ?divr1 // !sum2 !mxE /= ?mulr1n ?mulr0n;
  rewrite !rmorphM ?rmorphN rmorph1 (CrealP sr); move: (_^-1) sq => a sq {key sr};
  (have h : a * a + a * a = 1 by rewrite sq -mulr2n -[_ *+ 2]mulr_natl mulfV);
  rewrite -[RHS]h; by cring.
Qed.
End Sc.
