(* AuxIVA_IP2 decreases the scale free cost (C77). *)
From Coq Require Import Ring Field.
From mathcomp Require Import all_ssreflect all_algebra.
From Verif Require Import CAlg Py Batch LinalgModel LinalgSpec LinalgProofs LinalgBridge.
From Verif Require Import TissModel TissSpec TissProofs2 SrcModel SrcSpec CostModel CostSpec CostProofs IvaModel IvaSpec IvaProofs IvaOpt IvaBridge IpCostProofs Ip2CostSpec.
Set Implicit Arguments. Unset Strict Implicit. Unset Printing Implicit Defensive.
Import GRing.Theory Num.Theory Order.TTheory.
Local Open Scope ring_scope.
Local Open Scope py_scope.

Section P.
Variable C : numClosedFieldType.
Add Field Cfield_ip2c : (f_ft C).
Ltac cring := fpre; fnorm C; fatoms; ring.
Lemma eig_det (A B : 'M[C]_2) l (v : 'cV[C]_2) : eigenpair A B l v -> v != 0 -> \det (A - l *: B) = 0.
Proof.
move=> h v0; apply/eqP/negPn; apply: contra v0 => d.
have u : A - l *: B \in unitmx by rewrite unitmxE unitfE.
have z : (A - l *: B) *m v = 0 by rewrite mulmxBl h -scalemxAl subrr.
by rewrite -(mulKmx u v) z mulmx0.
Qed.
Variables (lg : C -> C) (nF nN : nat).
Hypothesis ll : log_like lg.
Hypothesis lm : log_mul lg.
Hypothesis f0 : (0 < nF)%N.
Hypothesis n0 : (0 < nN)%N.
Variables (X : sig C nF nN 2) (eps em : C).
Hypothesis e0 : 0 < eps.
Hypothesis m0 : 0 < em.
Hypothesis fX : forall f, row_free (X f).
Local Notation fwd n := (ip2_forward (laplace_model em) X eps n None tt).
Local Notation cost Y W := (laplace_cost_si lg Y (fun f => W f : 'M[C]_(2 + 0))).

Lemma ip2_iter_cost n (Y : sig C nF nN 2) (U : 'I_nF -> 'M[C]_2) : fwd n = (Y, tt) ->
  (forall f, Y f = U f *m X f) -> (forall f, \det (U f) != 0) -> ip2_unclamped eps em X Y ->
  exists (Y' : sig C nF nN 2) (W : 'I_nF -> 'M[C]_2), [/\ fwd n.+1 = (Y', tt), forall f, Y' f = W f *m X f,
    forall f, \det (W f) != 0 & cost Y' W <= cost Y U].
Proof.
move=> hn YE dU [hu hc].
have rp s k : 0 < 2%:R * frame_norm Y s k := lt_le_trans m0 (hu s k).
have r0 s k : 0 < frame_norm Y s k by have := rp s k; rewrite pmulr_rgt0 ?ltr0n.
have wE f s k : (laplace_model em tt Y).1 f s k = (2%:R * frame_norm Y s k)^-1.
  rewrite /= ffunE mxE -(clamp_id (hu s k)) /laplace !mxE div1r.
  by congr (clamp (_ * sqrtC _) _)^-1; apply: eq_bigr => g _; rewrite mag_sqE mxE.
have [Y' [W [out [h1 _ h3 h4 _]]]] := c24_lemma (0 : 'I_2) e0 n0 hn.
exists Y', W.
pose g s := Num.max (mean_pow Y s) (10%:R ^- 5) / nN%:R.
have c5 : 0 < (10%:R ^- 5 : C) by rewrite invr_gt0 exprn_gt0 // ltr0n.
have Mp s : 0 < Num.max (mean_pow Y s) (10%:R ^- 5).
  have mp : mean_pow Y s \is Num.real.
    apply/ger0_real; apply: divr_ge0; last exact: ler0n.
    by apply: sumr_ge0 => h _; apply: sumr_ge0 => j _; apply: exprn_ge0.
  exact: (clamp_gt0 mp c5).
have nN0 : 0 < nN%:R :> C by rewrite ltr0n.
have gp s : 0 < g s by rewrite divr_gt0.
pose p (Z : sig C nF nN 2) f s := \sum_k `|Z f s k| ^+ 2 / (2%:R * frame_norm Y s k).
have VE f s : nN%:R^-1 *: wcov (fun k => (laplace_model em tt Y).1 f s k * Num.max (mean_pow Y s) (10%:R ^- 5)) (X f)
  = ip2_cov X Y f s.
  by congr (_ *: _); apply/matrixP => c d; rewrite !mxE; apply: eq_bigr => k _; rewrite wE.
have fE f s (Z : sig C nF nN 2) (A : 'M[C]_2) : Z f = A *m X f ->
  form (ip2_cov X Y f s) (ctr (row s A)) (ctr (row s A)) = g s * p Z f s.
  move=> ZE; rewrite /form -scalemxAr -scalemxAl mxE -/(form _ _ _) form_wcov /wpower mulr_sumr mulr_sumr.
  apply: eq_bigr => k _; rewrite -row_mul -ZE [row _ _ _ _]mxE /g.
  move: (Num.max _ _) (_^-1) (_ ^+ 2) (_%:R^-1) => a b c d.
  by cring.
have fd (A : 'M[C]_2) (Z : sig C nF nN 2) f s : \det A != 0 -> Z f = A *m X f -> 0 < p Z f s.
  move=> dA ZE; have := fE f s Z A ZE; rewrite -VE => e.
  have wp k : 0 < (laplace_model em tt Y).1 f s k * Num.max (mean_pow Y s) (10%:R ^- 5).
    by rewrite wE mulr_gt0 ?invr_gt0.
  have [_ q] := wcov_pd wp (fX f).
  have uA : A \in unitmx by rewrite unitmxE unitfE.
  have r1 : ctr (row s A) != 0.
    by have := row_neq0 s uA; apply: contra => /eqP e1; rewrite -[row _ _]ctrK e1 ctr0.
  have := q _ r1; rewrite -(@pmulr_rgt0 _ (g s)) //.
  move: e; rewrite /form -scalemxAr -scalemxAl mxE => e h.
  by rewrite -(@pmulr_rgt0 _ (g s)) // -e mulr_gt0 ?invr_gt0 //; move: h; rewrite pmulr_rgt0.
have sol f : let w k := ctr (row k (W f)) in (forall k, form (ip2_cov X Y f k) (w k) (w k) = 1) /\
    `|\det (U f)| ^+ 2 <= `|\det (W f)| ^+ 2 * ((\prod_s g s) * \prod_s p Y f s).
  have [hd hp hl] := hc f.
  have := h4 f; cbv zeta.
  have w0 s k : 0 <= (laplace_model em tt Y).1 f s k by rewrite wE invr_ge0 ltW.
  move: (VE f); set V := (fun s => _ *: _) => VE'.
  have {}VE' s : V s = ip2_cov X Y f s := VE' s.
  have pd0 : pd (V 0).
    have wp k : 0 < (laplace_model em tt Y).1 f 0 k * Num.max (mean_pow Y 0) (10%:R ^- 5).
      by rewrite wE mulr_gt0 ?invr_gt0.
    have [q1 q2] := wcov_pd wp (fX f); split.
      by rewrite /V /herm ctrZ q1; congr (_ *: _); rewrite geC0_conj // invr_ge0 ler0n.
    by move=> v v0; rewrite /V /qf -scalemxAr -scalemxAl mxE mulr_gt0 ?invr_gt0 //; exact: q2.
  rewrite -!VE' in hd hp.
  move=> /(_ w0 pd0 hd hp) [l] /= [[_ l10] he hz hs].
  have dl k : \det (V 1 - l k *: V 0) = 0.
    case: (eqVneq (pencil_vec (V 1) (V 0) (l k) eps) 0) => [/(hz k) h|h]; last exact: eig_det (he k) h.
    by apply: eig_det h _; apply/eqP => /matrixP /(_ 0 0); rewrite !mxE eqxx => /eqP; rewrite oner_eq0.
  have [k|a _ b] := hs.
    by rewrite !VE'; apply: hl => // j; rewrite -!VE'.
  split=> [k|]; first by rewrite -VE' a.
  have := b (U f); rewrite !VE' !(fE f _ Y (U f)) // => h.
  have e1 : lift ord0 ord0 = 1 :> 'I_2 by apply/val_inj.
  by rewrite !big_ord_recl !big_ord0 !mulr1 e1 [X in _ <= _ * X]mulrACA.
have dW f : \det (W f) != 0.
  have [_ h] := sol f; apply/eqP => e; move: h; rewrite e normr0 expr0n /= mul0r.
  by rewrite lt_geF // exprn_gt0 // normr_gt0.
split=> //.
apply: (@si_core C lg 2 nF nN ll lm f0 n0 Y Y' g (fun f => `|\det (U f)| ^+ 2) (fun f => `|\det (W f)| ^+ 2)) => //.
- by move=> f s; exact: fd (dU f) (YE f).
- move=> f s; have [/(_ s) h _] := sol f; move: h; rewrite (fE f s Y' (W f)) // => h.
  by apply: (mulfI (lt0r_neq0 (gp s))); rewrite mulfV ?gt_eqF.
- by move=> f; rewrite exprn_gt0 // normr_gt0.
by move=> f; have [_] := sol f.
Qed.

Lemma c77_run_lemma n :
  (forall i Y, (i < n)%N -> fwd i = (Y, tt) -> ip2_unclamped eps em X Y) ->
  exists (Y : sig C nF nN 2) (W : 'I_nF -> 'M[C]_2), [/\ fwd n = (Y, tt), forall f, Y f = W f *m X f,
    forall f, \det (W f) != 0 & cost Y W <= cost X (fun=> 1%:M)].
Proof.
elim: n => [|n IH] hu.
  by exists X, (fun=> 1%:M); split=> // f; rewrite ?mul1mx // det1 oner_eq0.
have [i Y ik|Y [W [h1 h2 h3 h4]]] := IH; first by apply: hu; exact: ltnW.
have [Y' [W' [k1 k2 k3 k4]]] := ip2_iter_cost h1 h2 h3 (hu n Y (ltnSn n) h1).
exists Y', W'; split=> //; exact: le_trans k4 h4.
Qed.
End P.
