(* The two-channel update of AuxIVA_IP2. *)
From Coq Require Import Ring Field.
From mathcomp Require Import all_ssreflect all_algebra.
From Verif Require Import CAlg Py LinalgModel LinalgSpec LinalgProofs LinalgBridge.
From Verif Require Import TissModel TissSpec IvaModel IvaSpec IvaOpt.
Set Implicit Arguments. Unset Strict Implicit. Unset Printing Implicit Defensive.
Import GRing.Theory Num.Theory Order.TTheory.
Local Open Scope ring_scope.

Section IP2.
Variable C : numClosedFieldType.
Add Field Cfield_ip2 : (f_ft C).
Ltac cring := fpre; fnorm C; fatoms; ring.

Lemma gev_lt (A B : 'M[C]_2) : 0 < gdelta A B -> 0 < det2 B -> gev A B (-1) < gev A B 1.
Proof.
move=> d0 b0; rewrite /gev ltr_pmul2r ?invr_gt0 // ltr_pmul2l; last first.
  by rewrite mul1r invr_gt0 ltr0n.
by rewrite ltr_add2l mulN1r mul1r -subr_gt0 opprK addr_gt0 // sqrtC_gt0.
Qed.

(* Gram matrix of the rows of U *)
Lemma gramE (V U : 'M[C]_2) i j : (U *m V *m ctr U) i j = form V (ctr (row i U)) (ctr (row j U)).
Proof.
rewrite /form ctrK.
have -> : (U *m V *m ctr U) i j = (row i (U *m V *m ctr U)) 0 j by rewrite [RHS]mxE.
rewrite !row_mul; have -> : ctr (row j U) = col j (ctr U).
  by apply/matrixP=> a b; rewrite ctrE !mxE.
by rewrite -col_mulmx [RHS]mxE.
Qed.
Lemma gram_det (V U : 'M[C]_2) : herm V ->
  `|\det U| ^+ 2 * \det V = form V (ctr (row 0 U)) (ctr (row 0 U)) * form V (ctr (row 1 U)) (ctr (row 1 U))
     - `|form V (ctr (row 0 U)) (ctr (row 1 U))| ^+ 2.
Proof.
move=> h; have := detE (U *m V *m ctr U); rewrite !det_mulmx det_ctr /det2 !gramE i0E i1E => e.
have -> : `|\det U| ^+ 2 * \det V = \det U * \det V * (\det U)^* by rewrite normCK mulrAC.
by rewrite e normCK formE (sq_conj _ _ h).
Qed.

Variables (V : 'I_2 -> 'M[C]_2) (eps : C).
Hypotheses (p0 : pd (V 0)) (p1 : psd (V 1)) (e0 : 0 < eps).
Hypotheses (hd : eps <= \det (V 0)) (hdisc : eps <= pencil_disc (V 1) (V 0)).

Lemma ip2_vec : exists l : 'I_2 -> C, let f k := pencil_vec (V 1) (V 0) (l k) eps in
  [/\ (forall k, l k \is Num.real) /\ l 1 < l 0, (forall k, eigenpair (V 1) (V 0) (l k) (f k)),
      (forall k, f k = 0 <-> eigenpair (V 1) (V 0) (l k) (e1 C)) &
      forall k, col k (ip2_eigvec (V 0) (V 1) eps)
        = (clamp (sqrtC (clamp `|form (V k) (f k) (f k)| (10%:R ^- 7))) eps)^-1 *: f k].
Proof.
have [h1 _] := p1.
have [ev [E [hE [r1 _ r3 _ r5]]]] := c11_lemma h1 p0 (ltW e0) hd hdisc.
have lt : ev 0 < ev 1.
  have [hB _] := p0; move: hd hdisc; rewrite detE pencil_discE => hd' hdi'.
  have [V' [hV' _]] := geigh_2x2E h1 hB hd' hdi'.
  move: hE; rewrite hV' => -[<- _] /=.
  by apply: gev_lt; [exact: lt_le_trans hdi'|exact: pd_det2].
exists (fun k => ev (rev_ord k)).
have fE k : pencil_vec (V 1) (V 0) (ev (rev_ord k)) eps = col (rev_ord k) E.
  have [eE EE] : ev = (geigh_2x2 (V 1) (V 0) eps).1 /\ E = (geigh_2x2 (V 1) (V 0) eps).2 by rewrite hE.
  have {EE} EE : E = normalize_cols (mx22 (ev i0 * V 0 i0 i1 - V 1 i0 i1) (ev i1 * V 0 i0 i1 - V 1 i0 i1)
    (V 1 i0 i0 - ev i0 * V 0 i0 i0) (V 1 i0 i0 - ev i1 * V 0 i0 i0)) eps by rewrite EE eE.
  have m2 (z : C) : `|z| ^+ 2 = mag_sq z by rewrite mag_sqE.
  rewrite EE /pencil_vec -?i0E -?i1E; apply/colP=> i; move: k i.
  apply: ord2P; (have r : rev_ord i0 = i1 by exact: val_inj); (have r' : rev_ord i1 = i0 by exact: val_inj);
  rewrite ?r ?r'; apply: ord2P; rewrite !mxE sum2 !mxE /= mulrC /divide /clamp !m2 //.
have rv0 : rev_ord (0 : 'I_2) = 1 by exact: val_inj.
have rv1 : rev_ord (1 : 'I_2) = 0 by exact: val_inj.
split=> //.
- by split=> [k|]; rewrite ?r1 // rv0 rv1.
- by move=> k; rewrite fE.
- by move=> k; rewrite fE; apply: r5; left.
move=> k; rewrite fE /ip2_eigvec hE; apply/colP=> i; rewrite [LHS]mxE [LHS]mxE [RHS]mxE.
have -> : (\matrix_(i, k) E i (rev_ord k)) i k = col (rev_ord k) E i 0 by rewrite !mxE.
rewrite mulrC; congr (_^-1 * _); congr (clamp (sqrtC (clamp `|_| _)) _).
have -> : (if k == i0 then V 0 else V 1) = V k.
  by case/orP: (i01 k) => /eqP ->; rewrite ?eqxx ?i0E ?i1E.
rewrite /form -mulmxA mxE; apply: eq_bigr => a _; rewrite ctrE !mxE; congr (_ * _).
by apply: eq_bigr => b _; rewrite !mxE.
Qed.

Lemma ip2_sol : ip2_solution V eps (hermite (ip2_eigvec (V 0) (V 1) eps)).
Proof.
have [l [h1 h2 h3 h4]] := ip2_vec; exists l; split=> // hs w.
pose f k := pencil_vec (V 1) (V 0) (l k) eps.
have {}h2 k : eigenpair (V 1) (V 0) (l k) (f k) := h2 k.
have {}hs k : 10%:R ^- 7 <= form (V k) (f k) (f k) /\ eps ^+ 2 <= form (V k) (f k) (f k) := hs k.
have {}h4 k : col k (ip2_eigvec (V 0) (V 1) eps)
  = (clamp (sqrtC (clamp `|form (V k) (f k) (f k)| (10%:R ^- 7))) eps)^-1 *: f k := h4 k.
move: (f) h2 hs h4 => {h3}{}f h2 hs h4.
have [rl ltl] := h1; have [H0 P0] := p0; have [H1 P1] := p1.
have c7 : 0 < (10%:R ^- 7 : C) by rewrite invr_gt0 exprn_gt0 // ltr0n.
have wE k : w k = (sqrtC (form (V k) (f k) (f k)))^-1 *: f k.
  have -> : w k = col k (ip2_eigvec (V 0) (V 1) eps).
    by apply/matrixP=> i j; rewrite ctrE !mxE conjCK.
  rewrite h4; have [s1 s2] := hs k; have s0 : 0 < form (V k) (f k) (f k) := lt_le_trans c7 s1.
  rewrite ger0_norm ?(ltW s0) // (clamp_id s1) clamp_id //.
  by rewrite -[eps]sqrCK ?(ltW e0) // ler_sqrtC ?qualifE ?exprn_ge0 ?(ltW e0) ?(ltW s0).
have n1 k : form (V k) (w k) (w k) = 1.
  have [s1 s2] := hs k; have s0 : 0 < form (V k) (f k) (f k) := lt_le_trans c7 s1.
  rewrite formE sq_qf wE qf_vZ normfV exprVn ger0_norm ?sqrtC_ge0 ?(ltW s0) // sqrtCK.
  by rewrite mulVf // gt_eqF.
have eig k : V 1 *m w k = l k *: (V 0 *m w k).
  by rewrite wE -!scalemxAr h2 scalerA mulrC -scalerA.
have eigf k x : form (V 1) x (w k) = l k * form (V 0) x (w k).
  by rewrite /form -mulmxA eig -scalemxAr mxE mulmxA.
have ort0 : form (V 0) (w 0) (w 1) = 0.
  have a1 : form (V 1) (w 0) (w 1) = l 1 * form (V 0) (w 0) (w 1).
    exact: eigf.
  have a2 : form (V 1) (w 0) (w 1) = l 0 * form (V 0) (w 0) (w 1).
    rewrite !formE -(sq_conj (w 1) (w 0) H1) -(sq_conj (w 1) (w 0) H0).
    by rewrite -!formE eigf rmorphM (CrealP (rl 0)).
  have : (l 0 - l 1) * form (V 0) (w 0) (w 1) = 0 by rewrite mulrBl -a1 -a2 subrr.
  by move/eqP; rewrite mulf_eq0 subr_eq0 (gt_eqF ltl) => /eqP.
have ort1 : form (V 1) (w 0) (w 1) = 0.
  by rewrite eigf ort0 mulr0.
split=> //.
  by move=> k; case/orP: (i01 k) => /eqP ->; rewrite ?i0E ?i1E.
move=> U; pose u k := ctr (row k U).
change (`|\det U| ^+ 2 <= `|\det (hermite (ip2_eigvec (V 0) (V 1) eps))| ^+ 2 *
  (form (V 0) (u 0) (u 0) * form (V 1) (u 1) (u 1))).
have u1 k : 0 <= form (V 0) (u k) (u k) by have [_] := pd_psd p0; apply.
set W := hermite _ in w wE n1 eig eigf ort0 ort1 *.
have dV : 0 < \det (V 0) := lt_le_trans e0 hd.
set q := form (V 0) (w 1) (w 1).
have lq : l 1 * q = 1 by rewrite /q -eigf n1.
have q0 : 0 < q.
  rewrite lt_def; have [_ ->] := pd_psd p0; rewrite andbT.
  by apply/eqP=> z; move/eqP: lq; rewrite z mulr0 eq_sym oner_eq0.
have l0 : 0 < l 1 by move: (@ltr01 C); rewrite -lq pmulr_lgt0.
have dW : `|\det W| ^+ 2 * \det (V 0) = q.
  by rewrite gram_det // -/(w 0) -/(w 1) ort0 normr0 expr0n subr0 n1 mul1r.
have dU : `|\det U| ^+ 2 * \det (V 0) <= form (V 0) (u 0) (u 0) * form (V 0) (u 1) (u 1).
  by rewrite gram_det // ler_subl_addr ler_addl exprn_ge0.
have uW : W \in unitmx.
  rewrite unitmxE unitfE; apply/eqP=> z; move/eqP: dW.
  by rewrite z normr0 expr0n mul0r eq_sym (gt_eqF q0).
(* V 1 >= l 1 V 0 *)
have ge v : l 1 * form (V 0) v v <= form (V 1) v v.
  have uE : ctr W \in unitmx by rewrite ctr_unit.
  pose c := invmx (ctr W) *m v; have -> : v = ctr W *m c by rewrite mulKVmx.
  have fE (M : 'M[C]_2) : form M (ctr W *m c) (ctr W *m c) = qf (W *m M *m ctr W) c.
    by rewrite formE sq_qf /qf ctrM ctrK !mulmxA.
  have qE (M : 'M[C]_2) : form M (w 0) (w 1) = 0 -> herm M ->
    qf (W *m M *m ctr W) c = form M (w 0) (w 0) * `|c 0 0| ^+ 2 + form M (w 1) (w 1) * `|c 1 0| ^+ 2.
    move=> z hM; rewrite /qf -mulmxA mxE sum2 i0E i1E ![(W *m _ *m _ *m c) _ _]mxE !sum2 i0E i1E !gramE.
    rewrite -/(w 0) -/(w 1) z.
    have -> : form M (w 1) (w 0) = 0 by rewrite formE -(sq_conj _ _ hM) -formE z conjC0.
    rewrite !ctrE !normCK; move: (form M (w 0) (w 0)) (form M (w 1) (w 1)) (c 0 0) (c 1 0) => F0 F1 x y.
    by move: (x^*) (y^*) => x1 y1; cring.
  rewrite !fE !qE // mulrDr ![l 1 * (_ * _)]mulrA lq !n1.
  rewrite ler_add2r ler_wpmul2r ?exprn_ge0 //.
  have -> : form (V 1) (w 0) (w 0) = l 0 by rewrite eigf n1 mulr1.
  by rewrite mulr1 ltW.
have h : form (V 0) (u 1) (u 1) <= q * form (V 1) (u 1) (u 1).
  have := ge (u 1); rewrite -(ler_pmul2l q0) mulrA [q * l 1]mulrC lq mul1r; exact.
rewrite -(ler_pmul2r dV) [X in _ <= X]mulrAC dW; apply: le_trans dU _.
have -> : q * (form (V 0) (u 0) (u 0) * form (V 1) (u 1) (u 1))
  = form (V 0) (u 0) (u 0) * (q * form (V 1) (u 1) (u 1)) by cring.
exact: ler_wpmul2l.
Qed.
End IP2.
