(* Descent of the iterative minimum distortion for every exponent (C38). *)
From Coq Require Import Ring Field.
From mathcomp Require Import all_ssreflect all_algebra complex.
From Verif Require Import CAlg LinalgProofs PowSpec RField RLog RPow ScalingSpec ScalingModel ScalingProofs Py ScalingBridge.
Set Implicit Arguments. Unset Strict Implicit. Unset Printing Implicit Defensive.
Import GRing.Theory Num.Theory Order.TTheory.
Local Open Scope ring_scope.

Section Lp.
Variable C : numClosedFieldType.
Add Field CfieldLp : (f_ft C).
Ltac cring := fpre; fnorm C; fatoms; ring.
Ltac cfield := fpre; fnorm C; fatoms; field.
Variable pw : C -> C -> C.
Hypothesis hpw : pow_like pw.
Let pw_ge0 x t : 0 <= x -> 0 < t -> 0 <= pw x t. Proof. by case: hpw => h _; exact: h. Qed.
Let pw1 x : 0 <= x -> pw x 1 = x. Proof. by case: hpw => _ [h _]; exact: h. Qed.
Let pwD x s t : 0 <= x -> 0 < s -> 0 < t -> pw x (s + t) = pw x s * pw x t. Proof. by case: hpw => _ [_ [h _]]; exact: h. Qed.
Let pwM x y t : 0 <= x -> 0 <= y -> 0 < t -> pw (x * y) t = pw x t * pw y t. Proof. by case: hpw => _ [_ [_ [h _]]]; exact: h. Qed.
Let pwK x t : 0 <= x -> 0 < t -> pw (pw x t) t^-1 = x. Proof. by case: hpw => _ [_ [_ [_ [h _]]]]; exact: h. Qed.
Let pw_mono x y t : 0 <= x -> x < y -> 0 < t -> pw x t < pw y t. Proof. by case: hpw => _ [_ [_ [_ [_ [h _]]]]]; exact: h. Qed.
Let pw_bern x t : 0 <= x -> 0 < t < 1 -> pw x t <= 1 + t * (x - 1). Proof. by case: hpw => _ [_ [_ [_ [_ [_ h]]]]]; exact: h. Qed.
Lemma pw_pos x t : 0 < x -> 0 < t -> 0 < pw x t.
Proof. move=> x0 t0; exact: le_lt_trans (pw_ge0 (lexx 0) t0) (pw_mono (lexx 0) x0 t0). Qed.
Lemma pw0 t : 0 < t -> pw 0 t = 0.
Proof.
move=> t0; apply/eqP; rewrite eq_le pw_ge0 // andbT; have ti : 0 < t^-1 by rewrite invr_gt0.
rewrite real_leNgt ?real0 ?ger0_real ?pw_ge0 //; apply/negP => h; have := pw_pos h ti; by rewrite pwK // ltxx.
Qed.
Variable p : C.
Hypothesis p0 : 0 < p.
Hypothesis p2 : p < 2%:R.
Let q0 : 0 < 2%:R - p. Proof. by rewrite subr_gt0. Qed.
Let two : 0 < 2%:R :> C. Proof. by rewrite ltr0n. Qed.
Lemma pw_sq x : 0 <= x -> pw x p * pw x (2%:R - p) = x ^+ 2.
Proof.
move=> x0; rewrite -pwD // addrC subrK -[2%:R]/(1 + 1) pwD ?ltr01 // pw1 //.
Qed.
Lemma tangent x s : 0 <= x -> 0 < s -> pw x p <= pw s p + p / (2%:R * pw s (2%:R - p)) * (x ^+ 2 - s ^+ 2).
Proof.
move=> x0 s0; have ph : 0 < p / 2%:R by rewrite divr_gt0.
have ph1 : p / 2%:R < 1 by rewrite ltr_pdivr_mulr // mul1r.
have pE u : 0 <= u -> pw u p = pw (u ^+ 2) (p / 2%:R).
  move=> u0; rewrite expr2 pwM // -pwD // -mulr2n -[p / 2%:R *+ 2]mulr_natr mulfVK // gt_eqF //.
have sq0 : 0 < pw s (2%:R - p) by exact: pw_pos.
have sp0 : 0 < pw s p by exact: pw_pos.
have sE := pw_sq (ltW s0).
have xs : x = s * (x / s) by rewrite mulrC divfK // gt_eqF.
have xs0 : 0 <= x / s by rewrite divr_ge0 // ltW.
have b := @pw_bern ((x / s) ^+ 2) (p / 2%:R) (exprn_ge0 _ xs0); rewrite ph ph1 in b; move/(_ isT): b => b.
rewrite {1}xs pwM ?(ltW s0) // (pE (x / s)) //; apply: le_trans (ler_wpmul2l (ltW sp0) b) _.
rewrite le_eqVlt; apply/orP; left; apply/eqP.
have s2 : s ^+ 2 != 0 by rewrite expf_neq0 // gt_eqF.
have -> : p / (2%:R * pw s (2%:R - p)) = p / 2%:R * (pw s p / s ^+ 2).
  rewrite -sE invfM -!mulrA; congr (_ * (_ * _)); by rewrite invfM mulrA mulfV ?mul1r // gt_eqF.
have sn : s <> 0 by apply/eqP; rewrite gt_eqF.
have n2 : (2%:R : C) <> 0 by apply/eqP; rewrite gt_eqF.
by move: (pw s p) => A; cfield; repeat split; assumption.
Qed.
Lemma soft_pow_mm (eps r s : C) : 0 < eps -> 0 <= r -> 0 <= s ->
  soft_pow pw p eps s <= soft_pow pw p eps r + p / clamp (2%:R * pw r (2%:R - p)) eps * (s ^+ 2 - r ^+ 2).
Proof.
move=> e0 r0 s0; have n2 : (2%:R : C) != 0 by rewrite pnatr_eq0.
have en : eps != 0 by rewrite gt_eqF.
have e2 : 0 < eps / 2%:R by rewrite divr_gt0.
have qi : 0 < (2%:R - p)^-1 by rewrite invr_gt0.
pose a := pw (eps / 2%:R) (2%:R - p)^-1; have a0 : 0 < a by exact: pw_pos.
have aE : pw a (2%:R - p) = eps / 2%:R by rewrite /a -{2}[2%:R - p]invrK pwK // ltW.
have aE2 : 2%:R * pw a (2%:R - p) = eps by rewrite aE mulrC divfK.
have aa := pw_sq (ltW a0).
have ka : p / eps * a ^+ 2 = p / 2%:R * pw a p.
  rewrite -aa aE; have n2' : (2%:R : C) <> 0 by apply/eqP. have en' : eps <> 0 by apply/eqP. by move: (pw a p) => A; cfield; repeat split; assumption.
have real_q u : 0 <= u -> 2%:R * pw u (2%:R - p) \is Num.real by move=> u0; rewrite rpredM ?realn // ger0_real // pw_ge0.
have er : eps \is Num.real by apply: gtr0_real.
(* the parabola is the tangent at a *)
have par u : p * u ^+ 2 / eps + (1 - p / 2%:R) * pw a p = pw a p + p / eps * (u ^+ 2 - a ^+ 2).
  by rewrite mulrBr ka mulrAC; move: (pw a p) => A; cring.
rewrite /soft_pow -/a !par /clamp; case: (real_ltP (real_q r r0) er) => hr; case: (real_ltP (real_q s s0) er) => hs.
- by rewrite le_eqVlt; apply/orP; left; apply/eqP; cring.
- have := tangent s0 a0; rewrite aE2 => /le_trans; apply.
  by rewrite -addrA -mulrDr ler_add2l le_eqVlt; apply/orP; left; apply/eqP; congr (_ * _); rewrite [RHS]addrC addrA subrK.
- have r0' : 0 < r.
    rewrite lt_def r0 andbT; apply/eqP => re; move: hr; rewrite re pw0 // mulr0 => /(lt_le_trans e0); by rewrite ltxx.
  have sa : s < a.
    have ar := ger0_real (ltW a0); have sr := ger0_real s0; rewrite real_ltNge //; apply/negP; rewrite le_eqVlt => /orP [/eqP as_|as_].
      by move: hs; rewrite -as_ aE2 ltxx.
    by have := pw_mono (ltW a0) as_ q0; rewrite -(ltr_pmul2l two) aE2 => /(lt_trans hs); rewrite ltxx.
  have t := tangent (ltW a0) r0'; rewrite -subr_ge0.
  set k := p / (2%:R * _) in t *.
  have kk : k <= p / eps.
    by rewrite ler_wpmul2l ?(ltW p0) // lef_pinv ?posrE //; exact: lt_le_trans e0 hr.
  have -> : pw r p + k * (s ^+ 2 - r ^+ 2) - (pw a p + p / eps * (s ^+ 2 - a ^+ 2))
     = (pw r p + k * (a ^+ 2 - r ^+ 2) - pw a p) + (p / eps - k) * (a ^+ 2 - s ^+ 2) by cring.
  rewrite addr_ge0 ?subr_ge0 // mulr_ge0 // ?subr_ge0 // ler_expn2r ?nnegrE ?(ltW a0) //; exact: ltW.
- apply: tangent => //.
  rewrite lt_def r0 andbT; apply/eqP => re; move: hr; rewrite re pw0 // mulr0 => /(lt_le_trans e0); by rewrite ltxx.
Qed.
Lemma soft_pow_bounds (eps r : C) : 0 < eps -> 0 <= r ->
  pw r p <= soft_pow pw p eps r <= pw r p + (1 - p / 2%:R) * pw (pw (eps / 2%:R) (2%:R - p)^-1) p.
Proof.
move=> e0 r0; have e2 : 0 < eps / 2%:R by rewrite divr_gt0.
have qi : 0 < (2%:R - p)^-1 by rewrite invr_gt0.
have A0 : 0 <= (1 - p / 2%:R) * pw (pw (eps / 2%:R) (2%:R - p)^-1) p.
  by rewrite mulr_ge0 ?subr_ge0 ?ler_pdivr_mulr ?mul1r ?(ltW p2) // pw_ge0 // pw_ge0 // ltW.
rewrite /soft_pow; case: ifP => h; last by rewrite lexx ler_addl.
apply/andP; split; last first.
  rewrite ler_add2r ler_pdivr_mulr // -(pw_sq r0) mulrCA ler_wpmul2l ?pw_ge0 //.
  by apply: le_trans (ltW h); rewrite ler_wpmul2r ?pw_ge0 // ltW.
pose a := pw (eps / 2%:R) (2%:R - p)^-1; have a0 : 0 < a by exact: pw_pos.
have aE : pw a (2%:R - p) = eps / 2%:R by rewrite /a -{2}[2%:R - p]invrK pwK // ltW.
have t := tangent r0 a0; apply: le_trans t _; rewrite -/a aE.
have n2 : (2%:R : C) != 0 by rewrite pnatr_eq0.
have -> : 2%:R * (eps / 2%:R) = eps by rewrite mulrC divfK.
have en : eps != 0 by rewrite gt_eqF.
have ka : p / eps * a ^+ 2 = p / 2%:R * pw a p.
  rewrite -(pw_sq (ltW a0)) aE; have n2' : (2%:R : C) <> 0 by apply/eqP. have en' : eps <> 0 by apply/eqP. by cfield; repeat split; assumption.
by rewrite mulrBr ka mulrAC le_eqVlt; apply/orP; left; apply/eqP; move: (pw a p) => A; cring.
Qed.
Lemma lp_descent nN (r y : 'rV[C]_nN) z z' :
  let w := lp_weights pw p r y z in
  10%:R ^- 5 <= weighted_power w y -> irls_step w r y z' ->
  lp_error pw p (10%:R ^- 5) r y z' <= lp_error pw p (10%:R ^- 5) r y z.
Proof.
move=> w h [/(_ h) st _]; have e0 : 0 < 10%:R ^- 5 :> C by rewrite invr_gt0 exprn_gt0 // ltr0n.
have le : werr w r y z' <= werr w r y z.
  by have [->|ne] := eqVneq z z' => //; apply: ltW; exact: st.
apply: (@le_trans _ _ (lp_error pw p (10%:R ^- 5) r y z + (werr w r y z' - werr w r y z))).
  rewrite /lp_error /werr -sumrB -big_split; apply: ler_sum => n _ /=.
  rewrite -mulrBr mxE; exact: soft_pow_mm.
by rewrite ger_addl subr_le0.
Qed.
End Lp.

Lemma lp_example : let w := lp_weights powC 1 (const_mx 2%:R : 'rV[CR]_1) (const_mx 1) 0 in
  (10%:R ^- 5 : CR) <= weighted_power w (const_mx 1) /\ irls_step w (const_mx 2%:R) (const_mx 1) 2%:R.
Proof.
move=> w; have two0 : 0 <= 2%:R :> CR by rewrite ler0n.
have wE : w 0 0 = 4%:R^-1.
  rewrite !mxE mul0r subr0 ger0_norm // -[2%:R - 1 : CR]/(1 + 1 - 1) addrK.
  have -> : powC 2%:R 1 = 2%:R by case: powC_like => _ [h _]; exact: h.
  rewrite -natrM /clamp ifF ?mul1r //; apply/negbTE; rewrite -real_leNgt ?realn ?realV ?realX ?realn //.
  by apply: (@le_trans _ _ 1); rewrite ?ler1n // invf_le1 ?exprn_gt0 ?ltr0n // exprn_ege1 // ler1n.
have pE : weighted_power w (const_mx 1) = 4%:R^-1 by rewrite /weighted_power big_ord1 wE mxE normr1 expr1n mul1r.
have le : (10%:R ^- 5 : CR) <= 4%:R^-1.
  rewrite lef_pinv ?posrE ?exprn_gt0 ?ltr0n // -natrX ler_nat //.
rewrite pE; split=> //; split=> [_ z ne|]; last by rewrite pE => /lt_le_trans /(_ le); rewrite ltxx.
rewrite /werr !big_ord1 wE !mxE mulr1 subrr normr0 expr0n mulr0 mulr1 mulr_gt0 ?invr_gt0 ?ltr0n //.
by rewrite exprn_gt0 // normr_gt0 subr_eq0 eq_sym.
Qed.

Lemma lp_run (C : numClosedFieldType) (B : finType) nC nF nN (pw : C -> C -> C)
    (Y : spec C B nC nF nN) (ref : refs C B nF nN) p q rtol n :
  pow_like pw -> (forall x t, 0 <= x -> 0 <= pw x t) ->
  0 < p -> p < 2%:R -> q = None \/ q = Some p -> 0 <= rtol ->
  exists (cs : nat -> B * 'I_nF * 'I_nC -> C) k out,
   [/\ minimum_distortion pw Y ref (Some p) q rtol n = Ok out,
     forall b c f, out b c f = cs k (b, f, c) *: Y b c f,
     forall i, cs 0%N i = 1 &
     forall b c f, let e := lp_error pw p (10%:R ^- 5) (ref b f) (Y b c f) in
       (forall j, (j < k)%N ->
          10%:R ^- 5 <= weighted_power (lp_weights pw p (ref b f) (Y b c f) (cs j (b, f, c))) (Y b c f)) ->
       e (cs k (b, f, c)) <= e 1].
Proof.
move=> hpw h p0 p2 hq r0; have [cs [k [out [[o oE] _ c0 st _]]]] := @c38_run C B nC nF nN pw Y ref p q rtol n h p0 p2 hq r0.
exists cs, k, out; split=> // b c f e hw; rewrite -(c0 (b, f, c)).
have: forall j, (j <= k)%N -> e (cs j (b, f, c)) <= e (cs 0%N (b, f, c)).
  elim=> [//|j ih] jk; apply: le_trans (ih (ltnW jk)); exact: (lp_descent hpw p0 p2 (hw j jk) (st j b f c)).
exact.
Qed.
