(* A two-element batch on which the shared stopping rule of minimum_distortion
   changes the result of the first element. *)
From Coq Require Import Ring Field.
From mathcomp Require Import all_ssreflect all_algebra all_fingroup.
From Verif Require Import CAlg Py Batch LinalgModel LinalgProofs ScalingModel ScalingSpec ScalingProofs ScalingBridge.
Set Implicit Arguments. Unset Strict Implicit. Unset Printing Implicit Defensive.
Import GRing.Theory Num.Theory Order.TTheory.
Local Open Scope ring_scope.
Local Open Scope py_scope.

(* the update of one coefficient in rational arithmetic *)
Definition clq (x : rat) : rat := if x < 10%:R ^- 5 then 10%:R ^- 5 else x.
Definition fq (r1 r2 z : rat) : rat :=
  let w1 := 1 / clq (2%:R * `|r1 - z * 1|) in
  let w2 := 1 / clq (2%:R * `|r2 - z * 2%:R|) in
  (r1 * 1 * w1 + r2 * 2%:R * w2) / clq (1 * w1 + 4%:R * w2).
Lemma fq1 : fq 2%:R 6%:R 1 = 5%:R / 2%:R.
Proof. by apply/eqP; vm_compute. Qed.
Lemma fq2 : fq 2%:R 6%:R (5%:R / 2%:R) = 8%:R / 3%:R.
Proof. by apply/eqP; vm_compute. Qed.
Lemma fq3 : fq 2%:R 6%:R (8%:R / 3%:R) = 14%:R / 5%:R.
Proof. by apply/eqP; vm_compute. Qed.

Section Couple.
Variable C : numClosedFieldType.
Variable pw : C -> C -> C.
Hypothesis pw1 : forall x, 0 <= x -> pw x 1 = x.
Definition y12 : 'rV[C]_2 := \row_n (n.+1)%:R.
Definition rA : 'rV[C]_2 := \row_n (if n == 0 then 2%:R else 6%:R).
Definition rB : 'rV[C]_2 := 3%:R *: y12.
Lemma clqE x : ratr (clq x) = clamp (ratr x) (10%:R ^- 5) :> C.
Proof.
have e : 10%:R ^- 5 = ratr (10%:R ^- 5) :> C by rewrite fmorphV rmorphX rmorph_nat.
by rewrite /clq /clamp e ltr_rat; case: ifP.
Qed.
Notation wz r z := (lp_weights pw 1 r y12 z).
Lemma wzE r z n : wz r z 0 n = 1 / clamp (2%:R * `|r 0 n - z * y12 0 n|) (10%:R ^- 5).
Proof.
have t1 : 2%:R - 1 = 1 :> C by rewrite mulr2n addrK.
by rewrite mxE; cbv zeta; rewrite t1 pw1.
Qed.
Definition stepC (r : 'rV[C]_2) (z : C) : C :=
  (\sum_n r 0 n * (y12 0 n)^* * wz r z 0 n) / clamp (weighted_power (wz r z) y12) (10%:R ^- 5).
Lemma clq2 a b z : ratr (clq (2%:R * `|a - z * b|)) = clamp (2%:R * `|ratr a - ratr z * ratr b|) (10%:R ^- 5) :> C.
Proof. by rewrite clqE rmorphM rmorph_nat /= ratr_norm rmorphB rmorphM. Qed.
Lemma fqE r1 r2 z :
  let w1 := 1 / clamp (2%:R * `|ratr r1 - ratr z * 1|) (10%:R ^- 5) in
  let w2 := 1 / clamp (2%:R * `|ratr r2 - ratr z * 2%:R|) (10%:R ^- 5) in
  ratr (fq r1 r2 z) = (ratr r1 * 1 * w1 + ratr r2 * 2%:R * w2) / clamp (1 * w1 + 4%:R * w2) (10%:R ^- 5) :> C.
Proof.
cbv zeta; rewrite /fq; set q1 := clq _; set q2 := clq _.
have -> : clamp (2%:R * `|ratr r1 - ratr z * 1|) (10%:R ^- 5) = ratr q1 :> C by rewrite clq2 rmorph1.
have -> : clamp (2%:R * `|ratr r2 - ratr z * 2%:R|) (10%:R ^- 5) = ratr q2 :> C by rewrite clq2 rmorph_nat.
rewrite fmorph_div /= clqE; congr (_ / clamp _ _).
  by rewrite rmorphD !rmorphM !fmorphV !rmorph1 rmorph_nat.
by rewrite rmorphD !rmorphM !fmorphV !rmorph1 rmorph_nat.
Qed.
Lemma stepA z : stepC rA (ratr z) = ratr (fq 2%:R 6%:R z).
Proof.
rewrite fqE /stepC /weighted_power !big_ord_recr !big_ord0 /= !add0r !wzE.
rewrite !mxE /= !rmorph_nat !normr_nat expr1n (_ : 2%:R ^+ 2 = 4%:R) // -natrX.
by [].
Qed.
Lemma stepB z : `|z| <= 3%:R -> stepC rB z = 3%:R.
Proof.
move=> hz; set w := wz rB z.
have h : 10%:R ^- 5 <= weighted_power w y12.
  have c0 n : 0 < clamp (2%:R * `|rB 0 n - z * y12 0 n|) (10%:R ^- 5).
    by rewrite clamp_gt0 ?tenV_gt0 // ger0_real // mulr_ge0 ?ler0n.
  apply: (@le_trans _ _ (`|y12 0 0| ^+ 2 * w 0 0)); last first.
    rewrite /weighted_power (bigD1 0) //= ler_addl sumr_ge0 // => n _.
    by rewrite mulr_ge0 ?exprn_ge0 // /w wzE divr_ge0 ?ler01 // ltW.
  rewrite /w wzE (_ : `|y12 0 0| ^+ 2 = 1) ?mul1r; last by rewrite mxE /= normr1 expr1n.
  rewrite lef_pinv ?posrE ?exprn_gt0 ?ltr0n ?c0 //.
  rewrite /clamp; case: ifP => _; last first.
    rewrite !mxE /= !mulr1; apply: (@le_trans _ _ (2%:R * 6%:R)).
      rewrite ler_pmul2l ?ltr0n //; apply: le_trans (ler_norm_sub _ _) _.
      by rewrite normr_nat -[6%N]/(3 + 3)%N natrD ler_add2l.
    by rewrite -natrM -natrX ler_nat.
  apply: (@le_trans _ _ 1); last by rewrite exprn_ege1 // ler1n.
  by rewrite invf_le1 ?exprn_gt0 ?ltr0n // exprn_ege1 // ler1n.
rewrite /stepC -/w (clamp_id h); set S := (X in X / _).
have -> : S = 3%:R * weighted_power w y12.
  rewrite /S /weighted_power mulr_sumr; apply: eq_bigr => n _.
  by rewrite [rB 0 n]mxE normCK !mulrA.
by rewrite mulfK // gt_eqF // (lt_le_trans (tenV_gt0 C 5)).
Qed.

(* the batch {true: A, false: B}, one channel and one frequency *)
Definition Yb : spec C bool_finType 1 1 2 := fun _ _ _ => y12.
Definition refb : refs C bool_finType 1 2 := fun b _ => if b then rA else rB.
Definition Ub := update Yb refb (lpw pw 1).
Definition Y1 : spec C unit_finType 1 1 2 := fun _ _ _ => y12.
Definition ref1 : refs C unit_finType 1 2 := fun _ _ => rA.
Definition U1 := update Y1 ref1 (lpw pw 1).
Lemma ratr1' : 1 = ratr 1 :> C. Proof. by rewrite rmorph1. Qed.
Definition zq (k : nat) : rat := iter k (fq 2%:R 6%:R) 1.
Lemma zq1 : zq 1 = 5%:R / 2%:R. Proof. exact: fq1. Qed.
Lemma zq2 : zq 2 = 8%:R / 3%:R. Proof. by rewrite /zq /= fq1 fq2. Qed.
Lemma zq3 : zq 3 = 14%:R / 5%:R. Proof. by rewrite /zq /= fq1 fq2 fq3. Qed.
Lemma UbA k : iter k Ub [ffun=> 1] (true, 0, 0) = ratr (zq k).
Proof.
elim: k => [|k IH]; first by rewrite ffunE rmorph1.
by rewrite iterS /Ub updE -/Ub IH [LHS]stepA.
Qed.
Lemma U1A k : iter k U1 [ffun=> 1] (tt, 0, 0) = ratr (zq k).
Proof.
elim: k => [|k IH]; first by rewrite ffunE rmorph1.
by rewrite iterS /U1 updE -/U1 IH [LHS]stepA.
Qed.
Lemma UbB k : iter k.+1 Ub [ffun=> 1] (false, 0, 0) = 3%:R.
Proof.
elim: k => [|k IH]; rewrite iterS /Ub updE -/Ub [LHS]stepB //.
  by rewrite ffunE normr1 ler1n.
by rewrite IH normr_nat.
Qed.
Lemma sumb (g : bool * 'I_1 * 'I_1 -> C) : \sum_i g i = g (true, 0, 0) + g (false, 0, 0).
Proof.
rewrite (bigD1 (true, 0, 0)) //= (bigD1 (false, 0, 0)) //= big1 ?addr0 //.
by case=> [[[|] i] j]; rewrite !ord1.
Qed.
Lemma sum1 (g : unit * 'I_1 * 'I_1 -> C) : \sum_i g i = g (tt, 0, 0).
Proof. by rewrite (bigD1 (tt, 0, 0)) //= big1 ?addr0 //; case=> [[[] i] j]; rewrite !ord1. Qed.

Lemma couple :
  exists out out1, [/\ minimum_distortion pw Yb refb (Some 1) None (20%:R^-1) 3 = Ok out,
    minimum_distortion pw Y1 ref1 (Some 1) None (20%:R^-1) 3 = Ok out1 &
    out true 0 0 != out1 tt 0 0].
Proof.
have p0 : 0 < 1 :> C by exact: ltr01.
have p2 : 1 < 2%:R :> C by rewrite ltr1n.
have t0 : 0 <= 20%:R^-1 :> C by rewrite invr_ge0 ler0n.
have [k [out [[h1 h1'] h2 h3 h4 h5]]] := md_lp pw Yb refb (20%:R^-1) 3 p0 p2 (or_introl (erefl None)).
have [l [out1 [[e1 e1'] e2 e3 e4 e5]]] := md_lp pw Y1 ref1 (20%:R^-1) 3 p0 p2 (or_introl (erefl None)).
exists out, out1; split=> //; rewrite h1' e1'.
have kE : k = 2%N.
  have : k = 2%N \/ k = 3%N by move: k h2 h3 {h1 h1' h4 h5} => [|[|[|[|k]]]] // _ _; [left|right].
  case=> // k3; have := h5 2%N; rewrite k3 => /(_ isT).
  rewrite small_stepE // /rel_small !sumb -/Ub UbA UbB UbA (UbB 0) subrr normr0 expr0n addr0.
  rewrite zq1 zq2 -rmorphB normr_nat /= -!ratr_norm -!rmorphX.
  have -> : 20%:R^-1 ^+ 2 * (ratr (`|5%:R / 2%:R| ^+ 2) + 3%:R ^+ 2) =
     ratr (20%:R^-1 ^+ 2 * (`|5%:R / 2%:R| ^+ 2 + 3%:R ^+ 2)) :> C.
    by rewrite [RHS]rmorphM /= [ratr (_ + _)]rmorphD /= !rmorphX fmorphV !rmorph_nat.
  by rewrite ltr_rat; vm_compute.
have lE : l = 3%N.
  have : l = 2%N \/ l = 3%N by move: l e2 e3 {e1 e1' e4 e5} => [|[|[|[|l]]]] // _ _; [left|right].
  case=> // l2; have := e4; rewrite l2 => /(_ isT).
  rewrite small_stepE // /rel_small !sum1 -/U1 !U1A zq1 zq2 -rmorphB /= -!ratr_norm -!rmorphX.
  have -> : 20%:R^-1 ^+ 2 * ratr (`|5%:R / 2%:R| ^+ 2) =
     ratr (20%:R^-1 ^+ 2 * `|5%:R / 2%:R| ^+ 2) :> C.
    by rewrite [RHS]rmorphM /= !rmorphX fmorphV !rmorph_nat.
  by rewrite ltr_rat; vm_compute.
rewrite kE lE -/Ub -/U1 UbA U1A zq2 zq3; apply/eqP => /rowP /(_ 0); rewrite !mxE /= !mulr1.
by move=> /eqP; rewrite (inj_eq (fmorph_inj _)); vm_compute.
Qed.
End Couple.
