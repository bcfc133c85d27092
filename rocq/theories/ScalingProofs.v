(* Proofs about torchiva/scaling.py. *)
From Coq Require Import Ring Field.
From mathcomp Require Import all_ssreflect all_algebra all_fingroup.
From Verif Require Import CAlg Py Batch LinalgModel LinalgProofs ScalingModel ScalingSpec.
Set Implicit Arguments. Unset Strict Implicit. Unset Printing Implicit Defensive.
Import GRing.Theory Num.Theory Order.TTheory.
Local Open Scope ring_scope.
Local Open Scope py_scope.

Section LS.
Variable C : numClosedFieldType.
Add Field CfieldSC : (f_ft C).
Ltac cring := fpre; fnorm C; fatoms; ring.
Ltac cfield := fpre; fnorm C; fatoms; field.
Lemma nz2 : (1 + 1 : C) <> 0.
Proof. by apply/eqP; rewrite -[1 + 1]/(2%:R) pnatr_eq0. Qed.
Lemma nz4 : ((1 + 1) * (1 + 1) : C) <> 0.
Proof. by apply/eqP; rewrite mulf_neq0 //; apply/eqP; exact nz2. Qed.
Lemma nz8 : ((1 + 1) * ((1 + 1) * (1 + 1)) : C) <> 0.
Proof. by apply/eqP; rewrite mulf_neq0 //; apply/eqP; [exact nz2|exact nz4]. Qed.
Ltac cside := repeat split; first [assumption | exact nz2 | exact nz4 | exact nz8].
Variable nN : nat.
Implicit Types (w r y : 'rV[C]_nN).

Lemma ReIm_div (x d : C) : 'Re x / d + 'i * ('Im x / d) = x / d.
Proof. by rewrite mulrA -mulrDl -Crect. Qed.

Lemma norm_sub2 (a b : C) : `|a - b| ^+ 2 = `|a| ^+ 2 - a * b^* - a^* * b + `|b| ^+ 2.
Proof. by rewrite !normCK rmorphB /=; cring. Qed.
(* the weighted squared error is a quadratic in z *)
Lemma werrE w r y z : (forall n, w 0 n \is Num.real) ->
  werr w r y z = \sum_n w 0 n * `|r 0 n| ^+ 2
     - z^* * (\sum_n r 0 n * (y 0 n)^* * w 0 n) - z * (\sum_n r 0 n * (y 0 n)^* * w 0 n)^*
     + `|z| ^+ 2 * (\sum_n `|y 0 n| ^+ 2 * w 0 n).
Proof.
move=> wr; rewrite rmorph_sum !mulr_sumr -!sumrB -big_split; apply: eq_bigr => n _ /=.
rewrite norm_sub2 !rmorphM /= conjCK (conj_Creal (wr n)) normrM exprMn; cring.
Qed.
Lemma wpow_ge0 w y : (forall n, 0 <= w 0 n) -> 0 <= \sum_n `|y 0 n| ^+ 2 * w 0 n.
Proof. by move=> h; apply: sumr_ge0 => n _; rewrite mulr_ge0 ?exprn_ge0. Qed.
Lemma werr_min w r y z : (forall n, 0 <= w 0 n) -> let D := \sum_n `|y 0 n| ^+ 2 * w 0 n in
  0 < D -> let c := (\sum_n r 0 n * (y 0 n)^* * w 0 n) / D in
  werr w r y z = werr w r y c + D * `|z - c| ^+ 2.
Proof.
move=> h D D0 c; have wr n : w 0 n \is Num.real by apply: ger0_real.
rewrite !werrE //; set S := \sum_n r 0 n * _ * _.
have SE : S = c * D by rewrite /c mulfVK ?gt_eqF.
have DE : D^* = D by apply: conj_Creal; exact: gtr0_real.
rewrite SE rmorphM /= DE norm_sub2 -/D; rewrite !normCK; cring.
Qed.
(* a shrunken minimiser is no worse than zero *)
Lemma werr_shrunk w r y t : (forall n, 0 <= w 0 n) -> let D := \sum_n `|y 0 n| ^+ 2 * w 0 n in
  let S := \sum_n r 0 n * (y 0 n)^* * w 0 n in
  0 <= t -> t * D <= 2%:R -> werr w r y (t * S) <= werr w r y 0.
Proof.
move=> h D S t0 tD; have wr n : w 0 n \is Num.real by apply: ger0_real.
rewrite !werrE // -/S -/D rmorph0 !mul0r normr0 expr0n mul0r !subr0 addr0 -!addrA ger_addl.
rewrite rmorphM /= (conj_Creal (ger0_real t0)) normrM (ger0_norm t0) exprMn !normCK.
have -> : - (t * S^* * S) + (- (t * S * S^*) + t ^+ 2 * (S * S^*) * D) = (t * (S * S^*)) * (t * D - 2%:R).
  by cring.
by rewrite mulr_ge0_le0 ?subr_le0 // mulr_ge0 // mul_conjC_ge0.
Qed.
Lemma sqerrE r y z : sqerr r (z *: y) = werr (const_mx 1) r y z.
Proof. by apply: eq_bigr => n _; rewrite !mxE mul1r. Qed.

(* ---- soft absolute value *)
Lemma soft_abs_mm (eps r s : C) : 0 < eps -> 0 <= r -> 0 <= s ->
  soft_abs eps s <= soft_abs eps r + (clamp (2%:R * r) eps)^-1 * (s ^+ 2 - r ^+ 2).
Proof.
move=> e0 r0 s0; have two : 0 < 2%:R :> C by rewrite ltr0n.
have four : 0 < 4%:R :> C by rewrite ltr0n.
have en : eps <> 0 by apply/eqP; rewrite gt_eqF.
have n4' : 4%:R <> 0 :> C by apply/eqP; rewrite pnatr_eq0.
have r2 : 2%:R * r \is Num.real by rewrite rpredM ?realn // ger0_real.
have s2 : 2%:R * s \is Num.real by rewrite rpredM ?realn // ger0_real.
have er : eps \is Num.real by apply: gtr0_real.
rewrite /soft_abs /clamp; case: (real_ltP r2 er) => hr; case: (real_ltP s2 er) => hs.
- by rewrite le_eqVlt; apply/orP; left; apply/eqP; cring.
- rewrite -subr_ge0.
  have -> : r ^+ 2 / eps + eps / 4%:R + eps^-1 * (s ^+ 2 - r ^+ 2) - s
     = (2%:R * s - eps) ^+ 2 / (4%:R * eps).
    apply: (@mulIf _ (4%:R * eps)); first by rewrite mulf_neq0 ?pnatr_eq0 //; apply/eqP.
    rewrite mulfVK; last by rewrite mulf_neq0 ?pnatr_eq0 //; apply/eqP.
    have -> : 4%:R = 2%:R * 2%:R :> C by rewrite -!natrM.
    have n2 : (2%:R : C) <> 0 by apply/eqP; rewrite pnatr_eq0.
    by cfield; cside.
  by apply: divr_ge0; [rewrite real_exprn_even_ge0 // rpredB|rewrite mulr_ge0 ?ler0n ?(ltW e0)].
- have r0' : 0 < r by rewrite -(pmulr_rgt0 _ two); exact: lt_le_trans hr.
  rewrite -subr_ge0.
  have -> : r + (2%:R * r)^-1 * (s ^+ 2 - r ^+ 2) - (s ^+ 2 / eps + eps / 4%:R)
     = (2%:R * r - eps) * (2%:R * r * eps - (2%:R * s) ^+ 2) / (8%:R * r * eps).
    have rn : r <> 0 by apply/eqP; rewrite gt_eqF.
    apply: (@mulIf _ (8%:R * r * eps)); first by rewrite !mulf_neq0 ?pnatr_eq0 //; apply/eqP.
    rewrite mulfVK; last by rewrite !mulf_neq0 ?pnatr_eq0 //; apply/eqP.
    have -> : 8%:R = 2%:R * (2%:R * 2%:R) :> C by rewrite -!natrM.
    have -> : 4%:R = 2%:R * 2%:R :> C by rewrite -!natrM.
    have n2 : (2%:R : C) <> 0 by apply/eqP; rewrite pnatr_eq0.
    by cfield; cside.
  rewrite divr_ge0 ?mulr_ge0 ?ler0n ?(ltW e0) // ?subr_ge0 //.
  by rewrite expr2 ler_pmul ?mulr_ge0 ?ler0n // ?(le_trans (ltW hs)) // ltW.
- have r0' : 0 < r by rewrite -(pmulr_rgt0 _ two); exact: lt_le_trans hr.
  rewrite -subr_ge0.
  have -> : r + (2%:R * r)^-1 * (s ^+ 2 - r ^+ 2) - s = (s - r) ^+ 2 / (2%:R * r).
    have rn : r <> 0 by apply/eqP; rewrite gt_eqF.
    apply: (@mulIf _ (2%:R * r)); first by rewrite !mulf_neq0 ?pnatr_eq0 //; apply/eqP.
    rewrite mulfVK; last by rewrite !mulf_neq0 ?pnatr_eq0 //; apply/eqP.
    have n2 : (2%:R : C) <> 0 by apply/eqP; rewrite pnatr_eq0.
    by cfield; cside.
  apply: divr_ge0; [rewrite real_exprn_even_ge0 // rpredB //; exact: ger0_real|by rewrite mulr_ge0 ?ler0n].
Qed.
Lemma soft_abs_bounds (eps r : C) : 0 < eps -> 0 <= r -> r <= soft_abs eps r <= r + eps / 4%:R.
Proof.
move=> e0 r0; rewrite /soft_abs; case: ifP => h; last first.
  by rewrite lexx ler_addl divr_ge0 ?ler0n // ltW.
have n4 : 0 < 4%:R :> C by rewrite ltr0n.
have r2 : 2%:R * r - eps \is Num.real by rewrite rpredB ?rpredM ?realn ?ger0_real // ltW.
apply/andP; split.
  rewrite -subr_ge0.
  have -> : r ^+ 2 / eps + eps / 4%:R - r = (2%:R * r - eps) ^+ 2 / (4%:R * eps).
    apply: (@mulIf _ (4%:R * eps)); first by rewrite mulf_neq0 ?gt_eqF.
    rewrite mulfVK; last by rewrite mulf_neq0 ?gt_eqF.
    have -> : 4%:R = 2%:R * 2%:R :> C by rewrite -!natrM.
    have n2 : (2%:R : C) <> 0 by apply/eqP; rewrite pnatr_eq0.
    have en : eps <> 0 by apply/eqP; rewrite gt_eqF.
    by cfield; cside.
  by apply: divr_ge0; [rewrite real_exprn_even_ge0|rewrite mulr_ge0 ?ler0n ?(ltW e0)].
rewrite ler_add2r ler_pdivr_mulr // expr2 ler_wpmul2l //.
by apply: le_trans (ltW h); rewrite mulr_natl mulr2n ler_addl.
Qed.
End LS.
