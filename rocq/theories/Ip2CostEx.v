(* A recording for which no floor is active in the first iteration of AuxIVA_IP2 (C77). *)
From Coq Require Import Ring Field.
From mathcomp Require Import all_ssreflect all_algebra.
From Verif Require Import CAlg Py Batch LinalgModel LinalgSpec LinalgProofs LinalgBridge.
From Verif Require Import TissModel TissSpec TissProofs2 SrcModel SrcSpec CostModel CostSpec CostProofs IvaModel IvaSpec IvaProofs IvaOpt IvaBridge Ip2CostSpec.
Set Implicit Arguments. Unset Strict Implicit. Unset Printing Implicit Defensive.
Import GRing.Theory Num.Theory Order.TTheory.
Local Open Scope ring_scope.

Section Ex.
Variable C : numClosedFieldType.
Add Field Cfield_ip2e : (f_ft C).
Ltac cring := fpre; fnorm C; fatoms; ring.
Ltac cfield := fpre; fnorm C; fatoms; field.
Definition eX : 'M[C]_2 := mx22 1 2%:R 1 (- 1).
Let X : sig C 1 2 2 := [ffun=> eX].
Lemma fr a b c d : (0 < b)%N -> (0 < d)%N -> (a * d <= c * b)%N -> a%:R / b%:R <= c%:R / d%:R :> C.
Proof. by move=> hb hd h; rewrite ler_pdivr_mulr ?ltr0n // mulrAC ler_pdivl_mulr ?ltr0n // -!natrM ler_nat. Qed.
Lemma nz k : k.+1%:R != 0 :> C. Proof. by rewrite pnatr_eq0. Qed.
Lemma o2 : 1 + 1 != 0 :> C. Proof. exact: (nz 1). Qed.
Lemma t1 : 1 + 1 <> 0 :> C. Proof. exact/eqP/o2. Qed.
Lemma t2 : (1 + 1) * (1 + 1) <> 0 :> C. Proof. by apply/eqP; rewrite !mulf_neq0 // o2. Qed.
Lemma t3 : (1 + 1) * ((1 + 1) * (1 + 1)) <> 0 :> C. Proof. by apply/eqP; rewrite !mulf_neq0 // o2. Qed.
Lemma t4 : (1 + 1) * ((1 + 1) * ((1 + 1) * (1 + 1))) <> 0 :> C. Proof. by apply/eqP; rewrite !mulf_neq0 // o2. Qed.
Ltac cf := cfield; repeat split; first [exact t1 | exact t2 | exact t3 | exact t4].
Lemma norm_eX s n : `|eX s n| = (if (s == i0) && (n == i1) then 2%:R else 1).
Proof. by move: s n; apply: ord2P; apply: ord2P; rewrite mxE /= ?normrN ?normr1 ?normr_nat. Qed.
Lemma fn_eX s n : frame_norm X s n = (if (s == i0) && (n == i1) then 2%:R else 1).
Proof. by rewrite /frame_norm big_ord1 ffunE sqrCK ?normr_ge0 // norm_eX. Qed.
Lemma c5_le1 : 10%:R ^- 5 <= 1 :> C.
Proof. by rewrite invf_le1 ?exprn_gt0 ?ltr0n // -natrX ler1n. Qed.
Lemma mp0 : Num.max (mean_pow X i0) (10%:R ^- 5) = 5%:R / 2%:R.
Proof.
have -> : mean_pow X i0 = 5%:R / 2%:R.
  by rewrite /mean_pow big_ord1 sum2 ffunE !norm_eX /= expr1n -natrX -(natrD _ 1).
apply: clamp_id; apply: (le_trans c5_le1).
by rewrite ler_pdivl_mulr ?ltr0n // mul1r ler_nat.
Qed.
Lemma mp1 : Num.max (mean_pow X i1) (10%:R ^- 5) = 1.
Proof.
have -> : mean_pow X i1 = 1.
  by rewrite /mean_pow big_ord1 sum2 ffunE !norm_eX /= expr1n -(natrD _ 1 1) divff ?nz.
by apply: clamp_id; exact: c5_le1.
Qed.
Definition V0 : 'M[C]_2 := mx22 (15%:R / 8%:R) 0 0 (15%:R / 16%:R).
Definition V1 : 'M[C]_2 := mx22 (5%:R / 4%:R) (- 4%:R^-1) (- 4%:R^-1) 2%:R^-1.
Lemma cov0 f : ip2_cov X X f i0 = V0.
Proof.
apply/matrixP; apply: ord2P; apply: ord2P; rewrite !mxE sum2 mp0 !fn_eX /= ?ffunE !mxE /= ?rmorphN ?rmorph1 ?rmorph_nat;
 by cf.
Qed.
Lemma cov1 f : ip2_cov X X f i1 = V1.
Proof.
apply/matrixP; apply: ord2P; apply: ord2P; rewrite !mxE sum2 mp1 !fn_eX /= ?ffunE !mxE /= ?rmorphN ?rmorph1 ?rmorph_nat;
 by cf.
Qed.
Lemma det_pencil l : \det (V1 - l *: V0) = 9%:R / 128%:R * ((5%:R * l - 4%:R) * (5%:R * l - 2%:R)).
Proof.
have -> : 128%:R^-1 = 16%:R^-1 * 8%:R^-1 :> C by rewrite -invfM -natrM.
rewrite detE /det2 !mxE /=.
by cf.
Qed.
Lemma eig_vals (l : 'I_2 -> C) : l i1 < l i0 -> (forall k, \det (V1 - l k *: V0) = 0) ->
  5%:R * l i0 = 4%:R /\ 5%:R * l i1 = 2%:R.
Proof.
move=> lt h; have h5 : 5%:R * l i1 < 5%:R * l i0 by rewrite ltr_pmul2l ?ltr0n.
have hk k : 5%:R * l k = 4%:R \/ 5%:R * l k = 2%:R.
  have := h k; rewrite det_pencil => /eqP; rewrite !mulf_eq0 invr_eq0 !(negPf (nz _)) /= !subr_eq0.
  by case/orP => /eqP; [left|right].
move: h5; case: (hk i0) => ->; case: (hk i1) => -> //; by rewrite ?ltxx // ltr_nat.
Qed.
Lemma formZ (V : 'M[C]_2) a g : form V (a *: g) (a *: g) = a^* * a * form V g g.
Proof. by rewrite /form ctrZ -scalemxAl -scalemxAr -scalemxAl !mxE mulrCA mulrA. Qed.
Lemma vec_form (V : 'M[C]_2) l eps y q F : 0 < eps -> eps <= 10%:R^-1 -> V1 i0 i0 - l * V0 i0 i0 = y ->
  16%:R^-1 + y * y^* = q -> 100%:R^-1 <= q ->
  (V i0 i0 / 16%:R + V i0 i1 * y / 4%:R + y^* * V i1 i0 / 4%:R + y^* * V i1 i1 * y) = F ->
  let v := pencil_vec V1 V0 l eps in form V v v = F / q.
Proof.
move=> e0 e1 yE qE q1 FE v.
have q0 : 0 < q by apply: lt_le_trans q1; rewrite invr_gt0 ltr0n.
pose g : 'cV[C]_2 := \col_i if i == i0 then 4%:R^-1 else y.
have vE : v = (sqrtC q)^-1 *: g.
  rewrite /v /pencil_vec.
  have -> : \col_i (if i == 0 then l * V0 0 1 - V1 0 1 else V1 0 0 - l * V0 0 0) = g.
    apply/matrixP => i j; rewrite [LHS]mxE [RHS]mxE -i0E -i1E yE; case: ifP => // _.
    by rewrite !mxE /= mulr0 sub0r opprK.
  congr (_^-1 *: _).
  have -> : \sum_i `|g i 0| ^+ 2 = q.
    rewrite sum2 !mxE /= -qE normCK; congr (_ + _); last by rewrite normCK.
    by rewrite rmorphV ?unitfE ?nz //= rmorph_nat -invfM -natrM.
  apply: clamp_id; rewrite -(@ler_pexpn2r _ 2) ?nnegrE ?(ltW e0) ?sqrtC_ge0 ?(ltW q0) // sqrtCK.
  apply: le_trans q1; have -> : 100%:R^-1 = 10%:R^-1 ^+ 2 :> C by rewrite exprVn -natrX.
  by rewrite ler_pexpn2r // nnegrE ?(ltW e0) // invr_ge0 ler0n.
rewrite vE formZ geC0_conj ?invr_ge0 ?sqrtC_ge0 ?(ltW q0) // -invfM -expr2 sqrtCK mulrC; congr (_ / _).
rewrite /form mxE sum2 !mul2E !mxE /= -FE rmorphV ?unitfE ?nz //= rmorph_nat.
have -> : 16%:R^-1 = 4%:R^-1 * 4%:R^-1 :> C by rewrite -invfM -natrM.
by move: (_^-1) (y^*) => a b; cring.
Qed.
Lemma ip2_ex77 eps em : 0 < eps -> eps <= 10%:R^-1 -> em <= 2%:R ->
  (forall f, row_free (X f)) /\ ip2_unclamped eps em X X.
Proof.
move=> e0 e1 m2; split.
  move=> f; rewrite ffunE row_free_unit unitmxE unitfE detE /det2 !mxE /=.
  by have -> : 1 * -1 - 2%:R * 1 = - 3%:R :> C; [cring|rewrite oppr_eq0 nz].
split.
  move=> s n; apply: (le_trans m2); rewrite fn_eX -[X in X <= _]mulr1 ler_pmul2l ?ltr0n //.
  by case: ifP; rewrite // ler1n.
move=> f V.
have eV0 : V 0 = V0 by rewrite -i0E; exact: cov0.
have eV1 : V 1 = V1 by rewrite -i1E; exact: cov1.
have le1 : eps <= 1%:R / 10%:R by rewrite div1r.
rewrite eV0 eV1; split.
- apply: (le_trans le1).
  have -> : \det V0 = 225%:R / 128%:R.
    have -> : 128%:R^-1 = 16%:R^-1 * 8%:R^-1 :> C by rewrite -invfM -natrM.
    by rewrite detE /det2 !mxE /=; have -> : 225%:R = 15%:R * 15%:R :> C; [rewrite -natrM|move: (15%:R : C) => z; cf].
  exact: fr.
- apply: (le_trans le1); rewrite /pencil_disc -i0E -i1E !detE /det2 !mxE /=.
  have -> : (5%:R / 4%:R * (15%:R / 16%:R) + 2%:R^-1 * (15%:R / 8%:R) - - 4%:R^-1 * 0 - - 4%:R^-1 * 0) ^+ 2
    - 4%:R * ((5%:R / 4%:R * 2%:R^-1 - - 4%:R^-1 * - 4%:R^-1) * (15%:R / 8%:R * (15%:R / 16%:R) - 0 * 0)) = (45%:R / 64%:R) ^+ 2 :> C.
    have -> : 64%:R^-1 = 16%:R^-1 * 4%:R^-1 :> C by rewrite -invfM -natrM.
    by cf.
  apply: (@le_trans _ _ ((1%:R / 2%:R) ^+ 2)).
    by rewrite expr_div_n -!natrX; exact: fr.
  by rewrite ler_pexpn2r ?nnegrE ?divr_ge0 ?ler0n //; exact: fr.
move=> l l10 dl.
have [l0 l1] : 5%:R * l i0 = 4%:R /\ 5%:R * l i1 = 2%:R.
  by apply: eig_vals => //; rewrite i0E i1E.
have y0 : V1 i0 i0 - l i0 * V0 i0 i0 = - 4%:R^-1.
  rewrite !mxE /=; have -> : l i0 * (15%:R / 8%:R) = 5%:R * l i0 * (3%:R / 8%:R) by move: (l i0) => z; cf.
  by rewrite l0; cf.
have y1 : V1 i0 i0 - l i1 * V0 i0 i0 = 2%:R^-1.
  rewrite !mxE /=; have -> : l i1 * (15%:R / 8%:R) = 5%:R * l i1 * (3%:R / 8%:R) by move: (l i1) => z; cf.
  by rewrite l1; cf.
have bnd x : 1%:R / 10%:R <= x -> 10%:R ^- 7 <= x /\ eps ^+ 2 <= x.
  move=> hx; split; apply: (le_trans _ hx); rewrite div1r.
    by rewrite lef_pinv ?posrE ?exprn_gt0 ?ltr0n // ler_eexpr // ler1n.
  apply: (le_trans _ e1); rewrite expr2 ger_pmull //; apply: (le_trans e1).
  by rewrite invf_le1 ?ltr0n // ler1n.
have cV n : (n.+1%:R^-1)^* = n.+1%:R^-1 :> C by rewrite geC0_conj // invr_ge0 ler0n.
have s16 : 16%:R^-1 = 4%:R^-1 * 4%:R^-1 :> C by rewrite -invfM -natrM.
apply: ord2P => v; apply: bnd; rewrite /v.
- have -> : V i0 = V0 by rewrite i0E.
  rewrite (@vec_form V0 _ eps _ (2%:R / 16%:R) (45%:R / 256%:R) e0 e1 y0).
  + by rewrite ler_pdivl_mulr ?divr_gt0 ?ltr0n // mulf_div -!natrM; exact: fr.
  + by rewrite rmorphN /= cV mulrNN s16; move: (4%:R^-1) => z; cring.
  + by rewrite -[X in X <= _]div1r; exact: (@fr 1).
  rewrite rmorphN /= cV !mxE /= !mul0r !mulr0 !mul0r !addr0.
  have -> : 256%:R^-1 = 16%:R^-1 * 16%:R^-1 :> C by rewrite -invfM -natrM.
  by cf.
have -> : V i1 = V1 by rewrite i1E.
rewrite (@vec_form V1 _ eps _ (5%:R / 16%:R) (9%:R / 64%:R) e0 e1 y1).
+ by rewrite ler_pdivl_mulr ?divr_gt0 ?ltr0n // mulf_div -!natrM; exact: fr.
+ by rewrite cV; cf.
+ by rewrite -[X in X <= _]div1r; exact: (@fr 1).
rewrite cV !mxE /=.
have -> : 64%:R^-1 = 16%:R^-1 * 4%:R^-1 :> C by rewrite -invfM -natrM.
by cf.
Qed.
End Ex.
