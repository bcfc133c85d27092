(* With regularisation AuxIVA_IP can increase the scale free cost (C76). *)
From Coq Require Import Ring Field.
From mathcomp Require Import all_ssreflect all_algebra.
From Verif Require Import CAlg Py Batch LinalgModel LinalgSpec LinalgProofs LinalgBridge.
From Verif Require Import TissModel TissSpec TissProofs2 SrcModel SrcSpec CostModel CostSpec CostProofs IvaModel IvaSpec IvaProofs IvaOpt IvaBridge IpCostProofs.
Set Implicit Arguments. Unset Strict Implicit. Unset Printing Implicit Defensive.
Import GRing.Theory Num.Theory Order.TTheory.
Local Open Scope ring_scope.
Local Open Scope py_scope.

Section Step.
Variable C : numClosedFieldType.
(* the solution of the normal equations is the result *)
Lemma slg_val n (A : 'M[C]_n) k (eps : C) (x : 'cV[C]_n) : 0 < eps ->
  (forall l, \sum_i (row_weight A eps i) ^+ 2 * (A i l)^* * (A *m x) i 0 + eps * x l 0 = (row_weight A eps k) ^+ 2 * (A k l)^*) ->
  solve_loaded_general A (delta_mx k 0 : 'cV[C]_n) eps eps = Ok x.
Proof.
move=> e0 h; rewrite slg_ok //.
set A2 := \matrix_(i, j) _; set b2 := \matrix_(i, j) (_ * _).
have rw i : (row_weight A eps i)^* = row_weight A eps i by rewrite conj_Creal // row_weight_real.
have A2x i : (A2 *m x) i 0 = row_weight A eps i * (A *m x) i 0.
  by rewrite !mxE mulr_sumr; apply: eq_bigr => j _; rewrite !mxE mulrAC mulrA mulrC mulrA mulrAC [X in X * _]mulrC mulrA.
have uM : ctr A2 *m A2 + eps%:M \in unitmx by apply/pd_unit/pd_load => //; exact: psd_gram.
congr Ok; apply: (can_inj (mulKmx uM)); rewrite mulKVmx //.
rewrite mulmxDl -mulmxA mul_scalar_mx; apply/colP => l.
rewrite [RHS]mxE [(eps *: x) l 0]mxE [X in _ = X + _]mxE.
have -> : \sum_j ctr A2 l j * (A2 *m x) j 0 = \sum_i (row_weight A eps i) ^+ 2 * (A i l)^* * (A *m x) i 0.
  apply: eq_bigr => i _; rewrite A2x ctrE [A2 _ _]mxE rmorphM rw /= expr2.
  by rewrite [(A i l)^* * _]mulrC mulrACA -!mulrA [X in _ * X]mulrCA.
rewrite h mxE (bigD1 k) //= big1 => [|i ne]; last by rewrite [b2 _ _]mxE !mxE (negbTE ne) mul0r mulr0.
by rewrite addr0 ctrE [A2 _ _]mxE [b2 _ _]mxE rmorphM rw /= mxE !eqxx mul1r mulrAC -mulrA -expr2 mulrC.
Qed.

Variables (nS nN : nat).
Lemma ip_source_val (X : sig C 1 nN (nS + 0)) (w : sig C 1 nN nS) (eps : C) (W : filt C 1 nS (nS + 0)) J0 (k : 'I_nS) (x : 'cV[C]_(nS + 0)) :
  0 < eps ->
  let V := wcov (w ord0 k) (X ord0) in let A := full_demix (W ord0) 0 *m V in
  (forall l, \sum_i (row_weight A eps i) ^+ 2 * (A i l)^* * (A *m x) i 0 + eps * x l 0 = (row_weight A eps (lshift 0 k)) ^+ 2 * (A (lshift 0 k) l)^*) ->
  ip_source X w eps (W, J0) k = Ok ([ffun=> \matrix_(s, c) if s == k then (x c 0)^* / sqrtC (clamp ('Re (form V x x)) eps) else W ord0 s c],
     [ffun=> 0]).
Proof.
move=> e0 V A h; rewrite /ip_source /orthogonal_constraint ltnn; cbn [bind].
have -> : gather (0 : 'cV[C]_(nS + 0)) (fun f => solve_loaded_general (ip_WV (W f) ([ffun=> 0] f) (ip_V X w k f))
    (delta_mx (lshift 0 k) 0 : 'cV[C]_(nS + 0)) eps eps) = Ok [ffun=> x].
  apply: gather_ok => f; rewrite ord1 ip_WVE ip_VE !ffunE; exact: slg_val.
cbn [bind]; congr (Ok (_, _)); apply/ffunP => f; rewrite !ffunE ord1; apply/matrixP => s c; rewrite !mxE.
case: ifP => // _; congr (_ / sqrtC (clamp ('Re _) _)).
by rewrite scaleE ip_VE.
Qed.
End Step.

Section Two.
Variable C : numClosedFieldType.
Add Field Cfield_ipr : (f_ft C).
Ltac cring := fpre; fnorm C; fatoms; ring.
Ltac cfield := fpre; fnorm C; fatoms; field.
Lemma full2 (W : 'M[C]_2) : @full_demix C 2 0 W 0 = W.
Proof.
apply/matrixP => i j; rewrite /full_demix mxE; case: splitP => [k e|[]//].
by congr (W _ j); apply: val_inj.
Qed.
Lemma rwsq (A : 'M[C]_2) (eps : C) i N : 0 < eps -> `|A i i0| ^+ 2 + `|A i i1| ^+ 2 = N -> eps ^+ 2 <= N ->
  row_weight A eps i ^+ 2 = N^-1.
Proof.
move=> e0 hN le; rewrite /row_weight sum2 hN div1r.
have N0 : 0 < N by apply: lt_le_trans le; rewrite exprn_gt0.
rewrite clamp_id ?exprVn ?sqrtCK //.
rewrite -(@ler_pexpn2r _ 2) ?sqrtCK //; rewrite nnegrE ?sqrtC_ge0; exact: ltW.
Qed.
Definition cx (a b : C) : 'cV[C]_2 := \col_i if i == i0 then a else b.
Lemma step_two nN (X : sig C 1 nN (2 + 0)) (w : sig C 1 nN 2) (eps : C) (W : filt C 1 2 (2 + 0)) J0 (k : 'I_2)
    V (a b c d N0 N1 x0 x1 : C) : 0 < eps ->
  wcov (w ord0 k) (X ord0) = V -> (W ord0 : 'M[C]_2) *m V = mx22 a b c d ->
  `|a| ^+ 2 + `|b| ^+ 2 = N0 -> `|c| ^+ 2 + `|d| ^+ 2 = N1 -> eps ^+ 2 <= N0 -> eps ^+ 2 <= N1 ->
  let N := if k == i0 then N0 else N1 in
  N0^-1 * a^* * (a * x0 + b * x1) + N1^-1 * c^* * (c * x0 + d * x1) + eps * x0 = N^-1 * (if k == i0 then a else c)^* ->
  N0^-1 * b^* * (a * x0 + b * x1) + N1^-1 * d^* * (c * x0 + d * x1) + eps * x1 = N^-1 * (if k == i0 then b else d)^* ->
  let q := form V (cx x0 x1) (cx x0 x1) in
  ip_source X w eps (W, J0) k = Ok ([ffun=> \matrix_(s, e) if s == k then (cx x0 x1 e 0)^* / sqrtC (clamp ('Re q) eps) else W ord0 s e],
     [ffun=> 0]).
Proof.
move=> e0 hV hA h0 h1 l0 l1 N E0 E1 q; rewrite (@ip_source_val C 2 nN X w eps W J0 k (cx x0 x1) e0) ?hV //.
rewrite full2 hA.
have r0 : row_weight (mx22 a b c d) eps i0 ^+ 2 = N0^-1 by apply: rwsq => //; rewrite !mxE.
have r1 : row_weight (mx22 a b c d) eps i1 ^+ 2 = N1^-1 by apply: rwsq => //; rewrite !mxE.
have lk : lshift 0 k = k :> 'I_2 by apply: val_inj.
have rk : row_weight (mx22 a b c d) eps (lshift 0 k) ^+ 2 = N^-1.
  by rewrite lk /N; move: k {lk N E0 E1 q hV}; apply: ord2P.
have Ak0 : mx22 a b c d (lshift 0 k) i0 = if k == i0 then a else c.
  by rewrite lk; move: k {rk lk N E0 E1 q hV}; apply: ord2P; rewrite !mxE.
have Ak1 : mx22 a b c d (lshift 0 k) i1 = if k == i0 then b else d.
  by rewrite lk; move: k {rk lk N E0 E1 q hV Ak0}; apply: ord2P; rewrite !mxE.
rewrite rk; apply: ord2P.
- by rewrite Ak0 -E0 sum2 r0 r1 !mul2E !mxE.
- by rewrite Ak1 -E1 sum2 r0 r1 !mul2E !mxE.
Qed.
End Two.

Section Wit.
Variable C : numClosedFieldType.
Add Field Cfield_ipw : (f_ft C).
Ltac cring := fpre; fnorm C; fatoms; ring.
Ltac cfield := fpre; fnorm C; fatoms; field.
Variables (lg : C -> C) (e em : C).
Hypothesis ll : log_like lg.
Hypothesis lm : log_mul lg.
Hypothesis e0 : 0 < e.
Hypothesis e1 : e <= 10%:R^-1.
Hypothesis m0 : 0 < em.
Hypothesis m2 : em <= 2%:R.
Definition wX : sig C 1 2 (2 + 0) := [ffun=> mx22 1 1 (1 - 'i) (- 1 - 'i)].
Definition wY : sig C 1 2 2 := [ffun=> mx22 1 1 1 (-1)].
Definition wW : filt C 1 2 (2 + 0) := [ffun=> mx22 1 0 'i 1].
Definition wJ : filt C 1 0 2 := [ffun=> 0].
Definition ww : sig C 1 2 2 := [ffun=> const_mx 2%:R^-1].
Lemma ii : 'i * 'i = -1 :> C. Proof. by rewrite -expr2 sqrCi. Qed.
Lemma t2 : 2%:R != 0 :> C. Proof. by rewrite pnatr_eq0. Qed.
Lemma wYE f : wY f = wW f *m wX f.
Proof.
rewrite !ffunE; apply/matrixP; apply: ord2P; apply: ord2P; rewrite mul2E !mxE /=; cring.
Qed.
Lemma wfn s n : frame_norm wY s n = 1.
Proof.
rewrite /frame_norm big_ord1 ffunE mxE; move: s n; apply: ord2P; apply: ord2P => /=;
  by rewrite ?normrN normr1 expr1n sqrtC1.
Qed.
Lemma wdet f : \det (full_demix (wW f) (wJ f)) = 1.
Proof. by rewrite !ffunE full2 detE /det2 !mxE /= mulr1 mul0r subr0. Qed.
Lemma wfree f : row_free (wX f).
Proof.
rewrite row_free_unit unitmxE unitfE ffunE detE /det2 !mxE /=.
have -> : 1 * (- 1 - 'i) - 1 * (1 - 'i) = - (1 + 1) :> C by cring.
by rewrite oppr_eq0 t2.
Qed.
Lemma hh : 2%:R^-1 + 2%:R^-1 = 1 :> C.
Proof. by rewrite -mulr2n -[_ *+ 2]mulr_natl mulfV // t2. Qed.
Lemma wV f k : wcov (ww f k) (wX f) = mx22 1 'i (- 'i) 2%:R.
Proof.
apply/matrixP; apply: ord2P; apply: ord2P; rewrite !mxE sum2 !ffunE !mxE /= ?rmorphB ?rmorphN /= ?rmorph1 ?conjCi;
 have h := hh; have i2 := ii; move: (2%:R^-1) h => t h.
- by rewrite !mulr1.
- have -> : t * (1 * (1 - - 'i)) + t * (1 * (- 1 - - 'i)) = (t + t) * 'i :> C by cring.
  by rewrite h mul1r.
- have -> : t * ((1 - 'i) * 1) + t * ((- 1 - 'i) * 1) = - ((t + t) * 'i) :> C by cring.
  by rewrite h mul1r.
- have -> : t * ((1 - 'i) * (1 - - 'i)) + t * ((- 1 - 'i) * (- 1 - - 'i)) = (t + t) * (1 - 'i * 'i) :> C by cring.
  by rewrite h mul1r i2 opprK.
Qed.
Let P := 1 + e + e.
Let Q := 1 + e + e + e.
Let S := P ^+ 2 + Q ^+ 2.
Let T := P ^+ 2 + e * S.
Let k1 := (1 + (e + e + e + e) + (e ^+ 2 + e ^+ 2))^-1.
Let k2 := (P ^+ 2 + (e * S + e * S) + e ^+ 2 * S)^-1.
Let D := (1 + e) * T + e * P * Q.
Lemma P0 : 0 < P. Proof. by rewrite !addr_gt0 ?ltr01. Qed.
Lemma Q0 : 0 < Q. Proof. by rewrite !addr_gt0 ?ltr01. Qed.
Lemma S0 : 0 < S. Proof. by rewrite addr_gt0 ?exprn_gt0 ?P0 ?Q0. Qed.
Lemma T0 : 0 < T. Proof. by rewrite addr_gt0 ?mulr_gt0 ?exprn_gt0 ?P0 ?S0. Qed.
Lemma D0 : 0 < D.
Proof.
by apply: addr_gt0; [apply: mulr_gt0 T0; rewrite addr_gt0 ?ltr01|rewrite !mulr_gt0 ?P0 ?Q0].
Qed.
Lemma k1p : 0 < k1. Proof. by rewrite invr_gt0 !addr_gt0 ?exprn_gt0 ?ltr01. Qed.
Lemma k2p : 0 < k2. Proof. by rewrite invr_gt0 !addr_gt0 ?mulr_gt0 ?exprn_gt0 ?S0 ?P0. Qed.
Lemma k1E : k1 * (1 + (e + e + e + e) + (e ^+ 2 + e ^+ 2)) = 1.
Proof. by rewrite mulVf // gt_eqF // !addr_gt0 ?exprn_gt0 ?ltr01. Qed.
Lemma k2E : k2 * (P ^+ 2 + (e * S + e * S) + e ^+ 2 * S) = 1.
Proof. by rewrite mulVf // gt_eqF // !addr_gt0 ?mulr_gt0 ?exprn_gt0 ?S0 ?P0. Qed.
Lemma e_1 : e <= 1.
Proof. by apply: le_trans e1 _; rewrite invf_le1 ?ltr0n // ler1n. Qed.
Lemma er : e^* = e. Proof. by rewrite conj_Creal // gtr0_real. Qed.
(* (x + i y) (x - i y) *)
Lemma nsq (x y : C) : x^* = x -> y^* = y -> `|x + 'i * y| ^+ 2 = x ^+ 2 + y ^+ 2.
Proof.
move=> hx hy; rewrite normCK rmorphD rmorphM /= conjCi hx hy.
have -> : (x + 'i * y) * (x + - 'i * y) = x ^+ 2 - ('i * 'i) * y ^+ 2 by cring.
by rewrite ii; cring.
Qed.

Definition step1W (a : C) : filt C 1 2 (2 + 0) := [ffun=> mx22 (a * (1 + e)) (a * 'i * e) 'i 1].
Definition step2W (a b : C) : filt C 1 2 (2 + 0) := [ffun=> mx22 (a * (1 + e)) (a * 'i * e) (b * 'i * P * Q) (b * T)].
Lemma first J : exists a, [/\ 0 < a, e ^+ 2 <= a ^+ 2 * S & ip_source wX ww e (wW, J) i0 = Ok (step1W a, [ffun=> 0])].
Proof.
set V := mx22 1 'i (- 'i) 2%:R : 'M[C]_2; set x0 := k1 * (1 + e); set x1 := - 'i * k1 * e.
have hA : (wW ord0 : 'M[C]_2) *m V = mx22 1 'i 0 1.
  rewrite ffunE; apply/matrixP; apply: ord2P; apply: ord2P; rewrite mul2E !mxE /=.
  - by cring.
  - by cring.
  - by cring.
  - by rewrite ii; cring.
set q := form V (cx x0 x1) (cx x0 x1).
have key : 2%:R^-1 * k1 * P + e * k1 * (1 + e) = 2%:R^-1.
  have h := hh; have k := k1E; move: (2%:R^-1) h => t h; rewrite -[RHS]mulr1 -[X in _ = _ * X]k.
  have -> : e * k1 * (1 + e) = (t + t) * (e * k1 * (1 + e)) by rewrite h mul1r.
  by rewrite /P; move: (k1) => y; cring.
have Ax : 1 * x0 + 'i * x1 = k1 * P.
  have -> : 1 * x0 + 'i * x1 = k1 * (1 + e) - ('i * 'i) * k1 * e by rewrite /x0 /x1; cring.
  by rewrite ii /P; cring.
have i2 := ii; have t20 := t2.
have e2 : e ^+ 2 <= 1 by rewrite expr_le1 ?(ltW e0) // e_1.
set c := (sqrtC (clamp ('Re q) e))^-1.
have qE : q = k1 ^+ 2 * (P ^+ 2 + e ^+ 2).
  rewrite /q /form !mul2E !ctrE !mxE /=.
  have r : k1^* = k1 by rewrite conj_Creal // gtr0_real // k1p.
  rewrite /x0 /x1 !rmorphM !rmorphN /= conjCi opprK rmorphD /= rmorph1 er r /P; move: (k1) => y.
  have -> : (y * (1 + e) * 1 + 'i * y * e * - 'i) * (y * (1 + e)) + (y * (1 + e) * 'i + 'i * y * e * 2%:R) * (- 'i * y * e)
    = y ^+ 2 * ((1 + e) ^+ 2 - 'i * 'i * e * (1 + e) - 'i * 'i * (1 + e + (e + e)) * e) by cring.
  by rewrite i2; cring.
have h : ip_source wX ww e (wW, J) i0 = Ok ([ffun=> \matrix_(s, l) if s == i0 then (cx x0 x1 l 0)^* / sqrtC (clamp ('Re q) e) else wW ord0 s l], [ffun=> 0]).
  apply: (@step_two C 2 wX ww e wW J i0 V 1 'i 0 1 2%:R 1 x0 x1 e0 (wV ord0 i0) hA); rewrite ?normr1 ?normCi ?normr0 ?expr1n ?expr0n /= ?add0r //.
  - by apply: (le_trans e2); rewrite ler1n.
  - by rewrite Ax rmorph0 rmorph1 mulr0 mul0r addr0 mulr1 !mulrA key.
  - rewrite Ax rmorph1 conjCi mul0r add0r invr1 !mul1r /x1 -[RHS]mulrC.
    have -> : - 'i * 2%:R^-1 = - 'i * (2%:R^-1 * k1 * P + e * k1 * (1 + e)) by rewrite key.
    by move: (2%:R^-1) (k1) => t y; rewrite /P; cring.
have q0 : 0 < q by rewrite qE mulr_gt0 ?addr_gt0 ?exprn_gt0 ?k1p ?P0.
have rq : 'Re q = q by apply/Creal_ReP/gtr0_real.
have cl0 : 0 < clamp ('Re q) e by rewrite clamp_gt0 // rq gtr0_real.
have c0 : 0 < c by rewrite invr_gt0 sqrtC_gt0.
have k4 : 4%:R^-1 <= k1 ^+ 2.
  have k2' : 2%:R^-1 <= k1.
    rewrite lef_pinv ?posrE ?ltr0n ?addr_gt0 ?exprn_gt0 ?ltr01 //.
    have t10 : e *+ 10 <= 1 by rewrite -[e *+ 10]mulr_natr -ler_pdivl_mulr ?ltr0n // div1r.
    have ee : e ^+ 2 <= e by rewrite expr2 -{3}[e]mulr1 ler_pmul2l // e_1.
    rewrite mulrSr [1%:R]mulr1n -addrA ler_add2l; apply: le_trans t10.
    apply: (@le_trans _ _ ((e + e + e + e) + (e + e))); first by rewrite ler_add2l ler_add.
    have -> : e *+ 10 = (e + e + e + e) + (e + e) + (e + e + e + e) by rewrite -!mulr2n -?mulrS -?mulrSr -!mulrnDr.
    by rewrite ler_addl ltW // !addr_gt0.
  rewrite -[X in X%:R^-1]/(2 ^ 2)%N natrX -exprVn ler_pexpn2r // nnegrE; first by rewrite invr_ge0 ler0n.
  exact: ltW k1p.
have P1 : 1 <= P by rewrite /P -addrA ler_addl addr_ge0 // ltW.
have S1 : 1 <= S by rewrite /S -[X in X <= _]addr0 ler_add ?exprn_ege1 // exprn_ge0 // ltW // Q0.
have k10 : 0 < k1 ^+ 2 by rewrite exprn_gt0 // k1p.
have clE : clamp ('Re q) e <= k1 ^+ 2 * S.
  rewrite rq /clamp; case: ifP => _.
    apply: (le_trans e1); apply: (@le_trans _ _ 4%:R^-1); first by rewrite lef_pinv ?posrE ?ltr0n // ler_nat.
    by apply: (le_trans k4); rewrite -{1}[k1 ^+ 2]mulr1 ler_pmul2l.
  rewrite qE ler_pmul2l // ler_add2l ler_pexpn2r // ?nnegrE ?(ltW e0) ?(ltW Q0) //.
  by rewrite /Q -[X in X <= _]add0r ler_add2r !addr_ge0 ?ler01 // ltW.
exists (c * k1); split.
- by rewrite mulr_gt0 ?k1p.
- apply: (le_trans e2); rewrite exprMn /c exprVn sqrtCK -mulrA mulrC ler_pdivl_mulr // mul1r //.
rewrite h; congr (Ok (_, _)); apply/ffunP => f; rewrite !ffunE; apply/matrixP; apply: ord2P; apply: ord2P; rewrite !mxE /= -/c.
have r : k1^* = k1 by rewrite conj_Creal // gtr0_real // k1p.
- by rewrite rmorphM rmorphD /= rmorph1 er r; cring.
- rewrite !rmorphM !rmorphN /= conjCi opprK er conj_Creal ?gtr0_real ?k1p //; cring.
- by [].
- by [].
Qed.

Lemma second a J : 0 < a -> e ^+ 2 <= a ^+ 2 * S ->
  exists b, 0 < b /\ ip_source wX ww e (step1W a, J) i1 = Ok (step2W a b, [ffun=> 0]).
Proof.
move=> a0 ha; set V := mx22 1 'i (- 'i) 2%:R : 'M[C]_2; set x0 := - 'i * k2 * P * Q; set x1 := k2 * T.
have i2 := ii.
have hA : (step1W a ord0 : 'M[C]_2) *m V = mx22 (a * P) (a * 'i * Q) 0 1.
  rewrite ffunE; apply/matrixP; apply: ord2P; apply: ord2P; rewrite mul2E !mxE /= /P /Q.
  - have -> : a * (1 + e) * 1 + a * 'i * e * - 'i = a * (1 + e) - a * e * ('i * 'i) by cring.
    by rewrite i2; cring.
  - by cring.
  - by cring.
  - by rewrite i2; cring.
have [Pr Qr] : P^* = P /\ Q^* = Q by split; rewrite conj_Creal // gtr0_real ?P0 ?Q0.
have ar : a^* = a by rewrite conj_Creal // gtr0_real.
have S0' := S0; have Sn := lt0r_neq0 S0'; have an := lt0r_neq0 a0.
have Ax : a * P * x0 + a * 'i * Q * x1 = a * 'i * Q * k2 * e * S.
  by rewrite /x0 /x1 /T; move: (S) (P) (Q) (k2) => *; cring.
set q := form V (cx x0 x1) (cx x0 x1).
have h : ip_source wX ww e (step1W a, J) i1 = Ok ([ffun=> \matrix_(s, l) if s == i1 then (cx x0 x1 l 0)^* / sqrtC (clamp ('Re q) e) else step1W a ord0 s l], [ffun=> 0]).
  apply: (@step_two C 2 wX ww e (step1W a) J i1 V (a * P) (a * 'i * Q) 0 1 (a ^+ 2 * S) 1 x0 x1 e0 (wV ord0 i1) hA);
    rewrite ?normr1 ?normr0 ?expr1n ?expr0n /= ?add0r //.
  - by rewrite !normrM normCi mulr1 !ger0_norm ?(ltW a0) ?(ltW P0) ?(ltW Q0) // !exprMn -mulrDr.
  - by rewrite expr_le1 ?(ltW e0) // e_1.
  - rewrite Ax rmorph0 !mulr0 mul0r addr0 rmorphM /= ar Pr /x0.
    have -> : (a ^+ 2 * S)^-1 * (a * P) * (a * 'i * Q * k2 * e * S) = e * ('i * k2 * P * Q).
      by move: (S) (P) (Q) (k2) Sn => s1 p1 q1 y sn; cfield; split; exact/eqP.
    by move: (S) (P) (Q) (k2) => *; cring.
  - rewrite Ax rmorph1 mul0r add0r invr1 !mul1r !rmorphM /= ar conjCi Qr /x1.
    have -> : (a ^+ 2 * S)^-1 * (a * - 'i * Q) * (a * 'i * Q * k2 * e * S) = - ('i * 'i) * Q ^+ 2 * k2 * e.
      by move: (S) (P) (Q) (k2) Sn => s1 p1 q1 y sn; cfield; split; exact/eqP.
    rewrite i2 -[RHS]k2E /T /S; move: (P) (Q) (k2) => *; cring.
have cl0 : 0 < clamp ('Re q) e by rewrite clamp_gt0 // Creal_Re.
set c := (sqrtC (clamp ('Re q) e))^-1.
have c0 : 0 < c by rewrite invr_gt0 sqrtC_gt0.
exists (c * k2); split; first by rewrite mulr_gt0 ?k2p.
rewrite h; congr (Ok (_, _)); apply/ffunP => f; rewrite !ffunE; apply/matrixP; apply: ord2P; apply: ord2P; rewrite !mxE /= -/c //.
- rewrite !rmorphM !rmorphN /= conjCi opprK Pr Qr [k2^*]conj_Creal ?gtr0_real ?k2p //; move: (P) (Q) (k2) => *; cring.
- rewrite rmorphM /= ![_^*]conj_Creal ?gtr0_real ?k2p ?T0 //; move: (T) (k2) => *; cring.
Qed.

Lemma iter_two : exists a b, [/\ 0 < a, 0 < b &
  ip_iter (laplace_model em) wX e (wY, wW, wJ, tt) = Ok ([ffun f => step2W a b f *m wX f], step2W a b, [ffun=> 0], tt)].
Proof.
have wE : (laplace_model em tt wY).1 = ww.
  apply/ffunP => f; rewrite !ffunE; apply/matrixP => s n; rewrite mxE /laplace !mxE div1r.
  have -> : \sum_i mag_sq ((\matrix_(g, l) wY g s l) i n) = \sum_g `|wY g s n| ^+ 2.
    by apply: eq_bigr => g _; rewrite mag_sqE mxE.
  by rewrite -[sqrtC _]/(frame_norm wY s n) wfn mulr1 clamp_id.
have gE s : ip_gain e wY s = 1.
  rewrite /ip_gain mean_powE; have -> : mean_pow wY s = 1.
    rewrite /mean_pow big_ord1 sum2; have h n : `|wY ord0 s n| ^+ 2 = 1.
      have := wfn s n; rewrite /frame_norm big_ord1 => h; by rewrite -[LHS]sqrtCK h expr1n.
    by rewrite !h mul1n -mulr2n divff // t2.
  by rewrite clamp_id // e_1.
have [a [a0 ha h1]] := first wJ; have [b [b0 h2]] := second [ffun=> 0] a0 ha.
exists a, b; split=> //; rewrite /ip_iter.
have -> : laplace_model em tt wY = (ww, tt) by rewrite -wE.
set W1 := (V in (V, wJ)); set w1 := (V in ip_source _ V _).
have -> : W1 = wW.
  by apply/ffunP => f; apply/matrixP => s c; rewrite /W1 ffunE !mxE gE sqrtC1 clamp_id ?e_1 // divr1.
have -> : w1 = ww.
  by apply/ffunP => f; apply/matrixP => s c; rewrite /w1 ffunE !mxE gE mulr1.
have -> : enum 'I_2 = [:: i0; i1].
  by apply: (inj_map val_inj); rewrite val_enum_ord.
by cbn [foldM]; rewrite h1; cbn [bind]; rewrite h2.
Qed.
Let B := T - P * Q.
Lemma B0 : 0 < B.
Proof.
have -> : B = e * (1 + (e + e + e + e + e + e + e + e) + 13%:R * e ^+ 2).
  by rewrite /B /T /S /P /Q; cring.
by rewrite mulr_gt0 // !addr_gt0 ?ltr01 // mulr_gt0 ?ltr0n // exprn_gt0.
Qed.
Lemma lagrange : D ^+ 2 < (P ^+ 2 + e ^+ 2) * (T ^+ 2 + B ^+ 2).
Proof.
have -> : (P ^+ 2 + e ^+ 2) * (T ^+ 2 + B ^+ 2) = D ^+ 2 + (P * B + e * T) ^+ 2.
  by rewrite /D /B; move: (T) (Q) => *; rewrite /P; cring.
by rewrite ltr_addl exprn_gt0 // addr_gt0 // mulr_gt0 ?P0 ?B0 ?T0.
Qed.
Lemma lg_lt x y : 0 < x -> x < y -> lg x < lg y.
Proof.
move=> x0 xy; have y0 := lt_trans x0 xy; rewrite -subr_lt0; apply: le_lt_trans (ll y0 x0) _.
by rewrite subr_lt0 ltr_pdivr_mulr // mul1r.
Qed.
Lemma ip_wit : exists (X : sig C 1 2 (2 + 0)) (Y : sig C 1 2 2) (W : filt C 1 2 (2 + 0)) (J : filt C 1 0 2)
    (Y' : sig C 1 2 2) (W' : filt C 1 2 (2 + 0)) (J' : filt C 1 0 2),
  [/\ forall f, row_free (X f), forall f, \det (full_demix (W f) (J f)) != 0, forall f, Y f = W f *m X f,
      forall s n, em <= 2%:R * frame_norm Y s n &
  [/\ ip_iter (laplace_model em) X e (Y, W, J, tt) = Ok (Y', W', J', tt),
      forall f, \det (full_demix (W' f) (J' f)) != 0 &
      laplace_cost_si lg Y (fun f => full_demix (W f) (J f)) < laplace_cost_si lg Y' (fun f => full_demix (W' f) (J' f))]].
Proof.
have [a [b [a0 b0 h]]] := iter_two.
set Y' : sig C 1 2 2 := [ffun f => step2W a b f *m wX f] in h.
have dE f : \det (full_demix (step2W a b f) ([ffun=> 0] f : 'M[C]_(0, 2))) = a * b * D.
  rewrite !ffunE full2 detE /det2 !mxE /= /D.
  have -> : a * (1 + e) * (b * T) - a * 'i * e * (b * 'i * P * Q) = a * b * ((1 + e) * T - ('i * 'i) * e * P * Q).
    by move: (P) (Q) (T) => *; cring.
  by rewrite ii; move: (P) (Q) (T) => *; cring.
have dn : a * b * D != 0 by rewrite gt_eqF // !mulr_gt0 ?D0.
have rr x : 0 < x -> x^* = x :> C by move=> x0; rewrite conj_Creal // gtr0_real.
have sq2 x u : 0 < x -> sqrtC (x ^+ 2 * u) = x * sqrtC u :> C.
  by move=> x0; rewrite rootCMl ?exprn_ge0 ?(ltW x0) // sqrCK // ltW.
have i2 := ii.
have fn0 n : frame_norm Y' i0 n = a * sqrtC (P ^+ 2 + e ^+ 2).
  rewrite /frame_norm big_ord1 -sq2 //; congr sqrtC; rewrite !ffunE mul2E !mxE /=.
  have nn y : y^* = y -> `|a * (P + 'i * y)| ^+ 2 = a ^+ 2 * (P ^+ 2 + y ^+ 2).
    by move=> yr; rewrite normrM exprMn nsq ?(rr _ P0) // ger0_norm // ltW.
  move: n; apply: ord2P => /=.
  - rewrite -nn ?er //; congr (`|_| ^+ 2).
    have -> : a * (1 + e) * 1 + a * 'i * e * (1 - 'i) = a * (1 + e + 'i * e - 'i * 'i * e) by cring.
    by rewrite i2 /P; cring.
  - rewrite -[e ^+ 2]sqrrN -nn ?rmorphN /= ?er //; congr (`|_| ^+ 2).
    have -> : a * (1 + e) * 1 + a * 'i * e * (- 1 - 'i) = a * (1 + e - 'i * e - 'i * 'i * e) by cring.
    by rewrite i2 /P; cring.
have fn1 n : frame_norm Y' i1 n = b * sqrtC (T ^+ 2 + B ^+ 2).
  rewrite /frame_norm big_ord1 -sq2 //; congr sqrtC; rewrite !ffunE mul2E !mxE /=.
  have nn y : y^* = y -> `|b * (y + 'i * (- B))| ^+ 2 = b ^+ 2 * (y ^+ 2 + B ^+ 2).
    by move=> yr; rewrite normrM exprMn nsq ?rmorphN /= ?(rr _ B0) // sqrrN ger0_norm // ltW.
  move: n; apply: ord2P => /=.
  - rewrite -nn ?(rr _ T0) //; congr (`|_| ^+ 2); rewrite /B; move: (P) (Q) (T) => *; cring.
  - rewrite -[T ^+ 2]sqrrN -nn ?rmorphN /= ?(rr _ T0) //; congr (`|_| ^+ 2); rewrite /B; move: (P) (Q) (T) => *; cring.
exists wX, wY, wW, wJ, Y', (step2W a b), [ffun=> 0]; split=> //.
- exact: wfree.
- by move=> f; rewrite wdet oner_eq0.
- exact: wYE.
- by move=> s n; rewrite wfn mulr1.
split=> //; first by move=> f; rewrite dE.
rewrite /laplace_cost_si !big_ord1 dE wdet !sum2 !fn0 !fn1 !wfn normr1 !mul1r.
have l1 : lg (1 ^+ 2) = 0.
  have := lm ltr01 ltr01; rewrite mulr1 expr1n => /eqP; rewrite eq_sym -subr_eq0 addrK => /eqP //.
have dbl x u : 0 < x -> 0 < u -> (x * sqrtC u + x * sqrtC u) ^+ 2 = (1 + 1) ^+ 2 * x ^+ 2 * u :> C.
  by move=> x0 u0; have := sqrtCK u; move: (sqrtC u) => v <-; cring.
have U0 : 0 < P ^+ 2 + e ^+ 2 by rewrite addr_gt0 ?exprn_gt0 ?P0.
have Z0 : 0 < T ^+ 2 + B ^+ 2 by rewrite addr_gt0 ?exprn_gt0 ?T0 ?B0.
have o1 : 0 < 1 + 1 :> C by rewrite addr_gt0 ?ltr01.
have o0 : 0 < (1 + 1) ^+ 2 :> C by rewrite exprn_gt0.
have aa := exprn_gt0 2 a0; have bb := exprn_gt0 2 b0.
rewrite l1 subr0 !dbl // ltr_subr_addr -!lm ?mulr_gt0 // ?exprn_gt0 ?normr_gt0 //.
have abD : `|a * b * D| ^+ 2 = a ^+ 2 * b ^+ 2 * D ^+ 2.
  by rewrite ger0_norm ?exprMn // ltW // !mulr_gt0 ?D0.
rewrite abD; apply: lg_lt; first by apply: mulr_gt0; apply: mulr_gt0 => //; [apply: mulr_gt0|apply: exprn_gt0; exact: D0].
have -> : (1 + 1) ^+ 2 * a ^+ 2 * (P ^+ 2 + e ^+ 2) * ((1 + 1) ^+ 2 * b ^+ 2 * (T ^+ 2 + B ^+ 2))
  = (1 + 1) ^+ 2 * (1 + 1) ^+ 2 * (a ^+ 2 * b ^+ 2) * ((P ^+ 2 + e ^+ 2) * (T ^+ 2 + B ^+ 2)).
  by move: (P) (B) (T) => *; cring.
rewrite [X in X < _]mulrA ltr_pmul2l; first exact: lagrange.
by apply: mulr_gt0; apply: mulr_gt0.
Qed.
End Wit.

Section Ex.
Variable C : numClosedFieldType.
Lemma ip_ex : let X : sig C 1 2 (2 + 0) := [ffun=> mx22 1 1 (1 - 'i) (- 1 - 'i)] in
  [/\ forall f, row_free (X f),
   (forall s n, 1 <= 2%:R * frame_norm (fun f => (mx22 1 0 'i 1 : 'M[C]_(2, 2 + 0)) *m X f) s n) &
   forall i z, (i < 1)%N -> ip_raw (laplace_model 1) X 0 i tt = Ok z ->
     forall s n, 1 <= 2%:R * frame_norm z.1.1.1 s n].
Proof.
move=> X; split.
- exact: wfree.
- move=> s n; have -> : frame_norm (fun f => (mx22 1 0 'i 1 : 'M[C]_(2, 2 + 0)) *m X f) s n = frame_norm (wY C) s n.
    rewrite /frame_norm; congr sqrtC; apply: eq_bigr => f _; by rewrite wYE [wW _ _]ffunE.
  by rewrite wfn mulr1 ler1n.
move=> [|//] z _; rewrite /ip_raw /orthogonal_constraint ltnn; cbn [bind ip_loop] => -[<-] s n /=.
have h : 1 <= frame_norm ([ffun f => usubmx (X f)] : sig C 1 2 2) s n.
  rewrite /frame_norm big_ord1 !ffunE -[X in X <= _]sqrtC1 ler_sqrtC ?qualifE ?ler01 ?exprn_ge0 // mxE.
  move: s n; apply: ord2P; apply: ord2P; rewrite mxE /= ?normr1 ?expr1n //.
  - have := @nsq C 1 (-1); rewrite mulrN1 rmorphN /= rmorph1 => -> //; by rewrite sqrrN expr1n ler_addl ler01.
  - have := @nsq C (-1) (-1); rewrite mulrN1 rmorphN /= rmorph1 => -> //; by rewrite sqrrN expr1n ler_addl ler01.
by apply: (le_trans h); rewrite ler_pemull ?ler1n // (le_trans ler01 h).
Qed.
End Ex.
