From Coq Require Import Ring Field.
From mathcomp Require Import all_ssreflect all_algebra.
From Verif Require Import CAlg Py LinalgModel LinalgProofs TissModel SrcModel SrcSpec RField RLog.
Set Implicit Arguments. Unset Strict Implicit. Unset Printing Implicit Defensive.
Import GRing.Theory Num.Theory Order.TTheory.
Local Open Scope ring_scope.

Section P.
Variable C : numClosedFieldType.
Add Field srcF : (f_ft C).
Ltac cring := fpre; fnorm C; fatoms; ring.
Ltac cfield := fpre; fnorm C; fatoms; field.
Variables (nF nN : nat).
Implicit Types X P : 'M[C]_(nF, nN).

Lemma inv_clamp (x eps : C) : x \is Num.real -> 0 < eps -> 0 < 1 / clamp x eps <= eps^-1.
Proof.
move=> xr e0; have c0 := clamp_gt0 xr e0; rewrite div1r invr_gt0 c0 /= lef_pinv ?posrE //.
exact: clamp_ge (gtr0_real e0).
Qed.
Lemma energy_ge0 X n : 0 <= \sum_f mag_sq (X f n).
Proof. by apply: sumr_ge0 => f _; rewrite mag_sqE exprn_ge0. Qed.
Lemma energyE X n : \sum_f mag_sq (X f n) = frame_energy X n.
Proof. by apply: eq_bigr => f _; rewrite mag_sqE. Qed.

Lemma laplace_usable eps X : 0 < eps -> usable eps (laplace eps X).
Proof.
move=> e0 f n; rewrite mxE; apply: inv_clamp => //.
by rewrite ger0_real // mulr_ge0 ?ler0n // sqrtC_ge0 energy_ge0.
Qed.
Lemma laplaceE eps X f n : eps <= 2%:R * sqrtC (frame_energy X n) ->
  laplace eps X f n = (2%:R * sqrtC (frame_energy X n))^-1.
Proof. by move=> h; rewrite mxE energyE clamp_id // div1r. Qed.
Lemma laplace_clamped eps X f n : 2%:R * sqrtC (frame_energy X n) < eps -> laplace eps X f n = eps^-1.
Proof. by move=> h; rewrite mxE energyE /clamp h div1r. Qed.
Lemma gauss_usable eps X : 0 < eps -> usable eps (gauss eps X).
Proof.
move=> e0 f n; rewrite mxE; apply: inv_clamp => //.
by rewrite ger0_real // divr_ge0 ?ler0n // energy_ge0.
Qed.
Lemma gaussE eps X f n : eps <= frame_energy X n / nF%:R ->
  gauss eps X f n = (frame_energy X n / nF%:R)^-1.
Proof. by move=> h; rewrite mxE energyE clamp_id // div1r. Qed.
Lemma gauss_clamped eps X f n : frame_energy X n / nF%:R < eps -> gauss eps X f n = eps^-1.
Proof. by move=> h; rewrite mxE energyE /clamp h div1r. Qed.

(* ---------------------------------------------------------------- NMF *)
Section NMF.
Variables (K : nat) (eps : C).
Hypothesis e0 : 0 < eps.
Lemma maxE (x : C) : x \is Num.real -> clamp x eps = Num.max x eps.
Proof. by []. Qed.
Definition Rc (T : 'M[C]_(nF, K)) (V : 'M[C]_(nN, K)) f n : C := \sum_k T f k * V n k.
Lemma iRE (T : 'M[C]_(nF, K)) (V : 'M[C]_(nN, K)) f n :
  nmf_iR eps (T, V) f n = (recon eps T V f n)^-1.
Proof. by rewrite mxE. Qed.
Lemma recon_gt0 (T : 'M[C]_(nF, K)) (V : 'M[C]_(nN, K)) f n : positive T -> positive V -> 0 < recon eps T V f n.
Proof.
move=> t v; apply: (@clamp_gt0 C _ _ _ e0).
by apply/ger0_real/sumr_ge0 => k _; apply: mulr_ge0; apply: ltW.
Qed.
Lemma iR_usable (T : 'M[C]_(nF, K)) (V : 'M[C]_(nN, K)) : positive T -> positive V -> usable eps (nmf_iR eps (T, V)).
Proof.
move=> t v f n; rewrite mxE -div1r; apply: inv_clamp => //.
by apply/ger0_real/sumr_ge0 => k _; apply: mulr_ge0; apply: ltW.
Qed.
Lemma sum_gt0 m (F : 'I_m -> C) : (0 < m)%N -> (forall i, 0 < F i) -> 0 < \sum_i F i.
Proof.
case: m F => // m F _ h; rewrite big_ord_recl ltr_paddr //.
by apply: sumr_ge0 => i _; apply: ltW.
Qed.
Lemma nmf_T_ok P (T : 'M[C]_(nF, K)) (V : 'M[C]_(nN, K)) : (0 < nN)%N -> positive T -> positive V ->
  exists T', nmf_T eps P (T, V) = (T', V) /\ mult_T eps P T V T'.
Proof.
move=> n0 t v; eexists; split; first by [].
move=> f k den; split.
  by apply: sum_gt0 => // n; rewrite divr_gt0 // recon_gt0.
rewrite mxE; congr (Num.max (_ * sqrtC (_ / _)) _); apply: eq_bigr => n _; rewrite iRE.
  by rewrite exprVn mulrAC.
by rewrite mulrC.
Qed.
Lemma nmf_V_ok P (T : 'M[C]_(nF, K)) (V : 'M[C]_(nN, K)) : (0 < nF)%N -> positive T -> positive V ->
  exists V', nmf_V eps P (T, V) = (T, V') /\ mult_V eps P T V V'.
Proof.
move=> n0 t v; eexists; split; first by [].
move=> n k den; split.
  by apply: sum_gt0 => // f; rewrite divr_gt0 // recon_gt0.
rewrite mxE; congr (Num.max (_ * sqrtC (_ / _)) _); apply: eq_bigr => f _; rewrite iRE.
  by rewrite exprVn mulrAC.
by rewrite mulrC.
Qed.
Lemma upd_real (x a b : C) : 0 <= x -> 0 <= a -> 0 < b -> x * sqrtC (a / b) \is Num.real.
Proof.
by move=> x0 a0 b0; apply/ger0_real; rewrite mulr_ge0 // sqrtC_ge0; apply: divr_ge0 => //; apply: ltW.
Qed.
Lemma mult_T_ge P (T : 'M[C]_(nF, K)) (V : 'M[C]_(nN, K)) (T' : 'M[C]_(nF, K)) : (forall f n, 0 <= P f n) -> positive T -> positive V ->
  mult_T eps P T V T' -> forall f k, eps <= T' f k.
Proof.
move=> p t v h f k; have [d ->] := h f k; apply: clamp_ge; last exact: gtr0_real.
apply: upd_real => //; first exact: ltW.
apply: sumr_ge0 => n _; apply: divr_ge0; last by rewrite exprn_ge0 // ltW // recon_gt0.
by apply: mulr_ge0 => //; apply: ltW.
Qed.
Lemma mult_V_ge P (T : 'M[C]_(nF, K)) (V : 'M[C]_(nN, K)) (V' : 'M[C]_(nN, K)) : (forall f n, 0 <= P f n) -> positive T -> positive V ->
  mult_V eps P T V V' -> forall n k, eps <= V' n k.
Proof.
move=> p t v h n k; have [d ->] := h n k; apply: clamp_ge; last exact: gtr0_real.
apply: upd_real => //; first exact: ltW.
apply: sumr_ge0 => f _; apply: divr_ge0; last by rewrite exprn_ge0 // ltW // recon_gt0.
by apply: mulr_ge0 => //; apply: ltW.
Qed.
Lemma ge_pos m n (A : 'M[C]_(m, n)) : (forall i j, eps <= A i j) -> positive A.
Proof. by move=> h i j; apply: lt_le_trans (h i j). Qed.
Lemma nmf_update_ok X (T : 'M[C]_(nF, K)) (V : 'M[C]_(nN, K)) : (0 < nF)%N -> (0 < nN)%N -> positive T -> positive V ->
  exists (T' : 'M[C]_(nF, K)) (V' : 'M[C]_(nN, K)), [/\ nmf_update eps X (T, V) = ((T', V'), nmf_iR eps (T', V')),
    mult_T eps (\matrix_(f, n) `|X f n| ^+ 2) T V T',
    mult_V eps (\matrix_(f, n) `|X f n| ^+ 2) T' V V',
    (forall f k, eps <= T' f k) /\ (forall n k, eps <= V' n k) &
    usable eps (nmf_iR eps (T', V'))].
Proof.
move=> f0 n0 t v; rewrite /nmf_update.
have -> : \matrix_(f, n) mag_sq (X f n) = \matrix_(f, n) `|X f n| ^+ 2 :> 'M[C]_(nF, nN).
  by apply/matrixP=> f n; rewrite !mxE mag_sqE.
set P := (\matrix_(f, n) `|X f n| ^+ 2).
have p f n : 0 <= P f n by rewrite mxE exprn_ge0.
have [T' [-> hT]] := nmf_T_ok P n0 t v.
have t' := mult_T_ge p t v hT.
have [V' [-> hV]] := nmf_V_ok P f0 (ge_pos t') v.
have v' := mult_V_ge p (ge_pos t') v hV.
exists T', V'; split=> //.
by apply: iR_usable; apply: ge_pos.
Qed.
Lemma nmf_init_pos (u : 'M[C]_(nF, K)) (v : 'M[C]_(nN, K)) :
  (forall f k, 0 <= u f k) -> (forall n k, 0 <= v n k) ->
  positive (nmf_init u v).1 /\ positive (nmf_init u v).2.
Proof.
move=> hu hv; split=> i j; rewrite mxE ltr_paddl ?divr_gt0 ?ltr01 ?ltr0n // mulr_ge0 ?divr_ge0 ?ler0n //.
Qed.

(* one coordinate of the majoriser *)
Lemma coord (T t A B s : C) : 0 < T -> 0 <= A -> 0 < B -> s = sqrtC (A / B) -> eps <= T -> t = Num.max (T * s) eps ->
  T ^+ 2 * A / t - T * A + t * B - T * B <= 0.
Proof.
move=> T0 A0 B0 sE eT tE.
have s0 : 0 <= s by rewrite sE sqrtC_ge0 divr_ge0 // ltW.
have AE : A = s ^+ 2 * B by rewrite sE sqrtCK divfK // gt_eqF.
have Ts : T * s \is Num.real by apply/ger0_real/mulr_ge0 => //; apply: ltW.
have er : eps \is Num.real by apply: gtr0_real.
have t0 : 0 < t by rewrite tE; apply: (@clamp_gt0 C).
have -> : T ^+ 2 * A / t - T * A + t * B - T * B = (t - T) * (B * t - A * T) / t.
  by move: (lt0r_neq0 t0) => /eqP t1; cfield.
rewrite ler_pdivr_mulr // mul0r.
have -> : B * t - A * T = B * (t - s ^+ 2 * T) by rewrite AE; cring.
rewrite mulrCA pmulr_rle0 //.
have sr := ger0_real s0.
have tr := gtr0_real t0.
have [s1|s1] : s <= 1 \/ 1 < s.
  by case: (real_leP sr (@real1 C)) => h; [left | right].
  have tT : t <= T.
    rewrite tE /Num.max; case: ifP => _ //.
    by rewrite -[leRHS]mulr1 ler_pmul2l.
  rewrite mulr_le0_ge0 ?subr_le0 ?subr_ge0 //.
  apply: (@le_trans _ _ (T * s)); last by rewrite tE; apply: (@clamp_geR C).
  by rewrite mulrC ler_pmul2l // expr2 -[leRHS]mulr1 ler_wpmul2l.
have TTs : T < T * s by rewrite -[ltLHS]mulr1 ltr_pmul2l.
have tE' : t = T * s.
  rewrite tE /Num.max ifF //; apply/negbTE; rewrite -real_leNgt //.
  exact: le_trans eT (ltW TTs).
rewrite tE' mulr_ge0_le0 ?subr_ge0 ?subr_le0 ?(ltW TTs) //.
by rewrite [leRHS]mulrC ler_pmul2l // expr2 -[leLHS]mulr1 ler_wpmul2l // ltW.
Qed.

Lemma cauchy_div m (a b : 'I_m -> C) : (0 < m)%N -> (forall k, 0 < a k) -> (forall k, 0 < b k) ->
  (\sum_k a k)^-1 <= (\sum_k b k ^+ 2 / a k) / (\sum_k b k) ^+ 2.
Proof.
move=> m0 ha hb; set S := \sum_k a k; set B := \sum_k b k.
have S0 : 0 < S by apply: sum_gt0.
have B0 : 0 < B by apply: sum_gt0.
rewrite ler_pdivl_mulr ?exprn_gt0 // mulrC -subr_ge0.
have -> : \sum_k b k ^+ 2 / a k - B ^+ 2 / S = \sum_k a k * (b k / a k - B / S) ^+ 2.
  have E k : a k * (b k / a k - B / S) ^+ 2 = b k ^+ 2 / a k - 2%:R * B / S * b k + (B / S) ^+ 2 * a k.
    by move: (lt0r_neq0 (ha k)) (lt0r_neq0 S0) => /eqP h1 /eqP h2; cfield.
  rewrite (eq_bigr _ (fun k _ => E k)) big_split /= sumrB -!mulr_sumr -/S -/B.
  by move: (lt0r_neq0 S0) => /eqP h2; cfield.
apply: sumr_ge0 => k _; apply: mulr_ge0; first exact: ltW.
apply: real_exprn_even_ge0 => //; apply: rpredB; apply/ger0_real/divr_ge0; exact: ltW.
Qed.
(* one frequency (or, transposed, one frame) *)
Lemma row_descent (m : nat) (lg : C -> C) (p : 'I_m -> C) (t t' : 'I_K -> C) (V : 'I_m -> 'I_K -> C) :
  log_like lg -> (0 < m)%N -> (0 < K)%N -> (forall n, 0 <= p n) -> (forall k, 0 < t k) -> (forall k, eps <= t k) -> (forall n k, 0 < V n k) ->
  let R n := \sum_k t k * V n k in
  (forall k, t' k = Num.max (t k * sqrtC ((\sum_n p n * V n k / R n ^+ 2) / (\sum_n V n k / R n))) eps) ->
  \sum_n (p n / (\sum_k t' k * V n k) + lg (\sum_k t' k * V n k)) <= \sum_n (p n / R n + lg (R n)).
Proof.
move=> hl m0 K0 p0 t0 et V0 R hu.
pose A k := \sum_n p n * V n k / R n ^+ 2; pose B k := \sum_n V n k / R n.
have R0 n : 0 < R n by apply: sum_gt0 => // k; apply: mulr_gt0.
have A0 k : 0 <= A k.
  apply: sumr_ge0 => n _; apply: divr_ge0; last by rewrite exprn_ge0 // ltW.
  by apply: mulr_ge0 => //; apply: ltW.
have B0 k : 0 < B k by apply: sum_gt0 => // n; apply: divr_gt0.
have t'0 k : 0 < t' k.
  by rewrite hu; apply: (@clamp_gt0 C _ _ _ e0); apply: upd_real; [apply: ltW | apply: A0 | apply: B0].
set R' := fun n => \sum_k t' k * V n k.
have R'0 n : 0 < R' n by apply: sum_gt0 => // k; apply: mulr_gt0.
rewrite -subr_le0 -sumrB.
apply: (@le_trans _ _ (\sum_k (t k ^+ 2 * A k / t' k - t k * A k + t' k * B k - t k * B k))); last first.
  rewrite -oppr_ge0 -sumrN; apply: sumr_ge0 => k _; rewrite oppr_ge0; apply: (coord (t0 k) (A0 k) (B0 k) erefl (et k) (hu k)).
have -> : \sum_k (t k ^+ 2 * A k / t' k - t k * A k + t' k * B k - t k * B k) =
  \sum_n (p n * ((\sum_k (t k * V n k) ^+ 2 / (t' k * V n k)) / R n ^+ 2) - p n / R n + (R' n / R n - 1)).
  have E n : p n * ((\sum_k (t k * V n k) ^+ 2 / (t' k * V n k)) / R n ^+ 2) - p n / R n + (R' n / R n - 1) =
    \sum_k (p n * V n k / R n ^+ 2 * (t k ^+ 2 / t' k - t k) + V n k / R n * (t' k - t k)).
    have h2 : R n <> 0 by apply/eqP/lt0r_neq0.
    rewrite big_split /=.
    have -> : \sum_k p n * V n k / R n ^+ 2 * (t k ^+ 2 / t' k - t k) =
      p n / R n ^+ 2 * (\sum_k (t k * V n k) ^+ 2 / (t' k * V n k)) - p n / R n ^+ 2 * R n.
      rewrite !mulr_sumr -sumrB; apply: eq_bigr => k _.
      by move: (lt0r_neq0 (t'0 k)) (lt0r_neq0 (V0 n k)) => /eqP h3 /eqP h4; cfield.
    have -> : \sum_k V n k / R n * (t' k - t k) = R' n / R n - R n / R n.
      rewrite !mulr_suml -sumrB; apply: eq_bigr => k _; cfield => //.
    set S := \sum_k (t k * V n k) ^+ 2 / _.
    by move: (R' n) (R n) S h2 => r' r S h2; cfield.
  rewrite (eq_bigr _ (fun n _ => E n)) exchange_big /=; apply: eq_bigr => k _.
  rewrite big_split /= -!mulr_suml -/(A k) -/(B k).
  by move: (lt0r_neq0 (t'0 k)) => /eqP h3; cfield.
apply: ler_sum => n _.
have -> : p n / R' n + lg (R' n) - (p n / R n + lg (R n)) = (p n / R' n - p n / R n) + (lg (R' n) - lg (R n)) by cring.
apply: ler_add; last exact: hl.
rewrite ler_add2r; apply: ler_wpmul2l => //.
by apply: cauchy_div => // k; apply: mulr_gt0.
Qed.
Lemma T_descent lg P (T : 'M[C]_(nF, K)) (V : 'M[C]_(nN, K)) (T' : 'M[C]_(nF, K)) :
  log_like lg -> (0 < nN)%N -> (forall f n, 0 <= P f n) -> (forall f k, eps <= T f k) -> (forall n k, eps <= V n k) ->
  (forall f n, eps <= lowrank T V f n) -> mult_T eps P T V T' ->
  divergence lg (fun f n => P f n) (lowrank T' V) <= divergence lg (fun f n => P f n) (lowrank T V).
Proof.
move=> hl n0 p0 t v r h; apply: ler_sum => f _.
have tp := ge_pos t; have vp := ge_pos v.
have K0 : (0 < K)%N.
  case: (posnP K) => // k0; have := lt_le_trans e0 (r f (Ordinal n0)).
  rewrite /lowrank big1 ?ltxx // => k _; exfalso; by case: k => i; rewrite k0.
have E n : recon eps T V f n = lowrank T V f n by apply: (clamp_id (r f n)).
apply: (@row_descent _ lg (fun n => P f n) (fun k => T f k) (fun k => T' f k) (fun n k => V n k)) => // k.
have [_ ->] := h f k; congr (Num.max (_ * sqrtC (_ / _)) _); apply: eq_bigr => n _; by rewrite E.
Qed.
Lemma V_descent lg P (T : 'M[C]_(nF, K)) (V : 'M[C]_(nN, K)) (V' : 'M[C]_(nN, K)) :
  log_like lg -> (0 < nF)%N -> (forall f n, 0 <= P f n) -> (forall f k, eps <= T f k) -> (forall n k, eps <= V n k) ->
  (forall f n, eps <= lowrank T V f n) -> mult_V eps P T V V' ->
  divergence lg (fun f n => P f n) (lowrank T V') <= divergence lg (fun f n => P f n) (lowrank T V).
Proof.
move=> hl n0 p0 t v r h; rewrite /divergence exchange_big [leRHS]exchange_big /=; apply: ler_sum => n _.
have tp := ge_pos t; have vp := ge_pos v.
have K0 : (0 < K)%N.
  case: (posnP K) => // k0; have := lt_le_trans e0 (r (Ordinal n0) n).
  rewrite /lowrank big1 ?ltxx // => k _; exfalso; by case: k => i; rewrite k0.
have L (W : 'M[C]_(nN, K)) f : lowrank T W f n = \sum_k W n k * T f k by apply: eq_bigr => k _; rewrite mulrC.
have E f : recon eps T V f n = lowrank T V f n by apply: (clamp_id (r f n)).
under eq_bigr do rewrite L; under [leRHS]eq_bigr do rewrite L.
apply: (@row_descent _ lg (fun f => P f n) (fun k => V n k) (fun k => V' n k) (fun f k => T f k)) => // k.
have [_ ->] := h n k; congr (Num.max (_ * sqrtC (_ / _)) _); apply: eq_bigr => f _; by rewrite E L.
Qed.

Lemma iRM (T : 'M[C]_(nF, K)) (V : 'M[C]_(nN, K)) :
  nmf_iR eps (T, V) = \matrix_(f, n) (recon eps T V f n)^-1.
Proof. by apply/matrixP => f n; rewrite [RHS]mxE iRE. Qed.
Section Hist.
Variables (nB : nat) (Rng : Type).
Variable draw : Rng -> ('I_nB -> 'M[C]_(nF, K)) * ('I_nB -> 'M[C]_(nN, K)) * Rng.
Hypothesis hd : forall r b, (forall f k, 0 <= (draw r).1.1 b f k <= 1) /\ (forall n k, 0 <= (draw r).1.2 b n k <= 1).
Hypotheses (f0 : (0 < nF)%N) (n0 : (0 < nN)%N).
Definition st_ok (s : nmf_state C nF nN K nB Rng) : Prop :=
  match s.1 with
  | None => True
  | Some tv => forall b, (forall f k, eps <= (tv b).1 f k) /\ (forall n k, eps <= (tv b).2 n k)
  end.
Lemma forward_ok s (X : 'I_nB -> 'M[C]_(nF, nN)) : st_ok s ->
  let: (y, s') := nmf_forward eps draw s X in
  [/\ st_ok s', s'.1 <> None & forall b, usable eps (y b)].
Proof.
case: s => [tv r] hs; rewrite /nmf_forward.
suff H tv0 r0 : (forall b, positive (tv0 b).1 /\ positive (tv0 b).2) ->
  st_ok (Some (fun b => (nmf_update eps (X b) (tv0 b)).1), r0) /\ forall b, usable eps (nmf_update eps (X b) (tv0 b)).2.
  case: tv hs => [tv|_].
    move=> hs; have [|h1 h2] := H tv r; last by split.
    by move=> b; have [h1 h2] := hs b; split; apply: ge_pos.
  have := hd r; case: (draw r) => [[u v] r'] /= hr.
  have [|h1 h2] := H (fun b => nmf_init (u b) (v b)) r'; last by split.
  move=> b; have [hu hv] := hr b.
  by apply: nmf_init_pos => i j; [have /andP [] := hu i j | have /andP [] := hv i j].
move=> hp.
have H b : ((forall f k, eps <= (nmf_update eps (X b) (tv0 b)).1.1 f k) /\
            (forall n k, eps <= (nmf_update eps (X b) (tv0 b)).1.2 n k)) /\ usable eps (nmf_update eps (X b) (tv0 b)).2.
  have [hT hV] := hp b; move: hT hV; case E : (tv0 b) => [T V] hT hV.
  by have [T' [V' [-> _ _ h h3]]] := nmf_update_ok (X b) f0 n0 hT hV.
by split=> b; have [] := H b.
Qed.
Lemma run_ok h s : st_ok s ->
  st_ok (nmf_run eps draw h s).2 /\
  forall i b, (i < size (nmf_run eps draw h s).1)%N -> usable eps (nth (fun=> 0) (nmf_run eps draw h s).1 i b).
Proof.
elim: h s => [|[|X] h ih] s hs //=; first exact: ih.
have := forward_ok X hs; case: (nmf_forward _ _ _ _) => y s1 [h1 _ h2].
have := ih s1 h1; case: (nmf_run _ _ _ _) => ys s2 /= [h3 h4]; split=> //.
by case=> [|i] b //=; rewrite ltnS; apply: h4.
Qed.
End Hist.
Lemma nmf_descent lg X (T : 'M[C]_(nF, K)) (V : 'M[C]_(nN, K)) : log_like lg -> (0 < nF)%N -> (0 < nN)%N ->
  (forall f k, eps <= T f k) -> (forall n k, eps <= V n k) ->
  let P : 'M[C]_(nF, nN) := \matrix_(f, n) mag_sq (X f n) in
  let D := fun tv : factors C nF nN K => divergence lg (fun f n => `|X f n| ^+ 2) (lowrank tv.1 tv.2) in
  (forall f n, eps <= lowrank T V f n) ->
  D (nmf_T eps P (T, V)) <= D (T, V) /\
  ((forall f n, eps <= lowrank (nmf_T eps P (T, V)).1 V f n) ->
   D (nmf_update eps X (T, V)).1 <= D (nmf_T eps P (T, V))).
Proof.
move=> hl f0 n0 hT hV P D hr.
have p f n : 0 <= P f n by rewrite mxE mag_sqE exprn_ge0.
have DE (tv : factors C nF nN K) : D tv = divergence lg (fun f n => P f n) (lowrank tv.1 tv.2).
  by apply: eq_bigr => f _; apply: eq_bigr => n _; rewrite mxE mag_sqE.
rewrite !DE /nmf_update -/P.
have [T' [TE hT']] := nmf_T_ok P n0 (ge_pos hT) (ge_pos hV).
have t' := mult_T_ge p (ge_pos hT) (ge_pos hV) hT'.
rewrite !TE; split; first exact: T_descent hr hT'.
move=> hr'; have [V' [VE hV']] := nmf_V_ok P f0 (ge_pos t') (ge_pos hV).
by rewrite VE; apply: V_descent hr' hV'.
Qed.
End NMF.

Lemma nmf_update_ok' K (eps : C) X (T : 'M[C]_(nF, K)) (V : 'M[C]_(nN, K)) :
  0 < eps -> (0 < nF)%N -> (0 < nN)%N -> positive T -> positive V ->
  exists (T' : 'M[C]_(nF, K)) (V' : 'M[C]_(nN, K)),
  [/\ nmf_update eps X (T, V) = ((T', V'), \matrix_(f, n) (recon eps T' V' f n)^-1),
    mult_T eps (\matrix_(f, n) `|X f n| ^+ 2) T V T',
    mult_V eps (\matrix_(f, n) `|X f n| ^+ 2) T' V V',
    (forall f k, eps <= T' f k) /\ (forall n k, eps <= V' n k) &
    usable eps (nmf_update eps X (T, V)).2].
Proof.
move=> e0 f0 n0 t v; have [T' [V' [E h1 h2 h3 h4]]] := nmf_update_ok e0 X f0 n0 t v.
by exists T', V'; rewrite E -iRM; split.
Qed.
Lemma nmf_history K (eps : C) nB Rng
    (draw : Rng -> ('I_nB -> 'M[C]_(nF, K)) * ('I_nB -> 'M[C]_(nN, K)) * Rng) h r :
  0 < eps -> (0 < nF)%N -> (0 < nN)%N ->
  (forall r b, (forall f k, 0 <= (draw r).1.1 b f k <= 1) /\ (forall n k, 0 <= (draw r).1.2 b n k <= 1)) ->
  let: (outs, s) := nmf_run eps draw h (None, r) in
  (forall i b, (i < size outs)%N -> usable eps (nth (fun=> 0) outs i b)) /\
  forall tv, s.1 = Some tv -> forall b, (forall f k, eps <= (tv b).1 f k) /\ (forall n k, eps <= (tv b).2 n k).
Proof.
move=> e0 f0 n0 hd; have := @run_ok K eps e0 nB Rng draw hd f0 n0 h (None, r) I.
case: (nmf_run _ _ _ _) => outs s [h1 h2]; split=> // tv E.
by move: h1; rewrite /st_ok E.
Qed.
End P.
Lemma nmf_descent_ln nF nN K (eps : CR) (X : 'M[CR]_(nF, nN)) (T : 'M[CR]_(nF, K)) (V : 'M[CR]_(nN, K)) :
  0 < eps -> (0 < nF)%N -> (0 < nN)%N ->
  (forall f k, eps <= T f k) -> (forall n k, eps <= V n k) ->
  let P : 'M[CR]_(nF, nN) := \matrix_(f, n) mag_sq (X f n) in
  let D := fun tv : factors CR nF nN K => divergence lnC (fun f n => `|X f n| ^+ 2) (lowrank tv.1 tv.2) in
  (forall f n, eps <= lowrank T V f n) ->
  (forall f n, eps <= lowrank (nmf_T eps P (T, V)).1 V f n) ->
  D (nmf_update eps X (T, V)).1 <= D (T, V).
Proof.
move=> e0 f0 n0 hT hV P D h1 h2.
have [h3 h4] := nmf_descent e0 X lnC_log_like f0 n0 hT hV h1.
exact: le_trans (h4 h2) h3.
Qed.
Section Ex.
Variable C : numClosedFieldType.
Lemma c39_ex :
  laplace (1 / 2%:R : C) (const_mx 3%:R : 'M[C]_(1, 1)) 0 0 = 6%:R^-1 /\
  laplace (1 / 2%:R : C) (0 : 'M[C]_(1, 1)) 0 0 = 2%:R.
Proof.
have h2 : 0 < (2%:R : C) by rewrite ltr0n.
split.
  have E : 2%:R * sqrtC (frame_energy (const_mx 3%:R : 'M[C]_(1, 1)) 0) = 6%:R.
    by rewrite /frame_energy big_ord1 mxE sqrCK // normr_nat -natrM.
  rewrite laplaceE E // ler_pdivr_mulr // -natrM ler1n //.
have E : 2%:R * sqrtC (frame_energy (0 : 'M[C]_(1, 1)) 0) = 0.
  by rewrite /frame_energy big_ord1 mxE normr0 expr0n sqrtC0 mulr0.
by rewrite laplace_clamped ?E ?divr_gt0 ?ltr01 // div1r invrK.
Qed.
Lemma c41_ex :
  (forall f n, (1 / 2%:R : C) <= lowrank (1 : 'M[C]_1) (1 : 'M[C]_1) f n) /\
  (nmf_T (1 / 2%:R : C) (const_mx 4%:R : 'M[C]_1) (1 : 'M[C]_1, 1 : 'M[C]_1)).1 0 0 = 2%:R.
Proof.
have h2 : 0 < (2%:R : C) by rewrite ltr0n.
have le1 : (1 / 2%:R : C) <= 1 by rewrite ler_pdivr_mulr // mul1r ler1n.
split=> [f n|]; first by rewrite /lowrank big_ord1 !ord1 !mxE eqxx mulr1.
have iR1 : nmf_iR (1 / 2%:R : C) (1 : 'M[C]_1, 1 : 'M[C]_1) 0 0 = 1.
  by rewrite mxE big_ord1 !mxE eqxx mulr1 (clamp_id le1) invr1.
rewrite /nmf_T mxE !big_ord1 iR1 !mxE eqxx expr1n !mulr1 invr1 mulr1 mul1r.
have -> : (4%:R : C) = 2%:R ^+ 2 by rewrite -natrX.
rewrite sqrCK ?ler0n // mul1r; apply: clamp_id; rewrite -div1r.
by apply: le_trans le1 _; rewrite ler1n.
Qed.
End Ex.

Section Tight.
Variable C : numClosedFieldType.
Variables (nF nN K : nat).
Lemma silence_weights (eps : option C) (X : 'M[C]_(nF, nN)) f n :
  (forall e, eps = Some e -> 0 < e) -> (forall g, X g n = 0) ->
  let w := if eps is Some e then e^-1 else 10%:R ^+ 5 in
  laplace (model_eps eps) X f n = w /\ gauss (model_eps eps) X f n = w.
Proof.
move=> he hX.
have e0 : 0 < model_eps eps.
  by case: eps he => [e|] he /=; [exact: he|rewrite invr_gt0 exprn_gt0 // ltr0n].
have s0 : \sum_g mag_sq (X g n) = 0 by rewrite big1 // => g _; rewrite mag_sqE hX normr0 expr0n.
have c0 : clamp 0 (model_eps eps) = model_eps eps by rewrite /clamp; exact: (max_idPr (ltW e0)).
have -> : (if eps is Some e then e^-1 else 10%:R ^+ 5) = (model_eps eps)^-1.
  by case: eps {he e0 c0} => //=; rewrite /eps_models invrK.
by split; rewrite mxE s0 ?sqrtC0 ?mulr0 ?mul0r c0 div1r.
Qed.
Variables (eps : C) (nB : nat) (Rng : Type).
Variable draw : Rng -> ('I_nB -> 'M[C]_(nF, K)) * ('I_nB -> 'M[C]_(nN, K)) * Rng.
Lemma nmf_reset_forgets h h1 h2 s1 s2 :
  let a := (nmf_run eps draw h1 s1).2 in let b := (nmf_run eps draw h2 s2).2 in a.2 = b.2 ->
  nmf_run eps draw (NReset _ _ _ _ :: h) a = nmf_run eps draw (NReset _ _ _ _ :: h) b.
Proof. by move=> a b /= e; rewrite /nmf_reset e. Qed.
Lemma nmf_continues X1 X2 s :
  let r1 := nmf_run eps draw [:: NCall X1] s in let r2 := nmf_run eps draw [:: NCall X1; NCall X2] s in
  exists tv1 tv2, [/\ r1.2.1 = Some tv1, r2.2.1 = Some tv2, r2.2.2 = r1.2.2,
    forall b, nth (fun=> 0) r2.1 0 b = nth (fun=> 0) r1.1 0 b &
    forall b, (tv2 b, nth (fun=> 0) r2.1 1 b) = nmf_update eps (X2 b) (tv1 b)].
Proof.
case: s => [[tv|] r]; last rewrite /nmf_run /nmf_forward; last case: (draw r) => [[u v] r'].
- exists (fun b => (nmf_update eps (X1 b) (tv b)).1).
  exists (fun b => (nmf_update eps (X2 b) (nmf_update eps (X1 b) (tv b)).1).1).
  by split=> // b; rewrite [RHS]surjective_pairing.
- exists (fun b => (nmf_update eps (X1 b) (nmf_init (u b) (v b))).1).
  exists (fun b => (nmf_update eps (X2 b) (nmf_update eps (X1 b) (nmf_init (u b) (v b))).1).1).
  by split=> // b; rewrite [RHS]surjective_pairing.
Qed.
End Tight.
