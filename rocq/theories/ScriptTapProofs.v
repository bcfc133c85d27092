(* Proofs of C81: the taps given to T_ISS change its output. *)
From mathcomp Require Import all_ssreflect all_algebra.
From Verif Require Import CAlg Py Batch LinalgModel LinalgProofs TissModel TissProofs2.
Set Implicit Arguments. Unset Strict Implicit. Unset Printing Implicit Defensive.
Import GRing.Theory Num.Theory Order.TTheory.
Local Open Scope ring_scope.

(* one channel, one frequency, the three frames 1, 0, 1; constant weights *)
Definition echo (C : numClosedFieldType) : sig C 1 3 (1 + 0) := [ffun _ => \matrix_(c, n) (val n != 1%N)%:R].
Definition flat (C : numClosedFieldType) (m : unit) (Y : sig C 1 3 1) : sig C 1 3 1 * unit := ([ffun _ => const_mx 1], m).

Section T.
Variables (C : numClosedFieldType) (eps : C).
Hypothesis e0 : 0 < eps.
Local Notation X := (echo C).
Variables (nT dl : nat).
Local Notation Y0 := (demix_derev X (Xb nT dl X) (eyeW C 1 0 1) (zeroH C 1 0 1 nT)).
Lemma Y0E f s n : Y0 f s n = (val n != 1%N)%:R.
Proof.
rewrite ffunE mxE [X in _ - X]big1 ?subr0; last first.
  by move=> d _; rewrite big1 // => t _; rewrite /zeroH ffunE ffunE [(0 : matrix _ _ _) _ _]mxE mul0r.
rewrite (bigD1 (lshift 0 s)) //= big1 ?addr0.
  by rewrite !ffunE row_mxEl !mxE eqxx mul1r.
move=> d; rewrite -(splitK d); case: (split d) => [j|[]//] /=.
by rewrite !ord1 eqxx.
Qed.
Local Notation g := (gain eps Y0 0).
Lemma g_ge : eps <= g.
Proof.
rewrite /gain clamp_ge ?(gtr0_real e0) // realM ?realV ?realn //.
by apply: rpred_sum => f _; apply: rpred_sum => n _; rewrite mag_sqE realX // normr_real.
Qed.
Lemma enum1 : enum 'I_1 = [:: ord0].
Proof. by rewrite enum_ordSl; congr cons; apply: size0nil; rewrite size_map size_enum_ord. Qed.
Lemma enum0 : enum 'I_0 = [::]. Proof. by apply: size0nil; rewrite size_enum_ord. Qed.
(* the loop over the sources scales Y and W by one number *)
Lemma first_loop (w Y : 'M[C]_(1, 3)) (W : 'M[C]_(1, 1 + 0)) (H : taps C nT 1 (1 + 0)) : (forall s n, w s n \is Num.real) ->
  exists k H', k != 0 /\ foldl (step1 w eps) (Y, W, H) (enum 'I_1) = (k *: Y, k *: W, H').
Proof.
move=> rw; rewrite enum1 /=.
set v := iss1 _ _ _ _.
pose s := sqrtC (clamp ((\sum_n w 0 n * mag_sq (Y 0 n)) * (1 / 3%:R)) eps).
have s0 : 0 < s.
  rewrite sqrt_clamp_gt0 // realM ?realM ?real1 ?realV ?realn //.
  by apply: rpred_sum => n _; rewrite realM // mag_sqE realX // normr_real.
exists s^-1; eexists; split; first by rewrite invr_eq0 gt_eqF.
have vE : v = (1 - s^-1)%:M.
  by apply/matrixP=> i j; rewrite !ord1 !mxE eqxx /= mulr1n div1r.
have h m (M : 'M[C]_(1, m)) : M - v *m row ord0 M = s^-1 *: M.
  by rewrite vE mul_scalar_mx; apply/matrixP=> i j; rewrite !mxE !ord1 mulrBl mul1r opprB addrCA subrr addr0.
by rewrite !h.
Qed.
Lemma step3_W w Xd st l : (foldl (step3 (nS := 1) (nB := 0) (nT := nT) (nN := 3) w eps Xd) st l).1.2 = st.1.2 :> 'M[C]_(1, 1 + 0).
Proof. by elim: l st => //= ct l IH [[Y W] H]; rewrite IH; case: ct. Qed.
(* one iteration *)
Lemma raw_one : exists k H x, [/\ k != 0, forward_raw nT dl (@flat C) X eps 1 false tt = Ok x,
  stW x 0 = k *: eyeW C 1 0 1 0 &
  stY x 0 = (foldl (step3 (const_mx g) eps (Xb nT dl X 0)) (k *: Y0 0, k *: eyeW C 1 0 1 0, H)
               (allpairs pair (enum 'I_(1 + 0)) (enum 'I_nT))).1.1].
Proof.
rewrite /forward_raw /init /= /one_iter /=.
set Y1 : sig C 1 3 1 := [ffun f => \matrix_(s, n) divide (_ s n) _ _].
set W1 : filt C 1 1 (1 + 0) := [ffun f => \matrix_(s, c) divide (_ s c) _ _].
set H1 : tfilt C 1 nT 1 (1 + 0) := [ffun f => [ffun t => _]].
set w1 : sig C 1 3 1 := [ffun f => \matrix_(s, n) (_ * _)].
have c0 : 0 < clamp (sqrtC g) eps by apply: gain_den_gt0.
have Y1E : Y1 0 = (clamp (sqrtC g) eps)^-1 *: Y0 0.
  by apply/matrixP=> i n; rewrite /Y1 ffunE !mxE /divide !ord1 mulrC.
have W1E : W1 0 = (clamp (sqrtC g) eps)^-1 *: eyeW C 1 0 1 0.
  by apply/matrixP=> i n; rewrite /W1 ffunE !mxE /divide !ord1 mulrC.
have w1E : w1 0 = const_mx g.
  by apply/matrixP=> i n; rewrite /w1 ffunE !mxE /flat /= ffunE mxE mul1r !ord1.
have rw s n : w1 0 s n \is Num.real by rewrite w1E mxE gtr0_real // (lt_le_trans e0 g_ge).
have [k [H' [k0 E]]] := first_loop (Y1 0) (W1 0) (H1 0) rw.
exists (k * (clamp (sqrtC g) eps)^-1), H'; eexists; split.
- by rewrite mulf_neq0 // invr_eq0 gt_eqF.
- reflexivity.
- by rewrite /= ffunE ffunE /iss_updates enum0 /= step3_W E /= W1E scalerA.
- by rewrite /= ffunE ffunE /iss_updates enum0 /= E /= Y1E W1E w1E !scalerA.
Qed.
End T.
Section U.
Variables (C : numClosedFieldType) (eps : C).
Hypothesis e0 : 0 < eps.
Local Notation X := (echo C).
Local Notation last := (@Ordinal 3 2 isT).
Local Notation Y0 := (demix_derev X (Xb 1 1 X) (eyeW C 1 0 1) (zeroH C 1 0 1 1)).
Local Notation z := (row ord0 (Xb 1 1 X 0 ord0)).
(* the delayed signal *)
Lemma zE i n : z i n = (n == last)%:R.
Proof.
rewrite mxE /Xb /delayed ffunE ffunE mxE /xpad /rowget /=.
case: n => [[|[|[|n]]] hn] //=; case: insubP => [j _ /= hj|//].
by rewrite ffunE mxE /= (_ : (val j : nat) = 0%N) // [LHS]hj.
Qed.
Lemma vE k : iss23 (k *: Y0 0) (const_mx (gain eps Y0 0)) z eps 0 0 = k.
Proof.
have g0 : 0 < gain eps Y0 0 := lt_le_trans e0 (g_ge e0 1 1).
have -> : iss23 (k *: Y0 0) (const_mx (gain eps Y0 0)) z eps 0 0 = divide (gain eps Y0 0 * k) (gain eps Y0 0) eps.
  rewrite mxE; congr divide.
    rewrite (bigD1 last) //= big1 ?addr0 => [|n /negbTE h]; rewrite zE ?h ?eqxx ?conjC0 ?mulr0 //.
    by rewrite conjC1 mulr1 !mxE Y0E mulr1.
  rewrite (bigD1 last) //= big1 ?addr0 => [|n /negbTE h]; rewrite zE ?h ?eqxx mag_sqE ?normr0 ?expr0n /= ?mulr0 //.
  by rewrite normr1 expr1n mulr1 mxE.
by rewrite divideE ?g_ge // mulrAC mulfV ?mul1r // gt_eqF.
Qed.
(* without taps the last frame is kept *)
Lemma no_tap_out dl mic : exists Y W J m, forward 0 dl (@flat C) X eps 1 false mic tt = Ok (Y, W, J, m) /\ Y 0 0 last != 0.
Proof.
have [k [H [x [k0 hx Wx Yx]]]] := raw_one e0 0 dl.
have nz : stY x 0 0 last != 0.
  rewrite Yx (_ : allpairs _ _ _ = [::]) /=; last by apply: size0nil; rewrite size_allpairs !size_enum_ord muln0.
  by rewrite mxE Y0E mulr1.
rewrite /forward hx /=; case: mic => [ref|]; last by do 4 eexists; split; [reflexivity|].
have := @gather_total _ _ 0 (fun f => pb_f (stW x f) (stJ x f) ref) (fun f => pb_f_ok _ _ _).
case E: (gather _ _) => [a|//] _ /=.
do 4 eexists; split; first reflexivity.
rewrite ffunE mxE mulf_neq0 //.
have := gather_inv E 0; rewrite /pb_f /= slg_ok ?c5_gt0 //; case=> <-.
set A2 := \matrix_(i, j) (_ i j * _); set q := (X in invmx _ *m X).
have Pu : ctr A2 *m A2 + (c5 C)%:M \in unitmx by apply: pd_unit; apply: pd_load; [apply: psd_gram|apply: c5_gt0].
apply/eqP=> h.
have q0 : q = 0.
  have := mulKVmx Pu q; rewrite (_ : invmx _ *m q = 0) ?mulmx0 => [<-//|].
  by apply/matrixP=> i j; rewrite !ord1 h mxE.
have r0 : row_weight (lsubmx (stW x 0))^T (c5 C) 0 != 0 by rewrite gt_eqF // row_weight_gt0 // c5_gt0.
have : q 0 0 != 0.
  rewrite mxE big_ord1 ctrE [X in X^* * _]mxE [X in _ * X]mxE mulf_neq0 //.
    rewrite conjC_eq0 mulf_neq0 // mxE mxE Wx mxE /eyeW ffunE row_mxEl mxE mulr1 //.
  by rewrite mulf_neq0 //; case: (split ref) => [r|[]//]; rewrite mxE !ord1 !eqxx oner_eq0.
by rewrite q0 mxE eqxx.
Qed.
(* with one tap the last frame is predicted from the first one and vanishes *)
Lemma tap_out mic : exists Y W J m, forward 1 1 (@flat C) X eps 1 false mic tt = Ok (Y, W, J, m) /\ Y 0 0 last = 0.
Proof.
have [k [H [x [k0 hx Wx Yx]]]] := raw_one e0 1 1.
have z0 : stY x 0 0 last = 0.
  rewrite Yx (_ : allpairs _ _ _ = [:: (ord0, ord0)]) /=; last first.
    by rewrite (_ : enum 'I_(1 + 0) = [:: ord0]) ?enum1.
  rewrite mxE [X in X + _]mxE Y0E mulr1 mxE mxE big_ord1 vE zE eqxx mulr1 subrr //.
rewrite /forward hx /=; case: mic => [ref|]; last by do 4 eexists; split; [reflexivity|].
have := @gather_total _ _ 0 (fun f => pb_f (stW x f) (stJ x f) ref) (fun f => pb_f_ok _ _ _).
case E: (gather _ _) => [a|//] _ /=.
do 4 eexists; split; first reflexivity.
by rewrite ffunE mxE z0 mulr0.
Qed.
End U.
