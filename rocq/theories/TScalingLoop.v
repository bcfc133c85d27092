(* The iterative minimum_distortion on batches. *)
From Coq Require Import String Ascii ZArith.
From mathcomp Require Import all_ssreflect all_algebra.
From mathcomp Require Import zify.
From Verif Require TorchShape.
From Verif Require Import CAlg Py Batch LinalgModel ScalingModel TensorModel TSpec TensorProofs TOpsModel TScalingModel TScalingSpec TScalingProofs.
Set Implicit Arguments. Unset Strict Implicit. Unset Printing Implicit Defensive.
Import GRing.Theory Num.Theory Order.TTheory.
Local Open Scope ring_scope.
Arguments TorchShape.bc2 : simpl never.
Arguments Nat.eqb : simpl never.

Section T.
Variable C : numClosedFieldType.
Variable pw : C -> C -> C.
Implicit Types (t u v : tensor C).
Lemma tsum_keep2 t a b n r : sh t = [:: a, b, n & r] -> exists u, [/\ tsum_keep 2 t = Ok u, sh u = [:: a, b, 1 & r]%N &
  forall x y z i, at_ u [:: x, y, z & i] = \sum_(k < n) at_ t [:: x, y, nat_of_ord k & i]].
Proof. by move=> st; rewrite (@tsum_keepE _ _ _ n) ?st //; eexists; split; [reflexivity|by []|]. Qed.
Lemma fro_ge0 t : 0 <= t_fro t.
Proof. by rewrite sqrtC_ge0 sumr_ge0 // => i _; rewrite exprn_ge0. Qed.

Lemma big_idxs n s (g : seq nat -> C) : \sum_(i <- idxs (n :: s)) g i = \sum_(j <- idxs s) \sum_(x < n) g (nat_of_ord x :: j).
Proof.
have L (h : nat -> C) : \sum_(x <- iota 0 n) h x = \sum_(x < n) h x by rewrite -(big_mkord xpredT) /index_iota subn0.
rewrite -[idxs (n :: s)]/(flatten [seq [seq x :: i | x <- iota 0 n] | i <- idxs s]) big_flatten big_map.
by apply: eq_bigr => j _; rewrite big_map L.
Qed.

Section Run.
Variables (K F N : nat) (B R : seq nat) (Y Yt ref : tensor C).
Hypothesis sYt : sh Yt = [:: N, K, F & B].
Hypothesis hYt : forall x y w i, at_ Yt [:: x, y, w & i] = at_ Y [:: x, w, y & i].
Hypothesis sr : sh ref = [:: N, F & R].
Hypothesis hR : fits R B.
Let bR := fits_bcast hR.
Local Notation Yb b := (spec_at K F N Y b).
Local Notation rb b := (ref_at F N ref (bc_elem R b)).
Definition coef_at (c : tensor C) (b : seq nat) : coef C unit_finType K F :=
  [ffun x => at_ c [:: nat_of_ord x.2, nat_of_ord x.1.2 & b]].

Lemma error_batch c : sh c = [:: K, F & B] -> exists E, [/\ t_error Yt ref c = Ok E, sh E = [:: N, K, F & B] &
  forall b f k (n : 'I_N), inr B b -> at_ E [:: nat_of_ord n, nat_of_ord k, nat_of_ord f & b] = md_error (Yb b) (rb b) (coef_at c b) tt f k 0 n].
Proof.
move=> sc; rewrite /t_error; have [r [-> s1 h1]] := unsq1 sr; cbn [bind]; have [c1 [-> s2 h2]] := unsq0 c; cbn [bind].
rewrite sc in s2; have [|cY [e3 s3 h3]] := @zip_bc C *%R c1 Yt _ _ [:: N, K, F & B] s2 sYt; first by rewrite /= bc21n !bc2nn /= bcastss.
rewrite /tmul e3; cbn [bind].
have [|E [e4 s4 h4]] := @zip_bc C (fun x y => x - y) r cY _ _ [:: N, K, F & B] s1 s3; first by rewrite /= bc21n !bc2nn /= bR.
exists E; split=> // b f k n hb.
have i2 : inr [:: K, F & B] [:: nat_of_ord k, nat_of_ord f & b] by rewrite /= !ltn_ord.
have i3 : inr [:: N, K, F & B] [:: nat_of_ord n, nat_of_ord k, nat_of_ord f & b] by rewrite /= !ltn_ord.
rewrite h4 (clip_id i3) h3 (clip_id i3) clip1l (clip_id i2) h2 hYt !mxE ffunE; congr (_ - _).
by rewrite -clip_fits /= !clip1 h1.
Qed.
Lemma min_batch w : sh w = [:: N, K, F & B] -> exists c, [/\ t_min Yt ref w = Ok c, sh c = [:: K, F & B] &
  forall b (W : err_t C unit_finType K F N), inr B b ->
    (forall f k n, W tt f k 0 n = at_ w [:: nat_of_ord n, nat_of_ord k, nat_of_ord f & b]) -> coef_at c b = md_min (Yb b) (rb b) W].
Proof.
move=> sw; rewrite /t_min; have [r [-> s1 h1]] := unsq1 sr; cbn [bind].
have [|a1 [e2 s2 h2]] := @zip_bc C *%R r (tmap conjC Yt) _ _ [:: N, K, F & B] s1 sYt; first by rewrite /= bc21n !bc2nn /= bR.
rewrite /tmul e2; cbn [bind].
have [|a2 [-> s3 h3]] := @zip_bc C *%R a1 w _ _ [:: N, K, F & B] s2 sw; first exact: bcastss.
cbn [bind]; have [num [-> s4 h4]] := tsum0 s3; cbn [bind].
have [|a3 [-> s5 h5]] := @zip_bc C *%R (tmap (fun x => `|x| ^+ 2) Yt) w _ _ [:: N, K, F & B] sYt sw; first exact: bcastss.
cbn [bind]; have [den [-> s6 h6]] := tsum0 s5; cbn [bind].
have [|c [-> s7 h7]] := @zip_bc C (fun x d => x / clamp d (@t_eps_gmdp C)) num den _ _ [:: K, F & B] s4 s6; first exact: bcastss.
exists c; split=> // b W hb hW; apply/ffunP => -[[[] f] k]; rewrite !ffunE /=.
have i2 : inr [:: K, F & B] [:: nat_of_ord k, nat_of_ord f & b] by rewrite /= !ltn_ord.
rewrite h7 (clip_id i2) h4 h6; congr (_ / clamp _ _); apply: eq_bigr => n _.
  have j3 : inr [:: N, K, F & B] [:: nat_of_ord n, nat_of_ord k, nat_of_ord f & b] by rewrite /= !ltn_ord.
  rewrite h3 (clip_id j3) h2 (clip_id j3) hW; cbn [at_ tmap]; rewrite hYt !mxE; congr (_ * _ * _).
  by rewrite -clip_fits /= !clip1 h1.
have j3 : inr [:: N, K, F & B] [:: nat_of_ord n, nat_of_ord k, nat_of_ord f & b] by rewrite /= !ltn_ord.
by rewrite h5 (clip_id j3) hW; cbn [at_ tmap]; rewrite hYt !mxE.
Qed.

(* ---- the weights of lp_norm and lpq_norm *)
Variables (p : C) (q : option C).
Definition wf (E : err_t C unit_finType K F N) : result (err_t C unit_finType K F N) :=
  match q with
  | None => lp_norm pw E p
  | Some q => if p == q then lp_norm pw E p else lpq_norm pw E p q
  end.
Definition good_exponents : bool :=
  match q with
  | None => (0 < p) && (p < 2%:R)
  | Some q => if p == q then (0 < p) && (p < 2%:R) else [&& 0 < p, p <= q & q <= 2%:R]
  end.
Hypothesis pw_ge0 : forall x y, 0 <= x -> 0 <= pw x y.
Variable St : Type.
Local Notation tw := (@t_weights C pw St None (Some p) q).
Lemma weights_bad st E : ~~ good_exponents -> tw st E = Err AssertionError.
Proof.
rewrite /good_exponents /t_weights; case: q => [q'|]; last by rewrite /t_lp_norm => /negbTE ->.
by case: eqP => _; rewrite /t_lp_norm /t_lpq_norm => /negbTE ->.
Qed.
Lemma lp_batch E : (0 < p) && (p < 2%:R) -> sh E = [:: N, K, F & B] -> exists w, [/\ t_lp_norm pw E p = Ok w, sh w = [:: N, K, F & B] &
  forall b (X : err_t C unit_finType K F N), inr B b -> (forall f k n, X tt f k 0 n = at_ E [:: nat_of_ord n, nat_of_ord k, nat_of_ord f & b]) ->
    exists2 W, lp_norm pw X p = Ok W & forall f k n, W tt f k 0 n = at_ w [:: nat_of_ord n, nat_of_ord k, nat_of_ord f & b]].
Proof.
move=> hp sE; rewrite /t_lp_norm /lp_norm hp; eexists; split; [reflexivity|by []|] => b X hb hX.
by eexists; [reflexivity|] => f k n; rewrite mxE hX.
Qed.
Lemma lpq_batch q' E : [&& 0 < p, p <= q' & q' <= 2%:R] -> sh E = [:: N, K, F & B] -> exists w, [/\ t_lpq_norm pw E p q' = Ok w, sh w = [:: N, K, F & B] &
  forall b (X : err_t C unit_finType K F N), inr B b -> (forall f k n, X tt f k 0 n = at_ E [:: nat_of_ord n, nat_of_ord k, nat_of_ord f & b]) ->
    exists2 W, lpq_norm pw X p q' = Ok W & forall f k n, W tt f k 0 n = at_ w [:: nat_of_ord n, nat_of_ord k, nat_of_ord f & b]].
Proof.
move=> hp sE; rewrite /t_lpq_norm /lpq_norm hp; set E2 := tmap _ (tmap _ E).
have s2 : sh E2 = [:: N, K, F & B] by [].
have [s [-> ss hs]] := tsum_keep2 s2; cbn [bind]; cbv zeta.
set rn := tmap _ (tmap _ s); set qfn := tmap _ E2.
have [|d [e3 s3 h3]] := @zip_bc C *%R rn qfn _ _ [:: N, K, F & B] ss s2; first by rewrite /= !bc2nn bc21n /= bcastss.
rewrite /tmul e3; cbn [bind]; eexists; split; [reflexivity|by []|] => b X hb hX.
eexists; [reflexivity|] => f k n; rewrite mxE; cbn [at_ tmap].
have i3 g : inr [:: N, K, F & B] [:: nat_of_ord n, nat_of_ord k, nat_of_ord (g : 'I_F) & b] by rewrite /= !ltn_ord.
have e2 g : at_ E2 [:: nat_of_ord n, nat_of_ord k, nat_of_ord (g : 'I_F) & b] = pw (`|X tt g k 0 n| + 10%:R ^- 5) q' + 10%:R ^- 5.
  by rewrite /E2; cbn [at_ tmap]; rewrite hX.
rewrite h3 (clip_id (i3 f)); congr (_ / clamp (_ * _) _).
  rewrite /rn; cbn [at_ tmap].
  have -> : clip [:: N, K, 1%N & B] [:: nat_of_ord n, nat_of_ord k, nat_of_ord f & b] = [:: nat_of_ord n, nat_of_ord k, 0%N & b] by rewrite /= !clip1 clip_id.
  rewrite hs; congr (_ * pw _ _); by apply: eq_bigr => g _; rewrite e2.
rewrite /qfn; cbn [at_ tmap]; rewrite e2; congr (pw _ _); apply/esym/ger0_norm.
have e5 : 0 <= (10%:R ^- 5 : C) by rewrite invr_ge0 exprn_ge0 // ler0n.
by rewrite addr_ge0 // pw_ge0 // addr_ge0.
Qed.
Lemma weights_batch st E : good_exponents -> sh E = [:: N, K, F & B] -> exists w, [/\ tw st E = Ok (w, st), sh w = [:: N, K, F & B] &
  forall b (X : err_t C unit_finType K F N), inr B b -> (forall f k n, X tt f k 0 n = at_ E [:: nat_of_ord n, nat_of_ord k, nat_of_ord f & b]) ->
    exists2 W, wf X = Ok W & forall f k n, W tt f k 0 n = at_ w [:: nat_of_ord n, nat_of_ord k, nat_of_ord f & b]].
Proof.
rewrite /good_exponents /t_weights /wf; case: q => [q'|] h sE; last by have [w [-> s1 h1]] := lp_batch h sE; exists w.
move: h; case: (p == q') => h; first by have [w [-> s1 h1]] := lp_batch h sE; exists w.
by have [w [-> s1 h1]] := lpq_batch h sE; exists w.
Qed.
Lemma step_batch st c : good_exponents -> sh c = [:: K, F & B] -> exists E w c', [/\ t_error Yt ref c = Ok E, tw st E = Ok (w, st),
  t_min Yt ref w = Ok c', sh c' = [:: K, F & B] &
  forall b, inr B b -> exists2 W, wf (md_error (Yb b) (rb b) (coef_at c b)) = Ok W & coef_at c' b = md_min (Yb b) (rb b) W].
Proof.
move=> hg sc; have [E [e1 s1 h1]] := error_batch sc; have [w [e2 s2 h2]] := weights_batch st hg s1; have [c' [e3 s3 h3]] := min_batch s2.
exists E, w, c'; split=> // b hb; have [|W eW hW] := h2 b (md_error (Yb b) (rb b) (coef_at c b)) hb; first by move=> f k n; rewrite h1.
by exists W => //; exact: h3.
Qed.
Lemma step0 (x y : coef C unit_finType K F) : small_step x y 0 = false.
Proof.
rewrite /small_step; apply/negbTE; rewrite negb_and; apply/orP; right.
have f0 (z : coef C unit_finType K F) : 0 <= fro z by rewrite sqrtC_ge0 sumr_ge0 // => i _; rewrite exprn_ge0.
by rewrite -real_leNgt ?divr_ge0 // ?ger0_real ?divr_ge0.
Qed.
Lemma small_shape (rtol : C) c pr : sh c = [:: K, F & B] -> sh pr = [:: K, F & B] -> exists s, t_small_step rtol c pr = Ok s /\ (rtol <= 0 -> s = false).
Proof.
move=> sc sp; rewrite /t_small_step /tsub; have [d [-> sd hd]] := tzip_same (fun x y => x - y) sc sp; cbn [bind]; eexists; split; [reflexivity|] => h.
apply/negbTE; rewrite negb_and; apply/orP; right; have q0 : 0 <= t_fro d / t_fro pr by rewrite divr_ge0 // fro_ge0.
by rewrite -real_leNgt ?(ger0_real q0) ?(ler0_real h) // (le_trans h).
Qed.
Lemma loop_batch (rtol : C) fuel (st : St) c prev : good_exponents -> sh c = [:: K, F & B] -> (if prev is Some pr then sh pr = [:: K, F & B] else True) ->
  exists k c', [/\ t_md_loop pw None (Some p) q rtol Yt ref fuel c prev st = Ok (c', st), sh c' = [:: K, F & B],
    (minn (if prev is None then 2 else 1) fuel <= k <= fuel)%N, (rtol <= 0 -> k = fuel) &
    forall b, inr B b -> md_loop (Yb b) (rb b) wf 0 k (coef_at c b) (omap (fun t => coef_at t b) prev) = Ok (coef_at c' b)].
Proof.
move=> hg; elim: fuel c prev => [|m IH] c prev sc sp; first by exists 0%N, c; split=> //; rewrite minn0.
have [E [w [c1 [e1 e2 e3 s1 h1]]]] := step_batch st hg sc; cbn [t_md_loop]; rewrite e1; cbn [bind]; rewrite e2; cbn [bind]; rewrite e3; cbn [bind].
case: prev sp => [pr|] sp; last first.
  have [k [c2 [e s2 hk hr h2]]] := IH c1 (Some c1) s1 s1; exists k.+1, c2; split=> //; [by rewrite !minnE in hk *; lia|by move=> /hr ->|] => b hb.
  by have [W eW hW] := h1 b hb; cbn [md_loop omap obind oapp]; rewrite eW; cbn [bind]; rewrite -hW; exact: h2.
have [s [es hs]] := small_shape rtol s1 sp; rewrite es; cbn [bind]; case: s es hs => es hs.
  exists 1%N, c1; split=> //; [by rewrite minnE; lia|by move=> /hs|] => b hb.
  by have [W eW hW] := h1 b hb; cbn [md_loop omap obind oapp]; rewrite eW; cbn [bind]; rewrite -hW; case: ifP.
have [k [c2 [e s2 hk hr h2]]] := IH c1 (Some c1) s1 s1; exists k.+1, c2; split=> //; [by rewrite !minnE in hk *; lia|by move=> /hr ->|] => b hb.
have [W eW hW] := h1 b hb; cbn [md_loop omap obind oapp]; rewrite eW; cbn [bind]; rewrite -hW step0; exact: h2.
Qed.

(* ---- a single signal: the same decisions *)
Lemma single_fro c : sh c = [:: K; F] -> t_fro c = fro (coef_at c [::]).
Proof.
move=> sc; rewrite /t_fro /fro sc !big_idxs big_seq1; congr sqrtC.
rewrite -(eq_bigr _ (fun x _ => congr1 (fun z => `|z| ^+ 2) (esym (ffunE (fun x : unit_finType * 'I_F * 'I_K => at_ c [:: nat_of_ord x.2, nat_of_ord x.1.2 & [::]]) x)))).
rewrite -(pair_bigA _ (fun (x : unit_finType * 'I_F) (k : 'I_K) => `|at_ c [:: nat_of_ord k; nat_of_ord x.2]| ^+ 2)) /=.
rewrite -(pair_bigA _ (fun (u : unit_finType) (f : 'I_F) => \sum_(k < K) `|at_ c [:: nat_of_ord k; nat_of_ord f]| ^+ 2)) /=.
by rewrite (big_pred1 tt) //; case.
Qed.
Lemma single_step (rtol : C) c pr : B = [::] -> sh c = [:: K; F] -> sh pr = [:: K; F] ->
  t_small_step rtol c pr = Ok (small_step (coef_at c [::]) (coef_at pr [::]) rtol).
Proof.
move=> eB sc sp; rewrite /t_small_step /tsub; have [d [-> sd hd]] := tzip_same (fun x y => x - y) sc sp; cbn [bind].
rewrite /small_step !single_fro //; congr (Ok (_ && (fro _ / _ < _))); apply/ffunP => -[[[] f] k]; rewrite !ffunE /=.
by rewrite hd //= !ltn_ord.
Qed.
Lemma single_loop (rtol : C) fuel (st : St) c prev : B = [::] -> good_exponents -> sh c = [:: K; F] -> (if prev is Some pr then sh pr = [:: K; F] else True) ->
  exists c', [/\ t_md_loop pw None (Some p) q rtol Yt ref fuel c prev st = Ok (c', st), sh c' = [:: K; F] &
    md_loop (Yb [::]) (rb [::]) wf rtol fuel (coef_at c [::]) (omap (fun t => coef_at t [::]) prev) = Ok (coef_at c' [::])].
Proof.
move=> eB hg; have sB (t : tensor C) : sh t = [:: K; F] <-> sh t = [:: K, F & B] by rewrite eB.
have b0 : inr B [::] by rewrite eB.
elim: fuel c prev => [|m IH] c prev sc sp; first by exists c.
have [E [w [c1 [e1 e2 e3 /sB s1 h1]]]] := step_batch st hg ((sB c).1 sc); cbn [t_md_loop]; rewrite e1; cbn [bind]; rewrite e2; cbn [bind]; rewrite e3; cbn [bind].
have [W eW hW] := h1 [::] b0; cbn [md_loop omap obind oapp]; rewrite eW; cbn [bind]; rewrite -hW.
case: prev sp => [pr|] sp; last exact: IH.
rewrite (single_step rtol eB s1 sp); cbn [bind omap obind oapp]; case: ifP => _; [by exists c1|exact: IH].
Qed.
End Run.
End T.
