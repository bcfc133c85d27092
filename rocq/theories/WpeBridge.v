(* WPE in terms of the specification vocabulary. *)
From Coq Require Import Ring Field.
From mathcomp Require Import all_ssreflect all_algebra.
From Verif Require Import CAlg Py Batch LinalgModel LinalgSpec LinalgProofs LinalgBridge.
From Verif Require Import TissModel TissSpec TissProofs WpeModel WpeSpec WpeProofs.
Set Implicit Arguments. Unset Strict Implicit. Unset Printing Implicit Defensive.
Import GRing.Theory Num.Theory Order.TTheory.
Local Open Scope ring_scope.
Local Open Scope py_scope.

Section Bridge.
Variable C : numClosedFieldType.
Variables (nC nF nT dl nN : nat).
Implicit Types (X Y : sig C nF nN nC).

Lemma derev_entry X (H : {ffun 'I_nF -> 'M[C]_(nC * nT, nC)}) f s n :
  derev H X (delayed nT dl X) f s n
  = X f s n - predict dl (X f) (fun c t => H f (mxvec_index c t) s) n.
Proof.
rewrite ffunE mxE; congr (_ - _); apply: eq_bigr => c _; apply: eq_bigr => t _.
by rewrite delayedE.
Qed.

Definition flat (h : 'I_nC -> 'I_nT -> C) : 'cV[C]_(nC * nT) :=
  \col_k mxvec (\matrix_(c, t) h c t) 0 k.
Lemma flatE h c t : flat h (mxvec_index c t) 0 = h c t.
Proof. by rewrite mxE mxvecE mxE. Qed.

Lemma load_corr (w : 'rV[C]_nN) X f eps : 0 < eps ->
  is_past_load nT dl (w 0) (X f) eps (load_factor (acm w (delayed nT dl X f)) eps).
Proof.
move=> e0; have aE c t d u : acm w (delayed nT dl X f) (mxvec_index c t) (mxvec_index d u)
    = past_corr dl (w 0) (X f) c t d u.
  by rewrite mxE; apply: eq_bigr => n _; rewrite !stackE !delayedE.
have [h1 h2 h3] := load_factor_is (acm w (delayed nT dl X f)) e0; split=> //.
  by move=> c t d u; rewrite -aE.
case: h3 => [->|[i [j ->]]]; first by left.
by right; case/mxvec_indexP: i => c t; case/mxvec_indexP: j => d u; exists c, t, d, u; rewrite aE.
Qed.

Lemma objE (w : 'rV[C]_nN) X f s load (h : 'cV[C]_(nC * nT)) : (forall n, 0 <= w 0 n) ->
  nrm2 ((\matrix_(n, k) (sqrtC (w 0 n) * (stack (delayed nT dl X f) k n)^* )) *m h
        - \col_n (sqrtC (w 0 n) * (X f s n)^* )) + load * nrm2 h
  = wpe_objective dl (w 0) (X f) s load (fun c t => h (mxvec_index c t) 0).
Proof.
move=> w0; rewrite residE //; congr (_ + _ * _).
  apply: eq_bigr => n _; congr (_ * `|_ - _| ^+ 2).
  by apply: eq_bigr => c _; apply: eq_bigr => t _; rewrite delayedE.
exact: sum_flat.
Qed.

Lemma obj_ext (w : 'I_nN -> C) (Xf : 'M[C]_(nC, nN)) s load (h h' : 'I_nC -> 'I_nT -> C) :
  (forall c t, h c t = h' c t) -> wpe_objective dl w Xf s load h = wpe_objective dl w Xf s load h'.
Proof.
move=> e; congr (_ + _ * _); last by apply: eq_bigr => c _; apply: eq_bigr => t _; rewrite e.
apply: eq_bigr => n _; congr (_ * `|_ - _| ^+ 2).
by apply: eq_bigr => c _; apply: eq_bigr => t _; rewrite e.
Qed.

Lemma one_iter_ok (w : 'I_nF -> 'rV[C]_nN) X eps : (0 < nC * nT)%N -> 0 < eps ->
  (forall f n, 0 <= w f 0 n) ->
  exists H, wpe_one_iter w X (delayed nT dl X) eps = Ok H /\
  forall f s, exists load, is_past_load nT dl (w f 0) (X f) eps load /\
   forall h : 'I_nC -> 'I_nT -> C, (exists c t, h c t != H f (mxvec_index c t) s) ->
    wpe_objective dl (w f 0) (X f) s load (fun c t => H f (mxvec_index c t) s)
    < wpe_objective dl (w f 0) (X f) s load h.
Proof.
move=> n0 e0 w0; rewrite /wpe_one_iter gtn_eqF //.
set g := (X in gather _ X).
have hs f : is_ok (g f).
  by have [H [E _]] := wpe_solve (delayed nT dl X f) (X f) (w0 f) e0 n0; rewrite /g E.
case E: (gather _ g) => [H|e]; last by move: (gather_total 0 hs); rewrite E.
exists H; split=> // f s; exists (load_factor (acm (w f) (delayed nT dl X f)) eps).
split; first exact: load_corr.
move=> h [c [t ne]].
have [H0 [E0 opt]] := wpe_solve (delayed nT dl X f) (X f) (w0 f) e0 n0.
have := gather_inv E f; rewrite /g E0 => -[hH].
have /(opt s) : flat h != col s H0.
  by apply: contraNneq ne => /matrixP /(_ (mxvec_index c t) 0); rewrite flatE [col _ _ _ _]mxE hH => ->.
rewrite !objE //.
rewrite (@obj_ext _ _ _ _ _ (fun c t => H f (mxvec_index c t) s)) => [|c' t']; last by rewrite mxE hH.
by rewrite (@obj_ext _ _ _ _ (fun c t => flat h _ _) h) => // c' t'; rewrite flatE.
Qed.

(* the new estimate never has more weighted energy than the input *)
Lemma energy_le (w : 'I_nN -> C) X f s load (h : 'I_nC -> 'I_nT -> C) : (forall n, 0 <= w n) -> 0 <= load ->
  wpe_objective dl w (X f) s load h <= wpe_objective dl w (X f) s load (fun _ (_ : 'I_nT) => 0 : C) ->
  \sum_n w n * `|X f s n - predict dl (X f) h n| ^+ 2 <= \sum_n w n * `|X f s n| ^+ 2.
Proof.
move=> w0 l0; rewrite /wpe_objective /pred_err.
rewrite [X in _ <= _ + _ * X]big1 => [|c _]; last by rewrite big1 // => t _; rewrite normr0 expr0n.
rewrite mulr0 addr0 => le.
have -> : \sum_n w n * `|X f s n| ^+ 2
    = \sum_n w n * `|X f s n - predict dl (X f) (fun _ (_ : 'I_nT) => 0 : C) n| ^+ 2.
  apply: eq_bigr => n _; rewrite /predict big1 ?subr0 // => c _; rewrite big1 // => t _.
  by rewrite rmorph0 mul0r.
apply: le_trans le; rewrite ler_addl mulr_ge0 //; apply: sumr_ge0 => c _; apply: sumr_ge0 => t _.
exact: exprn_ge0.
Qed.

Lemma default_gt0 eps Y f n : 0 < eps ->
  0 < 1 / clamp ((\sum_c mag_sq (Y f c n)) / nC%:R) eps.
Proof.
move=> e0; rewrite divr_gt0 ?ltr01 // clamp_gt0 // ger0_real // mulr_ge0 ?invr_ge0 ?ler0n //.
by apply: sumr_ge0 => c _; rewrite mag_sqE exprn_ge0.
Qed.
Lemma default_weights_pos eps Y f n : 0 < eps -> 0 < default_weights eps Y f 0 n.
Proof.
move=> e0; rewrite mxE divr_gt0 ?default_gt0 // (bigD1 n) //= ltr_paddr //; last exact: default_gt0.
by apply: sumr_ge0 => k _; exact/ltW/default_gt0.
Qed.
Lemma default_weights_sum eps Y f : 0 < eps -> (0 < nN)%N -> \sum_n default_weights eps Y f 0 n = 1.
Proof.
move=> e0 n0; under eq_bigr do rewrite mxE; rewrite -mulr_suml divff // gt_eqF //.
rewrite (bigD1 (Ordinal n0)) //= ltr_paddr //; last exact: default_gt0.
by apply: sumr_ge0 => k _; exact/ltW/default_gt0.
Qed.

Lemma default_weights_order eps Y f n k :
  0 < eps -> \sum_c `|Y f c n| ^+ 2 <= \sum_c `|Y f c k| ^+ 2 ->
  default_weights eps Y f 0 k <= default_weights eps Y f 0 n.
Proof.
move=> e0 h; rewrite !mxE ler_wpmul2r //.
  by rewrite invr_ge0; apply: sumr_ge0 => i _; exact/ltW/default_gt0.
have r m : (\sum_c mag_sq (Y f c m)) / nC%:R \is Num.real.
  by rewrite ger0_real // mulr_ge0 ?invr_ge0 ?ler0n //; apply: sumr_ge0 => c _; rewrite mag_sqE exprn_ge0.
rewrite !div1r lef_pinv ?posrE ?clamp_gt0 //.
have le : (\sum_c mag_sq (Y f c n)) / nC%:R <= (\sum_c mag_sq (Y f c k)) / nC%:R.
  rewrite ler_wpmul2r ?invr_ge0 ?ler0n //.
  by rewrite !(eq_bigr _ (fun c _ => mag_sqE _)).
rewrite {1}/clamp; case: ifP => _; first by apply: clamp_ge => //; exact: gtr0_real.
by apply: le_trans le _; apply: clamp_geR => //; exact: gtr0_real.
Qed.

Section Loop.
Variable St : Type.
Variable model : option (St -> sig C nF nN nC -> ('I_nF -> 'rV[C]_nN) * St).
Variables (X : sig C nF nN nC) (eps : C).
Definition nonneg_model := forall mo, model = Some mo -> forall m Y f n, 0 <= (mo m Y).1 f 0 n.
Lemma weights_ge0 m Y f n : 0 < eps -> nonneg_model -> 0 <= (weights model eps m Y).1 f 0 n.
Proof.
move=> e0 hm; rewrite /weights; move: hm; rewrite /nonneg_model; case: model => [mo|] hm.
  exact: hm.
exact/ltW/default_weights_pos.
Qed.
Lemma loopS n Y m : wpe_loop nT dl model X eps n.+1 Y m
  = let* ym := wpe_loop nT dl model X eps n Y m in
    let* H := wpe_one_iter (weights model eps ym.2 ym.1).1 X (delayed nT dl X) eps in
    Ok (derev H X (delayed nT dl X), (weights model eps ym.2 ym.1).2).
Proof.
elim: n Y m => [|n IH] Y m.
  by rewrite /=; case: (weights _ _ _ _) => w m' /=; case: (wpe_one_iter _ _ _ _).
rewrite [LHS]/= [wpe_loop _ _ _ _ _ n.+1 _ _]/=; case: (weights _ _ m Y) => w m'.
case: (wpe_one_iter w _ _ _) => [H|e] //=; exact: IH.
Qed.
Lemma c34_lemma n m0 : (0 < nC * nT)%N -> 0 < eps -> nonneg_model ->
  exists Y m Y' m' (h : 'I_nF -> 'I_nC -> 'I_nC -> 'I_nT -> C),
  [/\ wpe_forward nT dl model X eps n m0 = Ok (Y, m),
      wpe_forward nT dl model X eps n.+1 m0 = Ok (Y', m'),
      (forall f s k, Y' f s k = X f s k - predict dl (X f) (h f s) k) &
   forall f s, let w := (weights model eps m Y).1 f 0 in
    [/\ \sum_k w k * `|Y' f s k| ^+ 2 <= \sum_k w k * `|X f s k| ^+ 2 &
    exists load, is_past_load nT dl w (X f) eps load /\
     forall g : 'I_nC -> 'I_nT -> C, (exists c t, g c t != h f s c t) ->
      wpe_objective dl w (X f) s load (h f s) < wpe_objective dl w (X f) s load g]].
Proof.
move=> n0 e0 hm; rewrite /wpe_forward.
have [Y [m hY]] : exists Y m, wpe_loop nT dl model X eps n X m0 = Ok (Y, m).
  elim: n => [|n [Y [m E]]]; first by exists X, m0.
  rewrite loopS E /=; have [H [-> _]] := @one_iter_ok (weights model eps m Y).1 X eps n0 e0
      (fun f n => weights_ge0 _ _ _ _ e0 hm).
  by eexists _, _.
have [H [EH opt]] := @one_iter_ok (weights model eps m Y).1 X eps n0 e0
      (fun f n => weights_ge0 _ _ _ _ e0 hm).
exists Y, m, (derev H X (delayed nT dl X)), (weights model eps m Y).2.
exists (fun f s c t => H f (mxvec_index c t) s); split=> //.
- by rewrite loopS hY /= EH.
- by move=> f s k; rewrite derev_entry.
move=> f s; have [load [hl ho]] := opt f s; split; last by exists load.
under eq_bigr do rewrite derev_entry.
have le0 : 0 < load by case: hl => le _ _; exact: lt_le_trans e0 le.
apply: (@energy_le _ _ _ _ load) => [k||].
- exact: weights_ge0.
- exact: ltW.
- case: (pickP (fun ct : 'I_nC * 'I_nT => (0 : C) != H f (mxvec_index ct.1 ct.2) s)) => [[c t] /= ne|ez].
    by apply/ltW/ho; exists c, t.
  rewrite le_eqVlt; apply/orP; left; apply/eqP; apply: obj_ext => c t.
  by have /negbFE/eqP <- := ez (c, t).
Qed.
Lemma wpe_no_taps n m0 : nT = 0%N -> wpe_forward nT dl model X eps n.+1 m0 = Err IndexError.
Proof.
move=> e; rewrite /wpe_forward /=; case: (weights _ _ _ _) => w m'.
have z : (nC * nT == 0)%N by rewrite e muln0.
by rewrite /wpe_one_iter z.
Qed.
End Loop.
End Bridge.
