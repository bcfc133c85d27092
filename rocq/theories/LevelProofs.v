From mathcomp Require Import all_ssreflect all_algebra.
From Verif Require Import CAlg Py Batch LinalgModel LinalgProofs TissModel BeamModel WpeModel BeamSpec TissSpec WpeSpec LinalgSpec LinalgBridge TissProofs BeamProofs WpeProofs WpeBridge PhaseProofs PhaseTiss LevelSpec.
Set Implicit Arguments. Unset Strict Implicit. Unset Printing Implicit Defensive.
Import GRing.Theory Num.Theory Order.TTheory.
Local Open Scope ring_scope.
Local Open Scope py_scope.

Section Solve.
Variable C : numClosedFieldType.
Lemma max_absZ n (g : C) (A : 'M[C]_n) : 0 <= g -> max_abs (g *: A) = g * max_abs A.
Proof.
move=> hg; have hb m (F : 'I_m -> C) : \big[Num.max/0]_i (g * F i) = g * \big[Num.max/0]_i F i.
  by elim/big_rec2: _ => [|i y1 y2 _ ->]; rewrite ?mulr0 // maxr_pmulr.
rewrite /max_abs -hb; apply: eq_bigr => j _; rewrite -hb; apply: eq_bigr => i _.
by rewrite mxE normrM ger0_norm.
Qed.
Lemma loud_max n (A : 'M[C]_n) : loud A -> 1 <= max_abs A.
Proof. case=> i [j h]; exact: le_trans h (max_abs_ge A i j). Qed.
Lemma load_loud n (A : 'M[C]_n) l : 0 < l -> loud A -> load_factor A l = l * max_abs A.
Proof. move=> l0 /loud_max h; rewrite /load_factor clamp_id //; by rewrite ler_pmulr. Qed.
Lemma solveZ n k (g h : C) (A : 'M[C]_n) (B : 'M[C]_(n, k)) : g != 0 ->
  torch_solve (g *: A) (h *: B) = rmap (fun x => (g^-1 * h) *: x) (torch_solve A B).
Proof.
move=> g0; rewrite /torch_solve unitmxZ ?unitfE //; case: ifP => // uA /=.
by rewrite invmxZ ?unitmxZ ?unitfE // -scalemxAl -scalemxAr scalerA.
Qed.
Lemma slZ n k (g h : C) (A : 'M[C]_n) (B : 'M[C]_(n, k)) l : 0 < g -> 0 < l -> loud A -> loud (g *: A) ->
  solve_loaded (g *: A) (h *: B) l = rmap (fun x => (g^-1 * h) *: x) (solve_loaded A B l).
Proof.
move=> g0 l0 h1 h2; rewrite /solve_loaded; case: ifP => // _.
rewrite !load_loud // max_absZ ?ltW // mulrCA -scalerA -scalerDr solveZ //; exact: lt0r_neq0.
Qed.
End Solve.

Section Beam.
Variable C : numClosedFieldType.
Add Field CfieldLB : (f_ft C).
Ltac cring C := fpre; fnorm C; fatoms; ring.
Variable eighO : forall n, eigh_oracle C n.
Variable k : nat.
Local Notation nC := k.+1.
Section Freq.
Variable g : C.
Hypothesis g0 : 0 < g.
Lemma gn0 : g != 0. Proof. exact: lt0r_neq0. Qed.
Lemma p10 e : 0 < (10%:R : C) ^- e.
Proof. by rewrite invr_gt0 exprn_gt0 // ltr0n. Qed.
Lemma colZ m n (x : C) (A : 'M[C]_(m, n)) r : col r (x *: A) = x *: col r A.
Proof. by apply/matrixP=> i j; rewrite !mxE. Qed.
Lemma rmap_id A (f : A -> A) (r : result A) : (forall x, f x = x) -> rmap f r = r.
Proof. by case: r => //= x ->. Qed.
Lemma mwf_level (Rt Rn : 'M[C]_nC) eps ref : loud (Rt + Rn) -> loud (g *: (Rt + Rn)) ->
  compute_mwf_ref (g *: Rt) (g *: Rn) eps ref = compute_mwf_ref Rt Rn eps ref.
Proof.
move=> h1 h2; rewrite /compute_mwf_ref -scalerDr colZ slZ //; last exact: p10.
by rewrite mulVf ?gn0 // rmap_id // => x; rewrite scale1r.
Qed.
Lemma bf2_level (Rt Rn : 'M[C]_nC) ref eps :
  compute_mvdr_bf2 (g *: Rt) (g *: Rn) ref eps = compute_mvdr_bf2 Rt Rn ref eps.
Proof.
rewrite /compute_mvdr_bf2 solveZ ?gn0 // mulVf ?gn0 //.
by rewrite rmap_id // => x; rewrite scale1r.
Qed.
Lemma rtf_level (Rt Rn : 'M[C]_nC) ref p : loud Rn -> loud (g *: Rn) ->
  compute_mvdr_rtf_eigh eighO (g *: Rt) (g *: Rn) ref (Some p) = compute_mvdr_rtf_eigh eighO Rt Rn ref (Some p).
Proof.
move=> h1 h2; rewrite /compute_mvdr_rtf_eigh /rtf_vector slZ //; last exact: p10.
rewrite mulVf ?gn0 // rmap_id; last by move=> x; rewrite scale1r.
case: (solve_loaded _ _ _) => //= Phi; congr Ok.
rewrite -scalemxAl; set s := Rn *m _; clearbody s; rewrite [(g *: s) ref 0]mxE scalerA invfM mulrAC mulVf ?gn0 ?mul1r //.
Qed.
Lemma bf_level (Rn : 'M[C]_nC) (d : 'cV[C]_nC) eps : 0 < eps -> psd Rn -> loud Rn -> loud (g *: Rn) ->
  (forall l a, is_load Rn eps l -> (Rn + l%:M) *m a = d -> eps <= response d a /\ g * eps <= response d a) ->
  compute_mvdr_bf (g *: Rn) d eps = compute_mvdr_bf Rn d eps.
Proof.
move=> e0 hp h1 h2 hr; rewrite /compute_mvdr_bf -{1}[d]scale1r slZ // mulr1.
have := solve_loaded_psd d (isT : (0 < nC)%N) hp e0; move=> E; rewrite E /=.
set a := invmx _ *m d; have ha : (Rn + (load_factor Rn eps)%:M) *m a = d.
  by rewrite -scalemx1 mulmxA mulmxV ?mul1mx //; apply: pd_unit; exact: pd_loaded.
have [r1 r2] := hr _ _ (load_factor_is Rn e0) ha; clearbody a.
have sE : \sum_c (d c 0)^* * a c 0 = response d a by [].
have rR : response d a \is Num.real by apply: ger0_real; exact: le_trans (ltW e0) r1.
congr Ok; rewrite sE (Creal_ReP _ rR) (clamp_id r1).
have -> : \sum_c (d c 0)^* * (g^-1 *: a) c 0 = g^-1 * response d a.
  by rewrite mulr_sumr; apply: eq_bigr => c _; rewrite mxE mulrCA.
have gR : g^-1 * response d a \is Num.real by rewrite rpredM // ger0_real // invr_ge0 ltW.
rewrite (Creal_ReP _ gR) clamp_id; last by rewrite ler_pdivl_mull.
by rewrite scalerA invfM invrK mulrAC divff ?gn0 // mul1r.
Qed.
End Freq.

Variables (nS nF nN : nat).
Variable a : C.
Hypothesis a0 : a != 0.
Local Notation g := (`|a| ^+ 2).
Lemma g0 : 0 < g. Proof. by rewrite exprn_gt0 // normr_gt0. Qed.
Lemma cov_level (w : 'rV[C]_nN) (X : 'M[C]_(nC, nN)) : cov w (a *: X) = g *: cov w X.
Proof.
apply/matrixP=> c d; rewrite /cov [LHS]mxE [in RHS]mxE [in RHS]mxE mulr_sumr; apply: eq_bigr => n _.
rewrite ![(a *: X) _ _]mxE normCK rmorphM; cring C.
Qed.
Variable model : mask_model C nS nF nN.
Variables (X : sig C nF nN nC) (ref : 'I_nC).
Local Notation X' := (amplify a X).
Lemma amplifyF f : X' f = a *: X f. Proof. by rewrite ffunE. Qed.
Lemma apply_bfEl (Z : sig C nF nN nC) (b : {ffun 'I_nS * 'I_nF -> 'cV[C]_nC}) f s n : apply_bf Z b f s n = \sum_c Z f c n * (b (s, f) c 0)^*.
Proof. by rewrite ffunE mxE. Qed.
Lemma amplifyE c (Z : sig C nF nN c) f s n : amplify a Z f s n = a * Z f s n.
Proof. by rewrite ffunE mxE. Qed.
Lemma apply_level (b : {ffun 'I_nS * 'I_nF -> 'cV[C]_nC}) : apply_bf X' b = amplify a (apply_bf X b).
Proof.
apply/ffunP => f; apply/matrixP=> s n; rewrite amplifyE !apply_bfEl mulr_sumr; apply: eq_bigr => c _.
by rewrite amplifyE mulrA.
Qed.
Lemma gather_level (h h' : 'I_nS * 'I_nF -> result 'cV[C]_nC) :
  (forall s f, h' (s, f) = h (s, f)) ->
  (let* b := gather 0 h' in Ok (apply_bf X' b)) = rmap (fun Y => amplify a Y) (let* b := gather 0 h in Ok (apply_bf X b)).
Proof.
move=> e; rewrite (@eq_gather _ _ _ h' h); last by case=> s f; exact: e.
rewrite rmap_bind; apply: eq_bind => b /=; by rewrite apply_level.
Qed.
Lemma mvdr_scm_level eps pw mt mn : model (ref_channel X ref) = [:: mt; mn] ->
  model (ref_channel X' ref) = model (ref_channel X ref) ->
  mvdr_forward eighO X' model ref eps Scm pw = rmap (fun Y => amplify a Y) (mvdr_forward eighO X model ref eps Scm pw).
Proof.
move=> h hM; rewrite /mvdr_forward hM h; apply: gather_level => s f; rewrite amplifyF !cov_level.
exact: (bf2_level g0).
Qed.
Lemma mvdr_level eps p mt mn : 0 < eps -> model (ref_channel X ref) = [:: mt; mn] -> nonneg mn ->
  model (ref_channel X' ref) = model (ref_channel X ref) ->
  (forall s f, loud_both a (weighted_cov (mn s f 0) (X f))) ->
  (forall s f d l b, compute_mvdr_rtf_eigh eighO (weighted_cov (mt s f 0) (X f)) (weighted_cov (mn s f 0) (X f)) ref (Some p) = Ok d ->
     is_load (weighted_cov (mn s f 0) (X f)) eps l -> (weighted_cov (mn s f 0) (X f) + l%:M) *m b = d ->
     eps <= response d b /\ g * eps <= response d b) ->
  mvdr_forward eighO X' model ref eps Rtf (Some p) = rmap (fun Y => amplify a Y) (mvdr_forward eighO X model ref eps Rtf (Some p)).
Proof.
move=> e0 h h0 hM hl hr; rewrite /mvdr_forward hM h; apply: gather_level => s f; rewrite amplifyF !cov_level.
have [l1 l2] := hl s f; rewrite (rtf_level g0) //.
case E: (compute_mvdr_rtf_eigh _ _ _ _ _) => [d|] //=.
apply: (bf_level g0) => //; last by move=> l b; exact: hr E.
exact: cov_psd.
Qed.
Lemma mwf_ti_level eps mt mn rest : model (ref_channel X ref) = [:: mt, mn & rest] ->
  model (ref_channel X' ref) = model (ref_channel X ref) ->
  (forall s f, loud_both a (weighted_cov (mt s f 0) (X f) + weighted_cov (mn s f 0) (X f))) ->
  mwf_forward X' model ref eps true = rmap (fun Y => amplify a Y) (mwf_forward X model ref eps true).
Proof.
move=> h hM hl; rewrite /mwf_forward hM h; apply: gather_level => s f; rewrite amplifyF !cov_level.
have [l1 l2] := hl s f; exact: (mwf_level g0).
Qed.
Lemma mwf_tv_level eps mt mn vt vn : model (ref_channel X ref) = [:: mt; mn; vt; vn] ->
  model (ref_channel X' ref) = model (ref_channel X ref) ->
  (forall s f n, loud_both a (vt s f 0 n *: weighted_cov (mt s f 0) (X f) + vn s f 0 n *: weighted_cov (mn s f 0) (X f))) ->
  mwf_forward X' model ref eps false = rmap (fun Y => amplify a Y) (mwf_forward X model ref eps false).
Proof.
move=> h hM hl; rewrite /mwf_forward hM h.
set r' := gather _ _; set r := gather _ _; have -> : r' = r.
  apply: eq_gather => -[s f]; apply: eq_gather => n; rewrite amplifyF !cov_level !scalerA !(mulrC _ g) -!(scalerA g).
  have [l1 l2] := hl s f n; exact: (mwf_level g0).
rewrite rmap_bind; apply: eq_bind => b /=; congr Ok.
apply/ffunP => f; apply/matrixP=> s n; rewrite amplifyE !ffunE !mxE mulr_sumr; apply: eq_bigr => c _.
by rewrite mxE mulrA.
Qed.
End Beam.

Section W.
Variable C : numClosedFieldType.
Add Field CfieldLW : (f_ft C).
Ltac cring C := fpre; fnorm C; fatoms; ring.
Variables (nC nF nT dl nN : nat).
Local Notation sig := (sig C nF nN nC).
Variables (a eps : C) (X : sig).
Hypothesis a0 : a != 0.
Hypothesis e0 : 0 < eps.
Local Notation g := (`|a| ^+ 2).
Local Notation X' := (amplify a X).
Lemma ampE (Z : sig) f s n : amplify a Z f s n = a * Z f s n.
Proof. by rewrite ffunE mxE. Qed.
Lemma delayedFl (Z : sig) f t : delayed nT dl Z f t = \matrix_(c, n) xpad nT dl (Z f) c (t + n).
Proof. by rewrite /delayed !ffunE. Qed.
Lemma delayed_level f t : delayed nT dl X' f t = a *: delayed nT dl X f t.
Proof.
rewrite !delayedFl ffunE; apply/matrixP=> c n; rewrite !mxE /xpad; case: ifP => _; first by rewrite mulr0.
by rewrite /rowget; case: insubP => [k _ _|_]; rewrite ?mulr0 // mxE.
Qed.
Lemma stack_level f k n : stack (delayed nT dl X' f) k n = a * stack (delayed nT dl X f) k n.
Proof. case/mxvec_indexP: k => c t; rewrite /stack !mxE !mxvecE !mxE delayed_level mxE //. Qed.
Lemma acm_level w f : acm w (delayed nT dl X' f) = g *: acm w (delayed nT dl X f).
Proof.
apply/matrixP=> k l; rewrite /acm [LHS]mxE [in RHS]mxE [in RHS]mxE mulr_sumr; apply: eq_bigr => n _.
rewrite !stack_level normCK rmorphM; cring C.
Qed.
Lemma xcv_level w f : xcv w (delayed nT dl X' f) (X' f) = g *: xcv w (delayed nT dl X f) (X f).
Proof.
apply/matrixP=> k l; rewrite /xcv [LHS]mxE [in RHS]mxE [in RHS]mxE mulr_sumr; apply: eq_bigr => n _.
rewrite !stack_level ampE normCK rmorphM; cring C.
Qed.
Lemma derevEl (H : {ffun 'I_nF -> 'M[C]_(nC * nT, nC)}) (Z : sig) Zb f s n :
  derev H Z Zb f s n = Z f s n - \sum_c \sum_t (H f (mxvec_index c t) s)^* * Zb f t c n.
Proof. by rewrite /derev ffunE mxE. Qed.
Lemma derev_level H : derev H X' (delayed nT dl X') = amplify a (derev H X (delayed nT dl X)).
Proof.
apply/ffunP => f; apply/matrixP=> s n; rewrite [RHS]ampE !derevEl ampE mulrBr; congr (_ - _).
rewrite mulr_sumr; apply: eq_bigr => c _; rewrite mulr_sumr; apply: eq_bigr => t _.
by rewrite delayed_level mxE mulrCA.
Qed.
Lemma acm_entry (w : 'rV[C]_nN) f c t d u : acm w (delayed nT dl X f) (mxvec_index c t) (mxvec_index d u)
    = past_corr dl (w 0) (X f) c t d u.
Proof. by rewrite mxE; apply: eq_bigr => n _; rewrite !stackE !delayedE. Qed.
Lemma dwE (Y : sig) f n : (forall n, eps <= mean_power Y f n) -> default_weights eps Y f 0 n = inverse_power Y f n.
Proof.
move=> h; have e k : 1 / clamp ((\sum_c mag_sq (Y f c k)) / nC%:R) eps = (mean_power Y f k)^-1.
  have -> : (\sum_c mag_sq (Y f c k)) / nC%:R = mean_power Y f k.
    by congr (_ / _); apply: eq_bigr => c _; rewrite mag_sqE.
  by rewrite clamp_id // div1r.
by rewrite mxE e /inverse_power; congr (_ / _); apply: eq_bigr => k _; exact: e.
Qed.
Lemma mean_power_level (Y : sig) f n : mean_power (amplify a Y) f n = g * mean_power Y f n.
Proof.
rewrite /mean_power mulrA mulr_sumr; congr (_ / _); apply: eq_bigr => c _.
by rewrite ampE normrM exprMn.
Qed.
Lemma ip_level (Y : sig) f n : inverse_power (amplify a Y) f n = inverse_power Y f n.
Proof.
have gn : g != 0 by rewrite expf_neq0 // normr_eq0.
rewrite /inverse_power.
have -> : \sum_k (mean_power (amplify a Y) f k)^-1 = g^-1 * \sum_k (mean_power Y f k)^-1.
  by rewrite mulr_sumr; apply: eq_bigr => k _; rewrite mean_power_level (invfM g).
rewrite mean_power_level; move: gn; set G := g; set P := mean_power Y f n; set S := \sum_k _; clearbody G P S => gn.
by rewrite !invfM invrK mulrACA mulVf ?mul1r.
Qed.
Lemma pc_ext (w w' : 'I_nN -> C) f c (t : 'I_nT) d (u : 'I_nT) : w =1 w' -> past_corr dl w (X f) c t d u = past_corr dl w' (X f) c t d u.
Proof. by move=> h; apply: eq_bigr => n _; rewrite h. Qed.
Lemma one_iter_level (Y : sig) : above_floors nT dl a eps X Y ->
  wpe_one_iter (default_weights eps (amplify a Y)) X' (delayed nT dl X') eps =
  wpe_one_iter (default_weights eps Y) X (delayed nT dl X) eps.
Proof.
move=> h; rewrite /wpe_one_iter; case: ifP => // _; apply: eq_gather => f.
have [h1 h2 [c [t [d [u [h3 h4]]]]]] := h f.
have -> : default_weights eps (amplify a Y) f = default_weights eps Y f.
  apply/rowP => n; rewrite !dwE ?ip_level // => k; by rewrite mean_power_level.
have gp : 0 < g by rewrite exprn_gt0 // normr_gt0.
have e : acm (default_weights eps Y f) (delayed nT dl X f) (mxvec_index c t) (mxvec_index d u) =
  past_corr dl (inverse_power Y f) (X f) c t d u.
  by rewrite acm_entry; apply: pc_ext => n; exact: dwE.
rewrite acm_level xcv_level slZ //.
- by rewrite mulVf ?lt0r_neq0 // rmap_id // => x; rewrite scale1r.
- by exists (mxvec_index c t), (mxvec_index d u); rewrite e.
- by exists (mxvec_index c t), (mxvec_index d u); rewrite mxE e normrM [`|g|]ger0_norm // ltW.
Qed.
Variable St : Type.
Local Notation mo := (None : option (St -> sig -> ('I_nF -> 'rV[C]_nN) * St)).
Lemma loop_level n Y m :
  (forall k Z m', (k < n)%N -> wpe_loop nT dl mo X eps k Y m = Ok (Z, m') -> above_floors nT dl a eps X Z) ->
  wpe_loop nT dl mo X' eps n (amplify a Y) m = rmap (fun r => (amplify a r.1, r.2)) (wpe_loop nT dl mo X eps n Y m).
Proof.
elim: n Y m => //= n IH Y m h.
have hY := h 0%N Y m isT erefl; rewrite one_iter_level //.
case E: (wpe_one_iter _ _ _ _) => [H|] //=; rewrite derev_level IH // => k Z m' hk ek.
by apply: (h k.+1 Z m') => //=; rewrite E.
Qed.
Lemma wpe_level n m :
  (forall k Z m', (k < n)%N -> wpe_forward nT dl mo X eps k m = Ok (Z, m') -> above_floors nT dl a eps X Z) ->
  wpe_forward nT dl mo X' eps n m = rmap (fun r => (amplify a r.1, r.2)) (wpe_forward nT dl mo X eps n m).
Proof. exact: loop_level. Qed.
End W.
