From Coq Require Import Ring Field.
From mathcomp Require Import all_ssreflect all_algebra.
From Verif Require Import CAlg Py Batch LinalgModel LinalgSpec LinalgProofs LinalgBridge TissModel TissSpec TissProofs.
Set Implicit Arguments. Unset Strict Implicit. Unset Printing Implicit Defensive.
Import GRing.Theory Num.Theory Order.TTheory.
Local Open Scope ring_scope.
Local Open Scope py_scope.

Section Energy.
Variable C : numClosedFieldType.
Add Field Cfield_tiss2 : (f_ft C).
Ltac cring := fpre; fnorm C; fatoms; ring.
Ltac cfield := fpre; fnorm C; fatoms; field.
Variable nN : nat.
Implicit Types (w y z : 'I_nN -> C) (u : C).

Lemma wenergyE w y z u : (forall n, 0 <= w n) ->
  wenergy w y z u = wpower w y - u^* * wcorr w y z - u * (wcorr w y z)^* + `|u| ^+ 2 * wpower w z.
Proof.
move=> w0; rewrite /wenergy /wpower /wcorr rmorph_sum !mulr_sumr -!sumrB -big_split /=.
apply: eq_bigr => n _; rewrite !rmorphM /= conjCK (conj_Creal (ger0_real (w0 n))).
rewrite !normCK rmorphB rmorphM; cring.
Qed.
Lemma wpower_ge0 w z : (forall n, 0 <= w n) -> 0 <= wpower w z.
Proof. by move=> w0; apply: sumr_ge0 => n _; rewrite mulr_ge0 // exprn_ge0. Qed.

Lemma wenergy_opt w y z u : (forall n, 0 <= w n) -> 0 < wpower w z ->
  wenergy w y z u = wenergy w y z (wcorr w y z / wpower w z)
    + wpower w z * `|u - wcorr w y z / wpower w z| ^+ 2.
Proof.
move=> w0 p0; rewrite !wenergyE //; set c := wcorr w y z; set p := wpower w z in p0 *.
have rp : p^* = p by rewrite conj_Creal // gtr0_real.
have pn : p != 0 by rewrite gt_eqF.
rewrite !normCK !rmorphB !rmorphM fmorphV rp /= .
cfield; exact/eqP.
Qed.
Lemma wenergy_min w y z u : (forall n, 0 <= w n) -> 0 < wpower w z ->
  wenergy w y z (wcorr w y z / wpower w z) <= wenergy w y z u.
Proof.
move=> w0 p0; rewrite (wenergy_opt y u w0 p0) ler_addl mulr_ge0 ?exprn_ge0 //; exact: ltW.
Qed.
(* any denominator at least the power of z still decreases the energy *)
Lemma wenergy_dec w y z d : (forall n, 0 <= w n) -> 0 < d -> wpower w z <= d ->
  wenergy w y z (wcorr w y z / d) <= wpower w y.
Proof.
move=> w0 d0 le; rewrite wenergyE //; set c := wcorr w y z; set p := wpower w z in le *.
have rd : d^* = d by rewrite conj_Creal // gtr0_real.
have dn : d != 0 by rewrite gt_eqF.
have -> : wpower w y - (c / d)^* * c - c / d * c^* + `|c / d| ^+ 2 * p
  = wpower w y - (`|c| ^+ 2 * ((d + (d - p)) / d ^+ 2)).
  by rewrite !normCK !rmorphM fmorphV rd /=; cfield; exact/eqP.
rewrite ler_subl_addr ler_addl mulr_ge0 ?exprn_ge0 // divr_ge0 ?exprn_ge0 ?(ltW d0) //.
by rewrite addr_ge0 ?(ltW d0) // subr_ge0.
Qed.
Lemma wcorr_resid w y z : 0 < wpower w z ->
  wcorr w (fun n => y n - wcorr w y z / wpower w z * z n) z = 0.
Proof.
move=> p0; have pn : wpower w z != 0 by rewrite gt_eqF.
have h v : wcorr w (fun n => y n - v * z n) z = wcorr w y z - v * wpower w z.
  rewrite /wpower /wcorr mulr_sumr -sumrB; apply: eq_bigr => n _; rewrite normCK; cring.
rewrite h.
by rewrite divfK // subrr.
Qed.
End Energy.

Section P.
Variable C : numClosedFieldType.
Add Field Cfield_tiss3 : (f_ft C).
Ltac cring := fpre; fnorm C; fatoms; ring.
Ltac cfield := fpre; fnorm C; fatoms; field.
Ltac zmx := apply/matrixP=> ? ?; rewrite !(mxDE, mxNE); cring.
Variables (nS nB nF nT dl nN : nat).
Local Notation nC := (nS + nB)%N.
Local Notation sig := (sig C nF nN).
Local Notation filt := (filt C nF).
Local Notation taps := (taps C nT).
Local Notation tfilt := (tfilt C nF nT).
Local Notation issst := (issst C nS nB nT nN).

(* ---- coefficients in spec vocabulary *)
Lemma mulN_gt0 : (0 < nN)%N -> 0 < nN%:R :> C.
Proof. by rewrite ltr0n. Qed.

Lemma iss1_src src (Y w : 'M[C]_(nS, nN)) eps :
  iss1 src Y w eps src 0 = 1 - 1 / sqrtC (clamp (wpower (w src) (Y src) / nN%:R) eps).
Proof.
rewrite mxE eqxx; congr (1 - 1 / sqrtC (clamp _ _)).
by rewrite div1r; congr (_ / _); apply: eq_bigr => n _; rewrite mag_sqE.
Qed.
Lemma iss1_other src c (Y w : 'M[C]_(nS, nN)) eps : c != src ->
  iss1 src Y w eps c 0 = wcorr (w c) (Y c) (Y src) / nN%:R / clamp (wpower (w c) (Y src) / nN%:R) eps.
Proof.
move=> /negbTE ne; rewrite mxE ne /divide div1r; congr (_ / clamp (_ / _) _).
by apply: eq_bigr => n _; rewrite mag_sqE.
Qed.
Lemma iss23E c (Y w : 'M[C]_(nS, nN)) (z : 'rV[C]_nN) eps :
  iss23 Y w z eps c 0 = wcorr (w c) (Y c) (z 0) / clamp (wpower (w c) (z 0)) eps.
Proof.
rewrite mxE /divide; congr (_ / clamp _ _); by apply: eq_bigr => n _; rewrite mag_sqE.
Qed.
Lemma outer_entry m n (v : 'cV[C]_m) (r : 'rV[C]_n) i j : (v *m r) i j = v i 0 * r 0 j.
Proof. by rewrite mxE big_ord1. Qed.

(* ---- determinants *)
Lemma full_step1 (W : 'M[C]_(nS, nC)) J (v : 'cV[C]_nS) src :
  full_demix (W - v *m row src W) J
  = (1%:M - col_mx v 0 *m delta_mx 0 (lshift nB src)) *m full_demix W J.
Proof.
rewrite mulmxBl mul1mx -mulmxA -rowE /full_demix.
have -> : row (lshift nB src) (col_mx W (row_mx J (- 1%:M))) = row src W by rewrite rowKu.
by rewrite mul_col_mx mul0mx opp_col_mx oppr0 add_col_mx addr0.
Qed.
Lemma full_step2 (W : 'M[C]_(nS, nC)) J (v : 'cV[C]_nS) bak :
  full_demix (row_mx (lsubmx W - v *m row bak J) (rsubmx W + v *m delta_mx 0 bak)) J
  = (1%:M - col_mx v 0 *m delta_mx 0 (rshift nS bak)) *m full_demix W J.
Proof.
rewrite mulmxBl mul1mx -mulmxA -rowE /full_demix.
have -> : row (rshift nS bak) (col_mx W (row_mx J (- 1%:M))) = row_mx (row bak J) (- delta_mx 0 bak).
  rewrite rowKd row_row_mx; congr (row_mx _ _); rewrite linearN /=; congr (- _).
  by rewrite rowE mulmx1.
rewrite mul_col_mx mul0mx opp_col_mx oppr0 add_col_mx addr0; congr (col_mx _ _).
by rewrite mul_mx_row opp_row_mx -{3}[W]hsubmxK add_row_mx mulmxN opprK.
Qed.

Lemma det_step1 (W : 'M[C]_(nS, nC)) J (v : 'cV[C]_nS) src :
  \det (full_demix (W - v *m row src W) J) = (1 - v src 0) * \det (full_demix W J).
Proof.
rewrite full_step1 det_mulmx det_rank1 -rowE; congr ((1 - _) * _).
by rewrite mxE col_mxEu.
Qed.
Lemma det_step2 (W : 'M[C]_(nS, nC)) J (v : 'cV[C]_nS) bak :
  \det (full_demix (row_mx (lsubmx W - v *m row bak J) (rsubmx W + v *m delta_mx 0 bak)) J)
  = \det (full_demix W J).
Proof.
rewrite full_step2 det_mulmx det_rank1 -rowE mxE col_mxEd mxE.
by rewrite subr0 mul1r.
Qed.

Lemma sqrt_clamp_gt0 (x eps : C) : x \is Num.real -> 0 < eps -> 0 < sqrtC (clamp x eps).
Proof. by move=> rx e0; rewrite sqrtC_gt0 clamp_gt0. Qed.
Lemma realN : (nN%:R : C) \is Num.real. Proof. exact: realn. Qed.
Lemma wpower_real (w z : 'I_nN -> C) : (forall n, w n \is Num.real) -> wpower w z \is Num.real.
Proof.
move=> h; apply: rpred_sum => n _; apply: realM; first exact: h.
by rewrite realX // normr_real.
Qed.

Lemma det_step1_factor w eps (Y : 'M[C]_(nS, nN)) (W : 'M[C]_(nS, nC)) (H : taps nS nC) J src :
  let: (Y', W', H') := step1 w eps (Y, W, H) src in
  \det (full_demix W' J)
  = \det (full_demix W J) / sqrtC (clamp (wpower (w src) (Y src) / nN%:R) eps).
Proof. by rewrite /step1 det_step1 iss1_src opprB addrCA subrr addr0 div1r mulrC. Qed.

Lemma step1_det (w : 'M[C]_(nS, nN)) eps J (st : issst) src :
  (forall s n, w s n \is Num.real) -> 0 < eps ->
  exists k, 0 < k /\ \det (full_demix (step1 w eps st src).1.2 J) = k * \det (full_demix st.1.2 J).
Proof.
case: st => [[Y W] H] hw e0 /=.
exists (1 / sqrtC (clamp (wpower (w src) (Y src) / nN%:R) eps)); split.
  rewrite divr_gt0 ?ltr01 // sqrt_clamp_gt0 // realM ?realV ?realN //; exact: wpower_real.
by rewrite det_step1 iss1_src opprB addrCA subrr addr0.
Qed.
Lemma foldl_factor (A B : Type) (g : A -> B -> A) (D : A -> C) :
  (forall x b, exists k, 0 < k /\ D (g x b) = k * D x) ->
  forall l x, exists k, 0 < k /\ D (foldl g x l) = k * D x.
Proof.
move=> h; elim=> [|b l IH] x /=; first by exists 1; rewrite ltr01 mul1r.
have [k [k0 ->]] := IH (g x b); have [k' [k'0 ->]] := h x b.
by exists (k * k'); rewrite mulr_gt0 // mulrA.
Qed.
Lemma iss_updates_det (w : 'M[C]_(nS, nN)) eps Z J Xb (st : issst) :
  (forall s n, w s n \is Num.real) -> 0 < eps ->
  exists k, 0 < k /\ \det (full_demix (iss_updates w eps Z J Xb st).1.2 J)
    = k * \det (full_demix st.1.2 J).
Proof.
move=> hw e0; rewrite /iss_updates.
have [k1 [k10 e1]] := foldl_factor (D := fun st : issst => \det (full_demix st.1.2 J))
   (fun st src => step1_det J st src hw e0) (enum 'I_nS) st.
rewrite /= in e1.
set st1 := foldl (step1 w eps) st (enum 'I_nS) in e1 *.
have e2 : \det (full_demix (foldl (step2 w eps Z J) st1 (enum 'I_nB)).1.2 J) = \det (full_demix st1.1.2 J).
  elim: (enum 'I_nB) st1 {e1} => //= b l IH st1; rewrite IH.
  by case: st1 => [[Y W] H]; rewrite det_step2.
set st2 := foldl (step2 _ _ _ _) _ _ in e2 *.
have e3 l : (foldl (step3 w eps Xb) st2 l).1.2 = st2.1.2.
  by elim: l st2 {e2} => //= ct l IH [[Y W] H]; rewrite IH; case: ct.
by exists k1; rewrite e3 e2 e1.
Qed.

Lemma full_rscale (d : 'I_nS -> C) (W : 'M[C]_(nS, nC)) J : (forall s, 0 < d s) ->
  exists k, 0 < k /\ \det (full_demix (rscale d W) J) = k * \det (full_demix W J).
Proof.
move=> d0; exists (\prod_s (d s)^-1); split.
  by apply: prodr_gt0 => s _; rewrite invr_gt0.
have -> : full_demix (rscale d W) J = block_mx (diag_mx (\row_i (d i)^-1)) 0 0 1%:M *m full_demix W J.
  by rewrite /full_demix mul_block_col !mul0mx mul1mx addr0 add0r rscaleE.
by rewrite det_mulmx det_ublock det1 mulr1 det_diag; congr (_ * _); apply: eq_bigr => s _; rewrite mxE.
Qed.

Lemma gain_gt0 (Y : sig nS) eps s : 0 < eps -> 0 < gain eps Y s.
Proof.
move=> e0; rewrite /gain clamp_gt0 // realM ?realV ?realn //.
apply: rpred_sum => f _; apply: rpred_sum => n _; rewrite mag_sqE realX // normr_real.
Qed.
Lemma gain_den_gt0 (Y : sig nS) eps s : 0 < eps -> 0 < clamp (sqrtC (gain eps Y s)) eps.
Proof.
by move=> e0; rewrite clamp_gt0 // gtr0_real // sqrtC_gt0 gain_gt0.
Qed.

(* ---- background update succeeds *)
Lemma background_update_ok (W : filt nS nC) (H : tfilt nS nC) (X : sig nC) Xb eps : 0 < eps ->
  exists J, background_update W H X Xb eps = Ok J /\
    forall f, background_f (W f) (H f) (C_XX X f) (C_XbarX X Xb f) eps = Ok (J f).
Proof.
move=> e0; case E: (background_update W H X Xb eps) => [J|e].
  by exists J; split=> //; exact: gather_inv E.
have h f : is_ok (background_f (W f) (H f) (C_XX X f) (C_XbarX X Xb f) eps).
  by rewrite /background_f slg_ok.
by move: (gather_total 0 h); rewrite -/(background_update W H X Xb eps) E.
Qed.

(* ---- the loop *)
Variable St : Type.
Variable model : St -> sig nS -> sig nS * St.
Variables (X : sig nC) (eps : C).
Local Notation Xb := (Xb nT dl X).
Local Notation st := (@st C nS nB nF nT nN St).
Hypothesis e0 : 0 < eps.
Hypothesis nN0 : (0 < nN)%N.

Lemma eps_bg_gt0 : 0 < eps_bg C.
Proof. by rewrite /eps_bg invr_gt0 exprn_gt0 // ltr0n. Qed.

Lemma one_iter_ok (x : st) : exists y, one_iter dl model X eps x = Ok y.
Proof.
case: x => Y W H J m; rewrite /one_iter; case: (model m Y) => weights m'.
rewrite (gtn_eqF nN0) /=; case: ifP => _ /=; last by eexists.
match goal with |- context [background_update ?W ?H ?X ?Xb ?e] =>
  case: (background_update_ok W H X Xb eps_bg_gt0) => J1 [-> _] /= end; by eexists.
Qed.
Lemma iterate_ok n (x : st) : exists y, iterate (one_iter dl model X eps) n x = Ok y.
Proof.
elim: n x => [|n IH] x; first by exists x.
by rewrite iterateS; have [y ->] := one_iter_ok x; apply: IH.
Qed.
Lemma init_ok (m0 : St) : exists x, init nT dl X eps m0 = Ok x.
Proof.
rewrite /init; case: ifP => _ /=; last by eexists.
match goal with |- context [background_update ?W ?H ?X ?Xb ?e] =>
  case: (background_update_ok W H X Xb e0) => J1 [-> _] /= end; by eexists.
Qed.
Lemma forward_raw_ok n dmc m0 : exists x, forward_raw nT dl model X eps n dmc m0 = Ok x.
Proof.
suff [x h] : exists x, forward_raw nT dl model X eps n false m0 = Ok x.
  by exists x; case: dmc => //; rewrite forward_raw_dmc.
rewrite /forward_raw; have [x0 ->] := init_ok m0; exact: iterate_ok.
Qed.
Lemma c5_gt0 : 0 < c5 C. Proof. by rewrite /c5 invr_gt0 exprn_gt0 // ltr0n. Qed.
Lemma pb_f_ok Wf Jf (ref : 'I_nC) : is_ok (pb_f (C := C) Wf Jf ref).
Proof. by rewrite /pb_f; case: ifP => _; rewrite slg_ok ?c5_gt0. Qed.
Lemma forward_ok n dmc pb m0 : exists r, forward nT dl model X eps n dmc pb m0 = Ok r.
Proof.
rewrite /forward; have [x ->] := forward_raw_ok n dmc m0; rewrite /=.
case: pb => [ref|]; last by eexists.
case: ifP => _; last by eexists.
have := @gather_total _ _ 0 (fun f => pb_f (stW x f) (stJ x f) ref) (fun f => pb_f_ok _ _ _).
by case: (gather _ _) => //= a _; eexists.
Qed.
End P.

Section Determined.
Variable C : numClosedFieldType.
Variables (nS nF nT dl nN : nat).
Variable St : Type.
Variable model : St -> sig C nF nN nS -> sig C nF nN nS * St.
Variables (X : sig C nF nN (nS + 0)) (eps : C).

Lemma det_full0 (W : 'M[C]_(nS, nS + 0)) J : \det (full_demix W J) = \det (lsubmx W).
Proof.
rewrite /full_demix -{1}[W]hsubmxK [rsubmx W]thinmx0.
by rewrite -/(block_mx _ _ _ _) det_lblock [X in _ * X]det_mx00 mulr1.
Qed.
Hypothesis e0 : 0 < eps.
Hypothesis wr : forall m Y f s n, (model m Y).1 f s n \is Num.real.

Lemma one_iter_det0 x y f : one_iter dl model X eps x = Ok y ->
  exists k, 0 < k /\ \det (lsubmx (stW y f)) = k * \det (lsubmx (stW (nT := nT) x f)).
Proof.
case: x => Y W H J m; rewrite /one_iter; case E: (model m Y) => [weights m'] /=.
case: ifP => // _ [<-] /=; rewrite -!(det_full0 _ (J f)) !ffunE.
have hw s n : (\matrix_(s, n) (weights f s n * gain eps Y s)) s n \is Num.real.
  rewrite mxE realM //; last by rewrite gtr0_real // gain_gt0.
  by have := wr m Y f s n; rewrite E.
match goal with |- context [iss_updates ?w _ ?Z ?J ?xb ?st] =>
  have [k1 [k10 ->]] := iss_updates_det Z J xb st hw e0 end.
have -> : \matrix_(s, c) divide (W f s c) (sqrtC (gain eps Y s)) eps
   = rscale (fun s => clamp (sqrtC (gain eps Y s)) eps) (W f) by [].
have [k2 [k20 /= ->]] := full_rscale (W f) (J f) (fun s => gain_den_gt0 Y s e0).
by exists (k1 * k2); rewrite mulr_gt0 // mulrA.
Qed.
Lemma iterate_det0 n x y f : iterate (one_iter dl model X eps) n x = Ok y ->
  exists k, 0 < k /\ \det (lsubmx (stW y f)) = k * \det (lsubmx (stW (nT := nT) x f)).
Proof.
elim: n x => [|n IH] x /=; first by case=> <-; exists 1; rewrite ltr01 mul1r.
case E: (one_iter _ _ _ _ _) => [z|//] /= /IH [k [k0 ->]].
have [k' [k'0 ->]] := one_iter_det0 f E.
by exists (k * k'); rewrite mulr_gt0 // mulrA.
Qed.
Lemma forward_raw_det0 n dmc m0 x f : forward_raw nT dl model X eps n dmc m0 = Ok x ->
  0 < \det (lsubmx (stW x f)).
Proof.
have -> : forward_raw nT dl model X eps n dmc m0 = forward_raw nT dl model X eps n false m0.
  by case: dmc => //; rewrite forward_raw_dmc.
rewrite /forward_raw; case E: (init _ _ _ _ _) => [x0|//] /(iterate_det0 f) [k [k0 ->]].
move: E; rewrite /init /= => -[<-] /=.
by rewrite /eyeW ffunE row_mxKl det1 mulr1.
Qed.
Lemma forward_det0 n dmc pb m0 Y W J m f : forward nT dl model X eps n dmc pb m0 = Ok (Y, W, J, m) ->
  0 < \det (lsubmx (W f)).
Proof.
rewrite /forward; case E: (forward_raw _ _ _ _ _ _ _ _) => [x|//] /=.
have h := forward_raw_det0 f E.
case: pb => [ref|]; last by case=> _ <-.
case: ifP => _; last by case=> _ <-.
by case: (gather _ _) => //= a [_ <-].
Qed.
End Determined.
