From Coq Require Import Ring Field.
From mathcomp Require Import all_ssreflect all_algebra.
From Verif Require Import CAlg Py Batch LinalgModel LinalgProofs TissModel TissSpec.
Set Implicit Arguments. Unset Strict Implicit. Unset Printing Implicit Defensive.
Import GRing.Theory Num.Theory Order.TTheory.
Local Open Scope ring_scope.
Local Open Scope py_scope.

Section Det.
Variable C : numClosedFieldType.
(* det (1 - u e) = 1 - e u *)
Lemma det_rank1 n (u : 'cV[C]_n) (e : 'rV[C]_n) :
  \det (1%:M - u *m e) = 1 - (e *m u) 0 0.
Proof.
have h1 : block_mx 1%:M u e 1%:M = block_mx 1%:M 0 e 1%:M *m block_mx 1%:M u 0 (1%:M - e *m u) :> 'M_(n+1).
  by rewrite mulmx_block !mul1mx !mulmx1 ?mul0mx ?mulmx0 ?addr0 addrC subrK.
have h2 : block_mx 1%:M u e 1%:M = block_mx (1%:M - u *m e) u 0 1%:M *m block_mx 1%:M 0 e 1%:M :> 'M_(n+1).
  by rewrite mulmx_block !mul1mx !mulmx1 ?mul0mx ?mulmx0 ?add0r subrK.
have := congr1 determinant h1; rewrite h2 !det_mulmx !det_lblock !det_ublock !det1 !mul1r !mulr1 => ->.
by rewrite det_mx11 !mxE eqxx.
Qed.
End Det.

Section P.
Variable C : numClosedFieldType.
Add Field Cfield_tiss : (f_ft C).
Ltac cring := fpre; fnorm C; fatoms; ring.
Ltac cfield := fpre; fnorm C; fatoms; field.
Ltac zmx := apply/matrixP=> ? ?; rewrite !(mxDE, mxNE); cring.
Variables (nS nB nF nT dl nN : nat).
Local Notation nC := (nS + nB)%N.
Local Notation sig := (sig C nF nN).
Local Notation filt := (filt C nF).
Local Notation taps := (taps C nT).
Local Notation tfilt := (tfilt C nF nT).
Local Notation issst := (issst C nS nB nT nN).

(* ---- the delay line *)
Lemma rowgetE m (M : 'M[C]_(m, nN)) c (k : 'I_nN) : rowget M c k = M c k.
Proof. by rewrite /rowget; case: insubP => [k' _ /val_inj->|] //; rewrite ltn_ord. Qed.

Lemma ago_is m (M : 'M[C]_(m, nN)) c n k : is_ago M c n k (ago M c n k).
Proof.
split=> [p e|lt].
  rewrite /ago (bigD1 p) ?e //= big1 ?addr0 // => q /andP [/eqP e2 ne].
  case/negP: ne; apply/eqP/val_inj => /=.
  by apply/eqP; rewrite -(eqn_add2r k) e2 e.
rewrite /ago big_pred0 // => p; apply/negbTE; rewrite neq_ltn; apply/orP; right.
by rewrite (leq_trans lt) // leq_addl.
Qed.
Lemma is_ago_fun m (M : 'M[C]_(m, nN)) c n k z : is_ago M c n k z -> z = ago M c n k.
Proof.
case=> h1 h2; have [g1 g2] := ago_is M c n k.
case: (ltnP n k) => [lt|le]; first by rewrite h2 // g2.
have lt : (n - k < nN)%N by rewrite (leq_ltn_trans (leq_subr _ _)).
by rewrite (h1 (Ordinal lt)) ?(g1 (Ordinal lt)) //= subnK.
Qed.
Lemma xpad_ago m (M : 'M[C]_(m, nN)) c (t : 'I_nT) (n : 'I_nN) :
  xpad nT dl M c (t + n) = ago M c n (nT + dl - t).
Proof.
have tl : (t <= nT + dl)%N by rewrite (leq_trans (ltnW (ltn_ord t))) // leq_addr.
apply: is_ago_fun; split=> [p e|lt]; rewrite /xpad.
  have e2 : (t + n = p + (nT + dl))%N by rewrite -e addnC -addnA subnK.
  by rewrite e2 ltnNge leq_addl /= addnK rowgetE.
by rewrite -(ltn_add2l t) subnKC // in lt; rewrite lt.
Qed.
Lemma delayedE m (X : sig m) f t c n : delayed nT dl X f t c n = ago (X f) c n (nT + dl - t).
Proof. by rewrite /delayed !ffunE mxE xpad_ago. Qed.

(* ---- the filter invariant at one frequency *)
Definition inv1 (X : 'M[C]_(nC, nN)) (Xb : taps nC nN) (st : issst) : Prop :=
  st.1.1 = st.1.2 *m X - \sum_t st.2 t *m Xb t.

Lemma row_sumM (H : taps nS nC) (Xb : taps nC nN) s :
  row s (\sum_t H t *m Xb t) = \sum_t row s (H t) *m Xb t.
Proof. by rewrite linear_sum /=; apply: eq_bigr => t _; rewrite row_mul. Qed.

Lemma step1_inv X Xb w eps st src : inv1 X Xb st -> inv1 X Xb (step1 w eps st src).
Proof.
case: st => [[Y W] H]; rewrite /inv1 /step1 /=; move: (iss1 _ _ _ _) => v e.
have -> : \sum_t [ffun t0 => H t0 - v *m row src (H t0)] t *m Xb t
   = \sum_t H t *m Xb t - v *m \sum_t row src (H t) *m Xb t.
  rewrite mulmx_sumr -sumrB; apply: eq_bigr => t _.
  by rewrite ffunE mulmxBl mulmxA.
rewrite {2}e linearB /= row_mul row_sumM mulmxBr mulmxBl -mulmxA {1}e.
zmx.
Qed.

Lemma row_mxM (A : 'M[C]_(nS, nS)) (B : 'M[C]_(nS, nB)) (X : 'M[C]_(nC, nN)) :
  row_mx A B *m X = A *m usubmx X + B *m dsubmx X.
Proof. by rewrite -{1}[X]vsubmxK mul_row_col. Qed.
Lemma step2_inv (X : 'M[C]_(nC, nN)) Xb w eps (J : 'M[C]_(nB, nS)) st bak :
  inv1 X Xb st -> inv1 X Xb (step2 w eps (J *m usubmx X - dsubmx X) J st bak).
Proof.
case: st => [[Y W] H]; rewrite /inv1 /step2 /= => ->; move: (iss23 _ _ _ _) => v.
rewrite linearB /= row_mul.
rewrite row_mxM -{1}[W]hsubmxK row_mxM.
rewrite mulmxBl mulmxDl mulmxBr -!mulmxA -rowE.
zmx.
Qed.

Lemma step3_inv X Xb w eps st ct : inv1 X Xb st -> inv1 X Xb (step3 w eps Xb st ct).
Proof.
case: st ct => [[Y W] H] [src tap]; rewrite /inv1 /step3 /= => ->; move: (iss23 _ _ _ _) => v.
rewrite [in RHS](bigD1 tap) //= ffunE eqxx mulmxDl -mulmxA -rowE.
rewrite [in LHS](bigD1 tap) //=.
have -> : \sum_(t | t != tap) [ffun t0 => if t0 == tap then H t0 + v *m delta_mx 0 src else H t0] t *m Xb t
   = \sum_(t | t != tap) H t *m Xb t.
  by apply: eq_bigr => t /negbTE ne; rewrite ffunE ne.
zmx.
Qed.

Lemma foldl_inv A B (P : A -> Prop) (g : A -> B -> A) : (forall x b, P x -> P (g x b)) ->
  forall l x, P x -> P (foldl g x l).
Proof. by move=> h; elim=> //= b l IH x px; apply: IH; apply: h. Qed.

Lemma iss_updates_inv (X : 'M[C]_(nC, nN)) Xb w eps (J : 'M[C]_(nB, nS)) st :
  inv1 X Xb st -> inv1 X Xb (iss_updates w eps (J *m usubmx X - dsubmx X) J Xb st).
Proof.
move=> h; rewrite /iss_updates.
apply: foldl_inv => [x b|]; first exact: step3_inv.
apply: foldl_inv => [x b|]; first exact: step2_inv.
apply: foldl_inv => [x b|//]; exact: step1_inv.
Qed.

(* ---- row scaling *)
Definition rscale m n (d : 'I_m -> C) (A : 'M[C]_(m, n)) : 'M[C]_(m, n) := \matrix_(i, j) (A i j / d i).
Lemma rscaleM m n p (d : 'I_m -> C) (A : 'M[C]_(m, n)) (B : 'M[C]_(n, p)) :
  rscale d A *m B = rscale d (A *m B).
Proof.
apply/matrixP=> i j; rewrite !mxE mulr_suml; apply: eq_bigr => k _; by rewrite mxE mulrAC.
Qed.
Lemma rscaleB m n (d : 'I_m -> C) (A B : 'M[C]_(m, n)) : rscale d (A - B) = rscale d A - rscale d B.
Proof. by apply/matrixP=> i j; rewrite !mxE mulrBl. Qed.
Lemma rscale_sum m n (I : finType) (d : 'I_m -> C) (F : I -> 'M[C]_(m, n)) :
  rscale d (\sum_i F i) = \sum_i rscale d (F i).
Proof.
apply/matrixP=> i j; rewrite !mxE summxE mulr_suml summxE; apply: eq_bigr => k _; by rewrite mxE.
Qed.
Lemma rscaleE m n (d : 'I_m -> C) (A : 'M[C]_(m, n)) :
  rscale d A = diag_mx (\row_i (d i)^-1) *m A.
Proof. by rewrite mul_diag_mx; apply/matrixP=> i j; rewrite !mxE mulrC. Qed.

(* ---- one iteration and the loop *)
Variable St : Type.
Variable model : St -> sig nS -> sig nS * St.
Variables (X : sig nC) (eps : C).
Local Notation Xb := (Xb nT dl X).
Local Notation st := (@st C nS nB nF nT nN St).
Definition invS (x : st) : Prop := forall f, inv1 (X f) (Xb f) (stY x f, stW x f, stH x f).

Lemma demix_derevE (W : filt nS nC) (H : tfilt nS nC) f :
  demix_derev X Xb W H f = W f *m X f - \sum_t H f t *m Xb f t.
Proof.
rewrite /demix_derev ffunE; apply/matrixP=> s n; rewrite !mxE summxE; congr (_ - _).
rewrite exchange_big; apply: eq_bigr => t _; by rewrite mxE.
Qed.

Lemma one_iter_inv x y : invS x -> one_iter dl model X eps x = Ok y -> invS y.
Proof.
case: x => Y W H J m; rewrite /one_iter; case: (model m Y) => weights m' h.
case: (if _ then _ else _) => [J1|//] /=; case: ifP => // _ [<-] f /=.
rewrite !ffunE -!surjective_pairing.
apply: iss_updates_inv; rewrite /inv1 /=.
set d := fun s => clamp (sqrtC (gain eps Y s)) eps.
have -> : \matrix_(s, n) divide (Y f s n) (sqrtC (gain eps Y s)) eps = rscale d (Y f) by [].
have -> : \matrix_(s, c) divide (W f s c) (sqrtC (gain eps Y s)) eps = rscale d (W f) by [].
have hf : Y f = W f *m X f - \sum_t H f t *m Xb f t by exact: (h f).
rewrite [in LHS]hf rscaleB rscale_sum rscaleM; congr (_ - _).
by apply: eq_bigr => t _; rewrite !ffunE -rscaleM; congr (_ *m _); apply/matrixP=> i j; rewrite !mxE.
Qed.

Lemma iterate_inv (P : st -> Prop) body : (forall x y, P x -> body x = Ok y -> P y) ->
  forall n x y, P x -> iterate body n x = Ok y -> P y.
Proof.
move=> h; elim=> [|n IH] x y px /=; first by case=> <-.
case E: (body x) => [z|//] /=; apply: IH; exact: h E.
Qed.

Lemma init_inv m0 x : init nT dl X eps m0 = Ok x -> invS x.
Proof.
rewrite /init; case: (if _ then _ else _) => [J|//] [<-] f.
by rewrite /inv1 /= demix_derevE.
Qed.

Lemma invS_filter x : invS x ->
  filter_output dl X (stW x) (fun f => stH x f) (stY x).
Proof.
move=> h f s n; move: (h f); rewrite /inv1 /= => ->.
rewrite !mxE summxE; congr (_ - _); rewrite exchange_big; apply: eq_bigr => t _.
by rewrite mxE; apply: eq_bigr => c _; rewrite -delayedE.
Qed.
Lemma filter_invS x : filter_output dl X (stW x) (fun f => stH x f) (stY x) -> invS x.
Proof.
move=> h f; rewrite /inv1 /=; apply/matrixP=> s n; rewrite h.
rewrite !mxE summxE; congr (_ - _); rewrite exchange_big; apply: eq_bigr => t _.
by rewrite mxE; apply: eq_bigr => c _; rewrite -delayedE.
Qed.
Lemma inv_demix x : invS x -> stY x = demix_derev X Xb (stW x) (stH x).
Proof. by move=> h; apply/ffunP => f; rewrite demix_derevE; exact: (h f). Qed.

(* ---- DMC *)
Definition sim (x y : st) : Prop :=
  [/\ stW x = stW y, stH x = stH y, stJ x = stJ y & stM x = stM y].
Lemma iterateS (body : st -> result st) n x :
  iterate body n.+1 x = let* y := body x in iterate body n y.
Proof. by []. Qed.
Lemma one_iter_dmcE Y W H J m : one_iter_dmc dl model X eps (mkst Y W H J m)
  = let* x' := one_iter dl model X eps (mkst (demix_derev X Xb W H) W H J m) in
    Ok (mkst Y (stW x') (stH x') (stJ x') (stM x')).
Proof. by []. Qed.
Lemma iterate_dmc n : forall x y, invS x -> sim y x ->
  match iterate (one_iter dl model X eps) n x, iterate (one_iter_dmc dl model X eps) n y with
  | Ok x', Ok y' => invS x' /\ sim y' x'
  | Err e, Err e' => e = e'
  | _, _ => False
  end.
Proof.
elim: n => [|n IH] x y hx hs; first by [].
rewrite !iterateS.
case: y hs => Yy Wy Hy Jy My hs; rewrite one_iter_dmcE.
have eW : Wy = stW x by case: hs.
have eH : Hy = stH x by case: hs.
have eJ : Jy = stJ x by case: hs.
have eM : My = stM x by case: hs.
have -> : mkst (demix_derev X Xb Wy Hy) Wy Hy Jy My = x.
  by rewrite eW eH eJ eM; case: x hx {hs eW eH eJ eM} => Y W H J m hx; rewrite -(inv_demix hx).
case E: (one_iter dl model X eps x) => [x'|//] /=.
by apply: IH; [exact: one_iter_inv E|].
Qed.
Lemma forward_raw_dmc n m0 :
  forward_raw nT dl model X eps n true m0 = forward_raw nT dl model X eps n false m0.
Proof.
rewrite /forward_raw; case E: (init _ _ _ _ _) => [x0|//] /=.
have := @iterate_dmc n x0 x0 (init_inv E); case: (iterate _ n x0) => [x|e]; last first.
  by case: (iterate _ n x0) => [y|e'] h; [case: h|rewrite /= h].
case: (iterate _ n x0) => [y|e'] h; last by case: h.
have [] := h => // hx [eW eH eJ eM] /=.
by rewrite eW eH eJ eM -(inv_demix hx); case: (x).
Qed.
Lemma forward_dmc n pb m0 :
  forward nT dl model X eps n true pb m0 = forward nT dl model X eps n false pb m0.
Proof. by rewrite /forward forward_raw_dmc. Qed.
End P.
