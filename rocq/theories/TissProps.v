(* Properties C07, C15-C18 and C20-C22 (torchiva/t_iss.py).
   X is the input spectrogram (n_src + n_bg channels), model any stateful source
   model, nT taps, dl delay; stW, stH, stJ, stY are the demixing matrix,
   dereverberation filter, background filter and source estimates. *)
From mathcomp Require Import all_ssreflect all_algebra.
From Verif Require Import CAlg Py LinalgModel LinalgSpec TissModel TissSpec.
From Verif Require Import TissProofs TissProofs2 TissBridge TissBridge2.
Set Implicit Arguments. Unset Strict Implicit. Unset Printing Implicit Defensive.
Import GRing.Theory Num.Theory Order.TTheory.
Local Open Scope ring_scope.

(* ------------------------------------------------------------------- C07 *)
(* output frame n only depends on input frames up to n *)
Theorem c07_causal (C : numClosedFieldType) nS nB nF nT dl nN
    (X X' : sig C nF nN (nS + nB)) (W : filt C nF nS (nS + nB)) (H : tfilt C nF nT nS (nS + nB))
    f s (n : 'I_nN) :
  (forall c (p : 'I_nN), (p <= n)%N -> X f c p = X' f c p) ->
  demix_derev X (delayed nT dl X) W H f s n = demix_derev X' (delayed nT dl X') W H f s n.
Proof. exact: causal. Qed.
Print Assumptions c07_causal.
(* the subtracted part only depends on input frames before n - n_delay *)
Theorem c07_reverb_uses_old_frames (C : numClosedFieldType) nS nB nF nT dl nN
    (X X' : sig C nF nN (nS + nB)) (W : filt C nF nS (nS + nB)) (H : tfilt C nF nT nS (nS + nB))
    f s (n : 'I_nN) :
  (forall c (p : 'I_nN), (p + dl < n)%N -> X f c p = X' f c p) ->
  demix_derev X (delayed nT dl X) W H f s n - \sum_c W f s c * X f c n
  = demix_derev X' (delayed nT dl X') W H f s n - \sum_c W f s c * X' f c n.
Proof. exact: no_direct. Qed.
Print Assumptions c07_reverb_uses_old_frames.
(* and those frames do matter: with one tap, no delay, frame 1 sees frame 0 *)
Example c07_example (C : numClosedFieldType) : wXb C 0 0 (lshift 1 0) 1 = 1.
Proof. exact: wXb0. Qed.

(* ------------------------------------------------------------------- C15 *)
Theorem c15_filter_output (C : numClosedFieldType) nS nB nF nT dl nN (St : Type)
    (model : St -> sig C nF nN nS -> sig C nF nN nS * St) (X : sig C nF nN (nS + nB))
    (eps : C) n_iter use_dmc m0 :
  0 < eps -> (0 < nN)%N ->
  exists x, forward_raw nT dl model X eps n_iter use_dmc m0 = Ok x /\
    filter_output dl X (stW x) (fun f => stH x f) (stY x).
Proof.
move=> e0 n0; have [x hx] := forward_raw_ok nT dl model X e0 n0 n_iter use_dmc m0.
exists x; split=> //; exact: c15_lemma hx.
Qed.
Print Assumptions c15_filter_output.
(* without projection back the returned signals are these source estimates and
   the returned W, J the matrices of the loop *)
Theorem c15_returned (C : numClosedFieldType) nS nB nF nT dl nN (St : Type)
    (model : St -> sig C nF nN nS -> sig C nF nN nS * St) (X : sig C nF nN (nS + nB))
    (eps : C) n_iter use_dmc m0 :
  0 < eps -> (0 < nN)%N ->
  exists Y W J m (H : 'I_nF -> 'I_nT -> 'M[C]_(nS, nS + nB)),
    forward nT dl model X eps n_iter use_dmc None m0 = Ok (Y, W, J, m) /\
    filter_output dl X W H Y.
Proof.
move=> e0 n0; have [x [hx h]] := c15_filter_output nT dl model X n_iter use_dmc m0 e0 n0.
by exists (stY x), (stW x), (stJ x), (stM x), (fun f => stH x f); rewrite /forward hx.
Qed.
Print Assumptions c15_returned.

(* ------------------------------------------------------------------- C16 *)
Theorem c16_dmc (C : numClosedFieldType) nS nB nF nT dl nN (St : Type)
    (model : St -> sig C nF nN nS -> sig C nF nN nS * St) (X : sig C nF nN (nS + nB))
    (eps : C) n_iter proj_back m0 :
  forward nT dl model X eps n_iter true proj_back m0
  = forward nT dl model X eps n_iter false proj_back m0.
Proof. exact: forward_dmc. Qed.
Print Assumptions c16_dmc.

(* ------------------------------------------------------------------- C17 *)
(* determined case, real-valued source model: det W stays a positive real *)
Theorem c17_never_singular (C : numClosedFieldType) nS nF nT dl nN (St : Type)
    (model : St -> sig C nF nN nS -> sig C nF nN nS * St) (X : sig C nF nN (nS + 0))
    (eps : C) n_iter use_dmc proj_back m0 f :
  0 < eps -> (0 < nN)%N -> (forall m Y f s n, (model m Y).1 f s n \is Num.real) ->
  exists Y W J m, forward nT dl model X eps n_iter use_dmc proj_back m0 = Ok (Y, W, J, m) /\
    0 < \det (lsubmx (W f)).
Proof.
move=> e0 n0 hr; have [[[[Y W] J] m] h] := forward_ok nT dl model X e0 n0 n_iter use_dmc proj_back m0.
exists Y, W, J, m; split=> //; exact: forward_det0 h.
Qed.
Print Assumptions c17_never_singular.
(* each source update divides det [W; J, -I] by sqrt (max (variance, eps)) *)
Theorem c17_update_factor (C : numClosedFieldType) nS nB nT nN (w Y : 'M[C]_(nS, nN))
    (W : 'M[C]_(nS, nS + nB)) (H : taps C nT nS (nS + nB)) (J : 'M[C]_(nB, nS)) eps src :
  let: (Y', W', H') := step1 w eps (Y, W, H) src in
  \det (full_demix W' J)
  = \det (full_demix W J) / sqrtC (clamp (wpower (w src) (Y src) / nN%:R) eps).
Proof. exact: (det_step1_factor w eps Y W H J src). Qed.
Print Assumptions c17_update_factor.
(* a constant source model meets the hypothesis *)
Example c17_example (C : numClosedFieldType) nS nF nN :
  forall (m : unit) (Y : sig C nF nN nS) f s n,
  ((fun m Y => ([ffun f => const_mx 1], tt)) m Y : sig C nF nN nS * unit).1 f s n \is Num.real.
Proof. by move=> m Y f s n; rewrite ffunE mxE real1. Qed.

(* ------------------------------------------------------------------- C18 *)
(* update of the other sources by source src *)
Theorem c18_source_update (C : numClosedFieldType) nS nB nT nN (w Y : 'M[C]_(nS, nN))
    (W : 'M[C]_(nS, nS + nB)) (H : taps C nT nS (nS + nB)) eps (src c : 'I_nS) :
  (0 < nN)%N -> 0 < eps -> c != src -> (forall n, 0 <= w c n) ->
  let Y' := (step1 w eps (Y, W, H) src).1.1 in
  [/\ wpower (w c) (Y' c) <= wpower (w c) (Y c),
      (eps <= wpower (w c) (Y src) / nN%:R -> wcorr (w c) (Y' c) (Y src) = 0)
    & (eps <= wpower (w c) (Y src) / nN%:R ->
       forall u, wpower (w c) (Y' c) <= wenergy (w c) (Y c) (Y src) u)].
Proof. exact: step1_other. Qed.
Print Assumptions c18_source_update.
(* the source's own update *)
Theorem c18_own_update (C : numClosedFieldType) nS nB nT nN (w Y : 'M[C]_(nS, nN))
    (W : 'M[C]_(nS, nS + nB)) (H : taps C nT nS (nS + nB)) eps (src : 'I_nS) :
  (0 < nN)%N -> 0 < eps -> eps <= wpower (w src) (Y src) / nN%:R ->
  let Y' := (step1 w eps (Y, W, H) src).1.1 in wpower (w src) (Y' src) / nN%:R = 1.
Proof. exact: step1_self. Qed.
Print Assumptions c18_own_update.
(* update by a background signal *)
Theorem c18_background_update (C : numClosedFieldType) nS nB nT nN (w Y : 'M[C]_(nS, nN))
    (W : 'M[C]_(nS, nS + nB)) (H : taps C nT nS (nS + nB)) Z J eps (b : 'I_nB) (c : 'I_nS) :
  0 < eps -> (forall n, 0 <= w c n) ->
  let Y' := (step2 w eps Z J (Y, W, H) b).1.1 in
  [/\ wpower (w c) (Y' c) <= wpower (w c) (Y c),
      (eps <= wpower (w c) (Z b) -> wcorr (w c) (Y' c) (Z b) = 0)
    & (eps <= wpower (w c) (Z b) ->
       forall u, wpower (w c) (Y' c) <= wenergy (w c) (Y c) (Z b) u)].
Proof. exact: c18_bg. Qed.
Print Assumptions c18_background_update.
(* update by a delayed input *)
Theorem c18_tap_update (C : numClosedFieldType) nS nB nT nN (w Y : 'M[C]_(nS, nN))
    (W : 'M[C]_(nS, nS + nB)) (H : taps C nT nS (nS + nB)) (Xb : taps C nT (nS + nB) nN) eps
    (d : 'I_(nS + nB)) (t : 'I_nT) (c : 'I_nS) :
  0 < eps -> (forall n, 0 <= w c n) ->
  let Y' := (step3 w eps Xb (Y, W, H) (d, t)).1.1 in
  [/\ wpower (w c) (Y' c) <= wpower (w c) (Y c),
      (eps <= wpower (w c) (Xb t d) -> wcorr (w c) (Y' c) (Xb t d) = 0)
    & (eps <= wpower (w c) (Xb t d) ->
       forall u, wpower (w c) (Y' c) <= wenergy (w c) (Y c) (Xb t d) u)].
Proof. exact: c18_tap. Qed.
Print Assumptions c18_tap_update.
(* unit weights and signals of unit power: no clamp is active for eps <= 1 *)
Example c18_example (C : numClosedFieldType) : let Y : 'M[C]_(2, 3) := const_mx 1 in
  (1 : C) <= wpower ((const_mx 1 : 'M[C]_(2, 3)) 0) (Y 1) / 3%:R.
Proof.
rewrite /= /wpower (eq_bigr (fun=> 1)) => [|n _]; last by rewrite !mxE normr1 expr1n mulr1.
by rewrite sumr_const card_ord divff ?pnatr_eq0.
Qed.

(* ------------------------------------------------------------------- C20 *)
(* what the code computes: J minimises the correlation of the background with
   W X + (reverberation), i.e. with the reverberation added instead of subtracted *)
Theorem c20_actual (C : numClosedFieldType) nS nB nF nT dl nN (X : sig C nF nN (nS + nB))
    (W : filt C nF nS (nS + nB)) (H : tfilt C nF nT nS (nS + nB)) eps : 0 < eps ->
  exists J, background_update W H X (delayed nT dl X) eps = Ok J /\
  forall f b (J' : 'M[C]_(nB, nS)), row b J' != row b (J f) ->
   let Ybad : 'M[C]_(nS, nN) := \matrix_(s, n) (\sum_c W f s c * X f c n
      + reverb dl (X f) (fun t => H f t) s n) in
   bg_objective Ybad (X f) eps (J f) b < bg_objective Ybad (X f) eps J' b.
Proof. exact: c20_bad. Qed.
Print Assumptions c20_actual.
(* hence correct while no dereverberation filter is active *)
Theorem c20_no_reverb (C : numClosedFieldType) nS nB nF nT dl nN (X : sig C nF nN (nS + nB))
    (W : filt C nF nS (nS + nB)) (H : tfilt C nF nT nS (nS + nB)) (Y : sig C nF nN nS) eps :
  0 < eps -> (forall f t, H f t = 0) -> filter_output dl X W (fun f => H f) Y ->
  exists J, background_update W H X (delayed nT dl X) eps = Ok J /\
  forall f b (J' : 'M[C]_(nB, nS)), row b J' != row b (J f) ->
   bg_objective (Y f) (X f) eps (J f) b < bg_objective (Y f) (X f) eps J' b.
Proof. exact: c20_good. Qed.
Print Assumptions c20_no_reverb.
(* with an active filter the returned J is not the decorrelating one: the
   background of J' = 0 is exactly uncorrelated with the source, the one of J is not optimal *)
Theorem c20_reverb_refuted (C : numClosedFieldType) (eps : C) : 0 < eps ->
  exists (X : sig C 1 2 (1 + 1)) (W : 'M[C]_(1, 1 + 1)) (H : taps C 1 1 (1 + 1)) J (J' : 'M[C]_1),
  let Y := demix_derev X (delayed 1 0 X) [ffun f => W] [ffun f => H] 0 in
  [/\ background_f W H (C_XX X 0) (C_XbarX X (delayed 1 0 X) 0) eps = Ok J,
      bg_objective Y (X 0) eps J' 0 < bg_objective Y (X 0) eps J 0
    & xcorr Y (background (X 0) J') 0 0 = 0].
Proof. exact: c20_wit. Qed.
Print Assumptions c20_reverb_refuted.

(* ------------------------------------------------------------------- C21 *)
Theorem c21_projection_back (C : numClosedFieldType) nS nB nF nT dl nN (St : Type)
    (model : St -> sig C nF nN nS -> sig C nF nN nS * St) (X : sig C nF nN (nS + nB))
    (eps : C) n_iter use_dmc ref m0 :
  0 < eps -> (0 < nN)%N ->
  exists Y W J m x (a : 'I_nF -> 'cV[C]_nS),
  [/\ forward nT dl model X eps n_iter.+1 use_dmc (Some ref) m0 = Ok (Y, W, J, m),
      forward_raw nT dl model X eps n_iter.+1 use_dmc m0 = Ok x,
      W = stW x /\ J = stJ x,
      (forall f s k, Y f s k = a f s 0 * stY x f s k) &
      (forall f (a' : 'cV[C]_nS), a' != a f ->
        rls_objective (pb_matrix (W f) (J f)) (pb_target (J f) ref) (10%:R ^- 5) (10%:R ^- 5) (a f)
        < rls_objective (pb_matrix (W f) (J f)) (pb_target (J f) ref) (10%:R ^- 5) (10%:R ^- 5) a')].
Proof. exact: c21_lemma. Qed.
Print Assumptions c21_projection_back.
(* the system expresses row ref of the inverse of the complete demixing matrix *)
Theorem c21_system (C : numClosedFieldType) nS nB (W : 'M[C]_(nS, nS + nB)) (J : 'M[C]_(nB, nS))
    (a : 'cV[C]_nS) (ref : 'I_(nS + nB)) :
  pb_matrix W J *m a = pb_target J ref
  <-> exists b : 'rV[C]_nB, row_mx a^T b *m full_demix W J = delta_mx 0 ref.
Proof. exact: full_solve. Qed.
Print Assumptions c21_system.
(* residual of the regularised solution: bounded by 1e-5 times the squared norm
   of any exact solution *)
Theorem c21_residual (C : numClosedFieldType) m n (A : 'M[C]_(m,n)) (b : 'cV[C]_m) load e
    (x xs : 'cV[C]_n) : 0 < load -> 0 < e ->
  (forall y, y != x -> rls_objective A b load e x < rls_objective A b load e y) ->
  A *m xs = b ->
  \sum_i `|((A *m x) i 0 - b i 0) / Num.max (row_norm A i) e| ^+ 2 <= load * \sum_j `|xs j 0| ^+ 2.
Proof. exact: rls_residual. Qed.
Print Assumptions c21_residual.
(* when the system is solved exactly the scaled sources, the background and the
   scaled reverberation add up to the reference microphone *)
Theorem c21_sum (C : numClosedFieldType) nS nB nF nT dl nN (St : Type) (X : sig C nF nN (nS + nB))
    (x : st C nS nB nF nT nN St) (a : 'cV[C]_nS) ref f n :
  filter_output dl X (stW x) (fun f => stH x f) (stY x) ->
  pb_matrix (stW x f) (stJ x f) *m a = pb_target (stJ x f) ref ->
  exists b : 'rV[C]_nB,
  \sum_s a s 0 * stY x f s n
  = X f ref n - \sum_k b 0 k * background (X f) (stJ x f) k n
    - \sum_s a s 0 * reverb dl (X f) (fun t => stH x f t) s n.
Proof. exact: pb_sum. Qed.
Print Assumptions c21_sum.
(* determined, no taps: exactly the reference microphone *)
Theorem c21_sum_determined (C : numClosedFieldType) nS nF dl nN (St : Type) (X : sig C nF nN (nS + 0))
    (x : st C nS 0 nF 0 nN St) (a : 'cV[C]_nS) ref f n :
  filter_output dl X (stW x) (fun f => stH x f) (stY x) ->
  (lsubmx (stW x f))^T *m a = (match split ref with inl r => delta_mx r 0 | inr _ => 0 end) ->
  \sum_s a s 0 * stY x f s n = X f ref n.
Proof. exact: pb_sum0. Qed.
Print Assumptions c21_sum_determined.

(* ------------------------------------------------------------------- C22 *)
Theorem c22_tiss_zero_iterations (C : numClosedFieldType) nS nB nF nT dl nN (St : Type)
    (model : St -> sig C nF nN nS -> sig C nF nN nS * St) (X : sig C nF nN (nS + nB))
    (eps : C) use_dmc proj_back m0 : 0 < eps ->
  exists J, forward nT dl model X eps 0 use_dmc proj_back m0
    = Ok ([ffun f => usubmx (X f)], [ffun f => row_mx 1%:M 0], J, m0).
Proof. exact: c22_lemma. Qed.
Print Assumptions c22_tiss_zero_iterations.
