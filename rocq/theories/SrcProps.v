(* Theorems for C39-C41: the source models of torchiva/models/classic.py. *)
From mathcomp Require Import all_ssreflect all_algebra complex.
From Verif Require Import CAlg Py LinalgModel TissModel SrcModel SrcSpec SrcProofs RField RLog.
Set Implicit Arguments. Unset Strict Implicit. Unset Printing Implicit Defensive.
Import GRing.Theory Num.Theory Order.TTheory.
Local Open Scope ring_scope.

Section Props.
Variable C : numClosedFieldType.
Variables (nF nN K : nat).

Theorem c39_laplace (eps : C) (X : 'M[C]_(nF, nN)) : 0 < eps ->
  usable eps (laplace eps X) /\
  forall f n, let r := 2%:R * sqrtC (frame_energy X n) in
    (eps <= r -> laplace eps X f n = r^-1) /\ (r < eps -> laplace eps X f n = eps^-1).
Proof. exact (fun e0 => conj (laplace_usable X e0) (fun f n => conj (@laplaceE _ _ _ eps X f n) (@laplace_clamped _ _ _ eps X f n))). Qed.
Print Assumptions c39_laplace.
Theorem c39_gauss (eps : C) (X : 'M[C]_(nF, nN)) : 0 < eps ->
  usable eps (gauss eps X) /\
  forall f n, let r := frame_energy X n / nF%:R in
    (eps <= r -> gauss eps X f n = r^-1) /\ (r < eps -> gauss eps X f n = eps^-1).
Proof. exact (fun e0 => conj (gauss_usable X e0) (fun f n => conj (@gaussE _ _ _ eps X f n) (@gauss_clamped _ _ _ eps X f n))). Qed.
Print Assumptions c39_gauss.

(* silent frames get the weight 1/eps: 10^5 when eps is not given *)
Theorem c39_silence (eps : option C) (X : 'M[C]_(nF, nN)) f n :
  (forall e, eps = Some e -> 0 < e) -> (forall g, X g n = 0) ->
  let w := if eps is Some e then e^-1 else 10%:R ^+ 5 in
  laplace (model_eps eps) X f n = w /\ gauss (model_eps eps) X f n = w.
Proof. exact: silence_weights. Qed.
Print Assumptions c39_silence.

(* one call on positive factors: every denominator is positive, the factors follow the
   damped multiplicative rules (basis first, then activations with the new basis) *)
Theorem c40_update (eps : C) (X : 'M[C]_(nF, nN)) (T : 'M[C]_(nF, K)) (V : 'M[C]_(nN, K)) :
  0 < eps -> (0 < nF)%N -> (0 < nN)%N -> positive T -> positive V ->
  exists (T' : 'M[C]_(nF, K)) (V' : 'M[C]_(nN, K)),
  [/\ nmf_update eps X (T, V) = ((T', V'), \matrix_(f, n) (recon eps T' V' f n)^-1),
    mult_T eps (\matrix_(f, n) `|X f n| ^+ 2) T V T',
    mult_V eps (\matrix_(f, n) `|X f n| ^+ 2) T' V V',
    (forall f k, eps <= T' f k) /\ (forall n k, eps <= V' n k) &
    usable eps (nmf_update eps X (T, V)).2].
Proof. exact (@nmf_update_ok' C nF nN K eps X T V). Qed.
Print Assumptions c40_update.
(* whole histories of reset() and forward(), starting from a fresh object *)
Theorem c40_history (eps : C) nB Rng
    (draw : Rng -> ('I_nB -> 'M[C]_(nF, K)) * ('I_nB -> 'M[C]_(nN, K)) * Rng) h r :
  0 < eps -> (0 < nF)%N -> (0 < nN)%N ->
  (forall r b, (forall f k, 0 <= (draw r).1.1 b f k <= 1) /\ (forall n k, 0 <= (draw r).1.2 b n k <= 1)) ->
  let: (outs, s) := nmf_run eps draw h (None, r) in
  (forall i b, (i < size outs)%N -> usable eps (nth (fun=> 0) outs i b)) /\
  forall tv, s.1 = Some tv -> forall b, (forall f k, eps <= (tv b).1 f k) /\ (forall n k, eps <= (tv b).2 n k).
Proof. exact (@nmf_history C nF nN K eps nB Rng draw h r). Qed.
Print Assumptions c40_history.

(* after a reset nothing is left of earlier calls but the state of the random generator *)
Theorem c40_reset (eps : C) nB Rng
    (draw : Rng -> ('I_nB -> 'M[C]_(nF, K)) * ('I_nB -> 'M[C]_(nN, K)) * Rng) h h1 h2 s1 s2 :
  let a := (nmf_run eps draw h1 s1).2 in let b := (nmf_run eps draw h2 s2).2 in a.2 = b.2 ->
  nmf_run eps draw (NReset _ _ _ _ :: h) a = nmf_run eps draw (NReset _ _ _ _ :: h) b.
Proof. exact: nmf_reset_forgets. Qed.
Print Assumptions c40_reset.
(* and without one the next call continues from the factors of the last one, drawing no
   random number *)
Theorem c40_continues (eps : C) nB Rng
    (draw : Rng -> ('I_nB -> 'M[C]_(nF, K)) * ('I_nB -> 'M[C]_(nN, K)) * Rng) X1 X2 s :
  let r1 := nmf_run eps draw [:: NCall X1] s in let r2 := nmf_run eps draw [:: NCall X1; NCall X2] s in
  exists tv1 tv2, [/\ r1.2.1 = Some tv1, r2.2.1 = Some tv2, r2.2.2 = r1.2.2,
    forall b, nth (fun=> 0) r2.1 0 b = nth (fun=> 0) r1.1 0 b &
    forall b, (tv2 b, nth (fun=> 0) r2.1 1 b) = nmf_update eps (X2 b) (tv1 b)].
Proof. exact: nmf_continues. Qed.
Print Assumptions c40_continues.

(* lg is any function with lg y - lg x <= y / x - 1 for positive x, y (as the logarithm).
   The clamps of the factors need not be inactive; the clamp of the estimate is assumed
   inactive before each half step. *)
Theorem c41_divergence (eps : C) lg (X : 'M[C]_(nF, nN)) (T : 'M[C]_(nF, K)) (V : 'M[C]_(nN, K)) :
  0 < eps -> log_like lg -> (0 < nF)%N -> (0 < nN)%N ->
  (forall f k, eps <= T f k) -> (forall n k, eps <= V n k) ->
  let P : 'M[C]_(nF, nN) := \matrix_(f, n) mag_sq (X f n) in
  let D := fun tv : factors C nF nN K => divergence lg (fun f n => `|X f n| ^+ 2) (lowrank tv.1 tv.2) in
  (forall f n, eps <= lowrank T V f n) ->
  D (nmf_T eps P (T, V)) <= D (T, V) /\
  ((forall f n, eps <= lowrank (nmf_T eps P (T, V)).1 V f n) ->
   D (nmf_update eps X (T, V)).1 <= D (nmf_T eps P (T, V))).
Proof. exact (fun e0 => @nmf_descent C nF nN K eps e0 lg X T V). Qed.
Print Assumptions c41_divergence.
End Props.

(* over the usual complex numbers with the natural logarithm *)
Theorem c41_divergence_ln nF nN K (eps : CR) (X : 'M[CR]_(nF, nN)) (T : 'M[CR]_(nF, K)) (V : 'M[CR]_(nN, K)) :
  0 < eps -> (0 < nF)%N -> (0 < nN)%N ->
  (forall f k, eps <= T f k) -> (forall n k, eps <= V n k) ->
  let P : 'M[CR]_(nF, nN) := \matrix_(f, n) mag_sq (X f n) in
  let D := fun tv : factors CR nF nN K => divergence lnC (fun f n => `|X f n| ^+ 2) (lowrank tv.1 tv.2) in
  (forall f n, eps <= lowrank T V f n) ->
  (forall f n, eps <= lowrank (nmf_T eps P (T, V)).1 V f n) ->
  D (nmf_update eps X (T, V)).1 <= D (T, V).
Proof. exact (@nmf_descent_ln nF nN K eps X T V). Qed.
Print Assumptions c41_divergence_ln.

Example c39_example (C : numClosedFieldType) :
  laplace (1 / 2%:R : C) (const_mx 3%:R : 'M[C]_(1, 1)) 0 0 = 6%:R^-1 /\
  laplace (1 / 2%:R : C) (0 : 'M[C]_(1, 1)) 0 0 = 2%:R.
Proof. exact: c39_ex. Qed.
(* P = 4, T = V = 1: one basis update moves T to 2 and the estimate clamp stays inactive *)
Example c41_example (C : numClosedFieldType) :
  (forall f n, (1 / 2%:R : C) <= lowrank (1 : 'M[C]_1) (1 : 'M[C]_1) f n) /\
  (nmf_T (1 / 2%:R : C) (const_mx 4%:R : 'M[C]_1) (1 : 'M[C]_1, 1 : 'M[C]_1)).1 0 0 = 2%:R.
Proof. exact: c41_ex. Qed.
