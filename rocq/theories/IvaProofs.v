From Coq Require Import Ring Field.
From mathcomp Require Import all_ssreflect all_algebra.
From Verif Require Import CAlg Py Batch LinalgModel LinalgSpec LinalgProofs LinalgBridge.
From Verif Require Import TissModel TissSpec TissProofs TissProofs2 TissBridge TissBridge2 IvaModel IvaSpec.
Set Implicit Arguments. Unset Strict Implicit. Unset Printing Implicit Defensive.
Import GRing.Theory Num.Theory Order.TTheory.
Local Open Scope ring_scope.
Local Open Scope py_scope.

Section IP.
Variable C : numClosedFieldType.
Variables (nS nB nF nN : nat).
Local Notation nC := (nS + nB)%N.
Implicit Types (X : sig C nF nN nC) (W : filt C nF nS nC) (J : filt C nF nB nS) (eps : C).

Lemma clamp_max (x lo : C) : x \is Num.real -> lo \is Num.real -> clamp x lo = Num.max x lo.
Proof. by []. Qed.

Lemma slg_col m n (A : 'M[C]_(m, n)) (b : 'cV[C]_m) load eps : 0 < load -> 0 < eps ->
  exists x, solve_loaded_general A b load eps = Ok x /\ rls_argmin A b load eps x.
Proof.
move=> l0 e0; have [x [hx h]] := c08_lemma A b l0 e0.
exists x; split=> // y; have := h 0 y; by rewrite !col_id.
Qed.

(* picking results of a gather together with a property of each *)
Lemma gather_pick (I : finType) (T : Type) (d : T) (g : I -> result T) (P : I -> T -> Prop) :
  (forall i, exists x, g i = Ok x /\ P i x) ->
  exists r, gather d g = Ok r /\ forall i, P i (r i).
Proof.
move=> h; have ok : is_ok (gather d g) by apply: gather_total => i; have [x [-> _]] := h i.
move: ok; case E: (gather d g) => [r|//] _; exists r; split=> // i.
by have [x [e p]] := h i; move: (gather_inv E i); rewrite e => -[<-].
Qed.

Lemma orth_ok X W eps : 0 < eps ->
  exists J, orthogonal_constraint W (ip_Cx X) eps = Ok J /\
    forall f, bg_argmin (W f *m X f) (X f) eps (J f).
Proof.
move=> e0; rewrite /orthogonal_constraint; case: ltnP => [n0|h]; last first.
  exists [ffun=> 0]; split=> // f b; exfalso.
  by move: (ltn_ord b); rewrite ltnNge (leq_trans h).
pose P f (x : 'M[C]_(nS, nB)) := bg_argmin (W f *m X f) (X f) eps (ctr x).
have [f|r [-> hr]] := @gather_pick _ _ 0 (fun f => let A := W f *m ip_Cx X f in
  solve_loaded_general (lsubmx A) (rsubmx A) eps eps) P; last first.
  by exists [ffun f => ctr (r f)]; split=> // f; rewrite ffunE; exact: hr.
rewrite /=; set Y := W f *m X f.
have e : W f *m ip_Cx X f = xcorr Y (X f).
  have -> : ip_Cx X f = xcorr (X f) (X f) by [].
  by rewrite !xcorrE -scalemxAr mulmxA.
rewrite e xcorr_l xcorr_r.
have [x [-> h]] := c08_lemma (xcorr Y (usubmx (X f))) (xcorr Y (dsubmx (X f))) e0 e0.
exists x; split=> // b J' ne; rewrite -!rls_bg.
have e1 : ctr (row b (ctr x)) = col b x by apply/matrixP=> i j; rewrite ctrE !mxE conjCK.
rewrite e1; apply: h; apply: contra_neq ne => e2.
by apply: (@ctr_inj C); rewrite e2 e1.
Qed.

Lemma ip_VE X (w : sig C nF nN nS) k f : ip_V X w k f = wcov (w f k) (X f).
Proof.
by apply/matrixP=> c d; rewrite !mxE; apply: eq_bigr => n _; rewrite mulrAC mulrC mulrA.
Qed.
Lemma ip_WVE (W : 'M[C]_(nS, nC)) (J : 'M[C]_(nB, nS)) V : ip_WV W J V = full_demix W J *m V.
Proof.
rewrite /ip_WV /full_demix mul_col_mx; congr col_mx.
by rewrite -[V in RHS]vsubmxK mul_row_col mulNmx mul1mx.
Qed.
Lemma scaleE (V : 'M[C]_nC) (x : 'cV[C]_nC) :
  \sum_c \sum_d (x c 0)^* * ((x d 0)^*)^* * V c d = form V x x.
Proof.
rewrite /form mxE exchange_big; apply: eq_bigr => d _; rewrite mxE mulr_suml.
by apply: eq_bigr => c _; rewrite ctrE conjCK; rewrite mulrAC.
Qed.

Lemma ip_source_ok X w eps W J0 k : 0 < eps ->
  exists W' J, ip_source X w eps (W, J0) k = Ok (W', J) /\
   forall f, bg_argmin (W f *m X f) (X f) eps (J f) /\
     ip_row (wcov (w f k) (X f)) (W f) (J f) eps k (W' f).
Proof.
move=> e0; rewrite /ip_source; have [J [-> hJ]] := orth_ok X W e0; rewrite /bind.
pose P f (x : 'cV[C]_nC) := rls_argmin (full_demix (W f) (J f) *m wcov (w f k) (X f))
   (delta_mx (lshift nB k) 0) eps eps x.
have [f|r [-> hr]] := @gather_pick _ _ 0 (fun f => solve_loaded_general
   (ip_WV (W f) (J f) (ip_V X w k f)) (delta_mx (lshift nB k) 0 : 'cV[C]_nC) eps eps) P.
  by rewrite ip_WVE ip_VE; exact: slg_col.
eexists; exists J; split; first by [].
move=> f; split; first exact: hJ.
split.
  by move=> i ne; apply/rowP=> c; rewrite !mxE ffunE mxE (negbTE ne).
exists (r f); split; first exact: hr.
apply/rowP=> c; rewrite mxE ffunE mxE eqxx scaleE ip_VE mxE ctrE mulrC; congr (_ * _).
Qed.

Lemma ip_sweep_ok X (w : sig C nF nN nS) eps W J0 : 0 < eps ->
  exists W' J, foldM (ip_source X w eps) (W, J0) (enum 'I_nS) = Ok (W', J) /\
   forall f, ip_sweep (X f) (w f) eps (W f) (W' f) (J f).
Proof.
move=> e0.
(* states after k sources *)
have gen (l : seq 'I_nS) : forall W J0, exists W' J, foldM (ip_source X w eps) (W, J0) l = Ok (W', J) /\
   exists (Ws : nat -> filt C nF nS nC) (Js : nat -> filt C nF nB nS), [/\ Ws 0%N = W, Ws (size l) = W',
     ((0 < size l)%N -> Js (size l).-1 = J) & forall i (k : 'I_nS), (i < size l)%N -> nth k l i = k -> forall f,
     bg_argmin (Ws i f *m X f) (X f) eps (Js i f) /\
     ip_row (wcov (w f k) (X f)) (Ws i f) (Js i f) eps k (Ws i.+1 f)].
  elim: l => [|a l IH] W1 J1.
    by exists W1, J1; split=> //; exists (fun=> W1), (fun=> J1); split.
  have [W2 [J2 [h1 h2]]] := ip_source_ok X w W1 J1 a e0.
  have [W3 [J3 [h3 [Ws [Js [e1 e2 e3 h4]]]]]] := IH W2 J2.
  exists W3, J3; split.
    have -> : foldM (ip_source X w eps) (W1, J1) (a :: l)
      = let* s := ip_source X w eps (W1, J1) a in foldM (ip_source X w eps) s l by [].
    by rewrite h1.
  exists (fun i => if i is i'.+1 then Ws i' else W1), (fun i => if i is i'.+1 then Js i' else J2); split=> //.
  - move=> _ /=; case E: (size l) e3 => [|m] //=; last by move=> e3; apply: e3.
    by move: h3; rewrite (size0nil E) /= => -[_ ->].
  - case=> [|i] k /= lt eq f; first by rewrite e1 -eq; exact: h2.
    exact: h4.
have [W' [J [h [Ws [Js [e1 e2 e3 h4]]]]]] := gen (enum 'I_nS) W J0.
exists W', J; split=> // f; exists (fun i => Ws i f), (fun i => Js i f).
rewrite size_enum_ord in e2 e3 h4; split; rewrite ?e1 ?e2 //.
  by move=> n0; rewrite e3.
move=> k; apply: h4 => //; exact: nth_ord_enum.
Qed.

Variable St : Type.
Variable model : St -> sig C nF nN nS -> sig C nF nN nS * St.

Lemma mean_powE (Y : sig C nF nN nS) s :
  (\sum_f \sum_n mag_sq (Y f s n)) / (nF * nN)%:R = mean_pow Y s.
Proof. by congr (_ / _); apply: eq_bigr => f _; apply: eq_bigr => n _; rewrite mag_sqE. Qed.

Lemma ip_iter_ok X eps Y W J m : 0 < eps ->
  exists Y' W' J' m', ip_iter model X eps (Y, W, J, m) = Ok (Y', W', J', m') /\
   (model m Y).2 = m' /\ ip_epoch X eps (model m Y).1 Y W W' J' Y'.
Proof.
move=> e0; rewrite /ip_iter; case: (model m Y) => wt m1.
set W1 := (X in (X, J)); set w1 := (X in ip_source _ X _).
have [W' [J' [-> h]]] := ip_sweep_ok X w1 W1 J e0.
exists [ffun f => W' f *m X f], W', J', m1; split=> //; split=> // g f; split; last by rewrite ffunE.
have := h f; rewrite /W1 /w1 !ffunE /ip_gain.
by congr (ip_sweep _ _ _ _ _ _); apply/matrixP=> s n; rewrite !mxE mean_powE.
Qed.

Lemma ip_loop_ok X eps n m0 k : 0 < eps -> forall Y W J m,
  ip_run model X eps m0 k Y W J m ->
  exists Y' W' J' m', ip_loop model X eps n (Y, W, J, m) = Ok (Y', W', J', m') /\
    ip_run model X eps m0 (k + n) Y' W' J' m'.
Proof.
move=> e0; elim: n k => [|n IH] k Y W J m h.
  by exists Y, W, J, m; rewrite addn0.
have [Y1 [W1 [J1 [m1 [h1 [h2 h3]]]]]] := ip_iter_ok X Y W J m e0.
have [|Y2 [W2 [J2 [m2 [h4 h5]]]]] := IH k.+1 Y1 W1 J1 m1; first exact: ip_next h h2 h3.
exists Y2, W2, J2, m2; split; last by rewrite addnS.
have -> : ip_loop model X eps n.+1 (Y, W, J, m)
  = let* y := ip_iter model X eps (Y, W, J, m) in ip_loop model X eps n y by [].
by rewrite h1.
Qed.

Lemma ip_raw_ok X eps n m0 : 0 < eps ->
  exists Y W J m, ip_raw model X eps n m0 = Ok (Y, W, J, m) /\ ip_run model X eps m0 n Y W J m.
Proof.
move=> e0; rewrite /ip_raw; set W := finfun _.
have [J [-> hJ]] := orth_ok X W e0; rewrite /bind.
have [|Y1 [W1 [J1 [m1 h]]]] := @ip_loop_ok X eps n m0 0 e0 [ffun f => usubmx (X f)] W J m0.
  by constructor=> [f|f|//]; rewrite ffunE.
by exists Y1, W1, J1, m1.
Qed.

Lemma ip_pb_ok (Y : sig C nF nN nS) W J ref :
  exists Y' (a : 'I_nF -> 'cV[C]_nS), [/\ ip_pb Y W J ref = Ok Y',
    forall f s n, Y' f s n = a f s 0 * Y f s n &
    forall f, rls_argmin (pb_matrix (W f) (J f)) (pb_target (J f) ref) (10%:R ^- 5) (10%:R ^- 5) (a f)].
Proof.
have c0 : 0 < (10%:R ^- 5 : C) by rewrite invr_gt0 exprn_gt0 // ltr0n.
rewrite /ip_pb.
pose P f (x : 'cV[C]_nS) := rls_argmin (pb_matrix (W f) (J f)) (pb_target (J f) ref) (10%:R ^- 5) (10%:R ^- 5) x.
have [f|a [-> ha]] := @gather_pick _ _ (0 : 'M[C]_(nS, 1)) (fun f => pb_f (W f) (J f) ref) P.
  by rewrite pb_fE; exact: slg_col.
by eexists; exists a; split=> [//|f s n|//]; rewrite ffunE mxE mulrC.
Qed.

Lemma c23_lemma X eps n pb m0 : 0 < eps ->
  exists out Y W J m, [/\ ip_forward model X eps n pb m0 = Ok (out, m),
    ip_run model X eps m0 n Y W J m &
    match pb with
    | None => forall f, out f = Y f
    | Some ref => exists a : 'I_nF -> 'cV[C]_nS,
       (forall f s k, out f s k = a f s 0 * Y f s k) /\
       (forall f, rls_argmin (pb_matrix (W f) (J f)) (pb_target (J f) ref) (10%:R ^- 5) (10%:R ^- 5) (a f))
    end].
Proof.
move=> e0; rewrite /ip_forward; have [Y [W [J [m [-> h]]]]] := ip_raw_ok X n m0 e0; rewrite /bind.
case: pb => [ref|]; last by exists Y, Y, W, J, m; split.
have [Y' [a [h1 h2 h3]]] := ip_pb_ok Y W J ref.
by exists Y', Y, W, J, m; rewrite h1; split=> //; exists a; split.
Qed.
End IP.
