(* The forward methods of MVDR, MWF and GEV. *)
From mathcomp Require Import all_ssreflect all_algebra.
From Verif Require Import CAlg Py Batch LinalgModel LinalgSpec LinalgProofs LinalgBridge.
From Verif Require Import TissModel BeamModel BeamSpec BeamProofs BeamBridge.
Set Implicit Arguments. Unset Strict Implicit. Unset Printing Implicit Defensive.
Import GRing.Theory Num.Theory Order.TTheory.
Local Open Scope ring_scope.
Local Open Scope py_scope.

Section Fwd.
Variable C : numClosedFieldType.
Variable eighO : forall n, eigh_oracle C n.
Arguments eighO : clear implicits.
Variables (k nS nF nN : nat).
Local Notation nC := k.+1.
Variables (X : sig C nF nN nC) (model : mask_model C nS nF nN) (ref : 'I_nC).
Notation Rx m s f := (weighted_cov (fun n => m s f 0 n) (X f)).

Lemma covE (m : 'rV[C]_nN) f : cov m (X f) = weighted_cov (fun n => m 0 n) (X f).
Proof. by []. Qed.
Lemma apply_bfE (bf : {ffun 'I_nS * 'I_nF -> 'cV[C]_nC}) f s n :
  apply_bf X bf f s n = response (bf (s, f)) (col n (X f)).
Proof.
by rewrite ffunE mxE; apply: eq_bigr => c _; rewrite mulrC [col _ _ _ _]mxE.
Qed.
Lemma gather_pick T (dflt : T) (I : finType) (g : I -> result T) (P : I -> T -> Prop) :
  (forall i, exists x, g i = Ok x /\ P i x) ->
  exists r, gather dflt g = Ok r /\ forall i, P i (r i).
Proof.
move=> h; have ok i : is_ok (g i) by have [x [-> _]] := h i.
case E: (gather dflt g) => [r|e]; last by move: (gather_total dflt ok); rewrite E.
by exists r; split=> // i; have [x [e p]] := h i; have := gather_inv E i; rewrite e => -[<-].
Qed.

Lemma mwf_ti mt mn rest eps : model (ref_channel X ref) = [:: mt, mn & rest] -> nonneg mt -> nonneg mn ->
  exists (w : 'I_nS -> 'I_nF -> 'cV[C]_nC) Y, [/\ mwf_forward X model ref eps true = Ok Y,
    (forall f s n, Y f s n = response (w s f) (col n (X f))) &
    forall s f, exists l, is_load (Rx mt s f + Rx mn s f) (10%:R ^- 6) l /\
      forall u, u != w s f -> mmse_objective (Rx mt s f) (Rx mn s f) ref l (w s f)
                           < mmse_objective (Rx mt s f) (Rx mn s f) ref l u].
Proof.
move=> hm t0 n0; rewrite /mwf_forward hm.
have [|bf [-> h]] := @gather_pick _ 0 _ (fun sf : 'I_nS * 'I_nF => let: (s, f) := sf in
   compute_mwf_ref (cov (mt s f) (X f)) (cov (mn s f) (X f)) eps ref)
   (fun sf w => exists l, is_load (Rx mt sf.1 sf.2 + Rx mn sf.1 sf.2) (10%:R ^- 6) l /\
      forall u, u != w -> mmse_objective (Rx mt sf.1 sf.2) (Rx mn sf.1 sf.2) ref l w
                           < mmse_objective (Rx mt sf.1 sf.2) (Rx mn sf.1 sf.2) ref l u).
  move=> [s f]; have [l [w [h1 h2 h3]]] := @c32_ref C k _ _ eps ref (cov_psd (X f) (t0 s f)) (cov_psd (X f) (n0 s f)).
  by exists w; split=> //; exists l.
exists (fun s f => bf (s, f)), (apply_bf X bf); split=> // [f s n|s f]; first exact: apply_bfE.
exact: (h (s, f)).
Qed.
Lemma mwf_tv mt mn vt vn eps : model (ref_channel X ref) = [:: mt; mn; vt; vn] ->
  nonneg mt -> nonneg mn -> nonneg vt -> nonneg vn ->
  exists (w : 'I_nS -> 'I_nF -> 'I_nN -> 'cV[C]_nC) Y, [/\ mwf_forward X model ref eps false = Ok Y,
    (forall f s n, Y f s n = response (w s f n) (col n (X f))) &
    forall s f n, exists l,
      let Rt := vt s f 0 n *: Rx mt s f in let Rn := vn s f 0 n *: Rx mn s f in
      is_load (Rt + Rn) (10%:R ^- 6) l /\
      forall u, u != w s f n -> mmse_objective Rt Rn ref l (w s f n) < mmse_objective Rt Rn ref l u].
Proof.
move=> hm t0 n0 vt0 vn0; rewrite /mwf_forward hm.
pose R1 sf n := vt sf.1 sf.2 0 n *: Rx mt sf.1 sf.2; pose R2 sf n := vn sf.1 sf.2 0 n *: Rx mn sf.1 sf.2.
pose P (sf : 'I_nS * 'I_nF) (n : 'I_nN) w := exists l, is_load (R1 sf n + R2 sf n) (10%:R ^- 6) l /\
      forall u, u != w -> mmse_objective (R1 sf n) (R2 sf n) ref l w < mmse_objective (R1 sf n) (R2 sf n) ref l u.
have [|bf [-> h]] := @gather_pick _ [ffun=> 0] _ (fun sf : 'I_nS * 'I_nF => let: (s, f) := sf in
   gather 0 (fun n : 'I_nN =>
     compute_mwf_ref (vt s f 0 n *: cov (mt s f) (X f)) (vn s f 0 n *: cov (mn s f) (X f)) eps ref))
   (fun sf r => forall n, P sf n (r n)).
  move=> [s f]; apply: gather_pick => n.
  have [l [w [h1 h2 h3]]] := @c32_ref C k _ _ eps ref (psdZ (vt0 s f n) (cov_psd (X f) (t0 s f)))
     (psdZ (vn0 s f n) (cov_psd (X f) (n0 s f))).
  by exists w; split=> //; exists l.
exists (fun s f n => bf (s, f) n); eexists; split; [by []| |by move=> s f n; exact: (h (s, f) n)].
move=> f s n; rewrite ffunE mxE; apply: eq_bigr => c _; by rewrite mulrC [col _ _ _ _]mxE.
Qed.
Lemma mwf_eps_ignored eps eps' ti : mwf_forward X model ref eps ti = mwf_forward X model ref eps' ti.
Proof. by []. Qed.
Lemma mwf_few_masks eps ti : (size (model (ref_channel X ref)) < 2)%N ->
  mwf_forward X model ref eps ti = Err IndexError.
Proof. by rewrite /mwf_forward; case: (model _) => [|a [|b l]]. Qed.

Lemma rtf_ok (Rt Rn : 'M[C]_nC) p : psd Rn -> exists d, compute_mvdr_rtf_eigh eighO Rt Rn ref p = Ok d.
Proof.
move=> hR; rewrite /compute_mvdr_rtf_eigh /rtf_vector; case: p => [p|]; last by eexists.
have e0 : 0 < (10%:R ^- 5 : C) by rewrite invr_gt0 exprn_gt0 ?ltr0n.
by rewrite (solve_loaded_psd _ _ hR e0) //=; eexists.
Qed.
Lemma mvdr_rtf mt mn eps p : model (ref_channel X ref) = [:: mt; mn] -> nonneg mn -> 0 < eps ->
  exists (w d : 'I_nS -> 'I_nF -> 'cV[C]_nC) Y, [/\ mvdr_forward eighO X model ref eps Rtf p = Ok Y,
    (forall f s n, Y f s n = response (w s f) (col n (X f))),
    (forall s f, compute_mvdr_rtf_eigh eighO (Rx mt s f) (Rx mn s f) ref p = Ok (d s f)) &
    forall s f, mvdr_of (Rx mn s f) (d s f) eps (w s f)].
Proof.
move=> hm n0 e0; rewrite /mvdr_forward hm.
have [|bf [-> h]] := @gather_pick _ 0 _ (fun sf : 'I_nS * 'I_nF => let: (s, f) := sf in
      let Rt := cov (mt s f) (X f) in let Rn := cov (mn s f) (X f) in
      let* rtf := compute_mvdr_rtf_eigh eighO Rt Rn ref p in compute_mvdr_bf Rn rtf eps)
   (fun sf w => exists d, compute_mvdr_rtf_eigh eighO (Rx mt sf.1 sf.2) (Rx mn sf.1 sf.2) ref p = Ok d
       /\ mvdr_of (Rx mn sf.1 sf.2) d eps w).
  move=> [s f] /=; have hR := cov_psd (X f) (n0 s f).
  have [d hd] := rtf_ok (cov (mt s f) (X f)) p hR; rewrite hd /=.
  have [l [w [a [h1 h2 h3 h4 h5]]]] := c29_lemma d hR e0.
  by exists w; split=> //; exists d; split=> //; exists l, a.
pose d s f := if compute_mvdr_rtf_eigh eighO (Rx mt s f) (Rx mn s f) ref p is Ok d then d else 0.
exists (fun s f => bf (s, f)), d, (apply_bf X bf); split=> //.
- by move=> f s n; exact: apply_bfE.
- by move=> s f; have [x [hx _]] := h (s, f); rewrite /d hx.
- by move=> s f; have [x [hx hw]] := h (s, f); rewrite /d hx.
Qed.
Lemma mvdr_3masks mt mn mn2 eps ty p : model (ref_channel X ref) = [:: mt; mn; mn2] ->
  nonneg mn -> nonneg mn2 -> 0 < eps ->
  exists (w d : 'I_nS -> 'I_nF -> 'cV[C]_nC) Y, [/\ mvdr_forward eighO X model ref eps ty p = Ok Y,
    (forall f s n, Y f s n = response (w s f) (col n (X f))),
    (forall s f, compute_mvdr_rtf_eigh eighO (Rx mt s f) (Rx mn2 s f) ref p = Ok (d s f)) &
    forall s f, mvdr_of (Rx mn s f) (d s f) eps (w s f)].
Proof.
move=> hm n0 n20 e0; rewrite /mvdr_forward hm.
have [|bf [-> h]] := @gather_pick _ 0 _ (fun sf : 'I_nS * 'I_nF => let: (s, f) := sf in
      let* rtf := compute_mvdr_rtf_eigh eighO (cov (mt s f) (X f)) (cov (mn2 s f) (X f)) ref p in
      compute_mvdr_bf (cov (mn s f) (X f)) rtf eps)
   (fun sf w => exists d, compute_mvdr_rtf_eigh eighO (Rx mt sf.1 sf.2) (Rx mn2 sf.1 sf.2) ref p = Ok d
       /\ mvdr_of (Rx mn sf.1 sf.2) d eps w).
  move=> [s f] /=; have hR := cov_psd (X f) (n0 s f).
  have [d hd] := rtf_ok (cov (mt s f) (X f)) p (cov_psd (X f) (n20 s f)); rewrite hd /=.
  have [l [w [a [h1 h2 h3 h4 h5]]]] := c29_lemma d hR e0.
  by exists w; split=> //; exists d; split=> //; exists l, a.
pose d s f := if compute_mvdr_rtf_eigh eighO (Rx mt s f) (Rx mn2 s f) ref p is Ok d then d else 0.
exists (fun s f => bf (s, f)), d, (apply_bf X bf); split=> //.
- by move=> f s n; exact: apply_bfE.
- by move=> s f; have [x [hx _]] := h (s, f); rewrite /d hx.
- by move=> s f; have [x [hx hw]] := h (s, f); rewrite /d hx.
Qed.
Lemma mvdr_unbound eps ty p : (size (model (ref_channel X ref)) < 2)%N \/ (3 < size (model (ref_channel X ref)))%N ->
  mvdr_forward eighO X model ref eps ty p = Err UnboundLocalError.
Proof. by rewrite /mvdr_forward; case: (model _) => [|a [|b [|c [|d l]]]] []. Qed.
(* a single silent frequency makes the SCM variant fail *)
Lemma mvdr_scm_silent mt mn eps p (s : 'I_nS) f : model (ref_channel X ref) = [:: mt; mn] -> X f = 0 ->
  mvdr_forward eighO X model ref eps Scm p = Err LinAlgError.
Proof.
move=> hm x0; rewrite /mvdr_forward hm; set g := (X in gather _ X).
have z : cov (mn s f) (X f) = 0.
  by apply/matrixP=> c d; rewrite x0 !mxE big1 // => n _; rewrite !mxE mulr0 mul0r.
have hg : g (s, f) = Err LinAlgError.
  by rewrite /g c31_singular // z unitmxE det0 unitr0.
have [[s' f'] [e [-> ]]] := gather_err 0 hg.
by rewrite /g /compute_mvdr_bf2 /torch_solve; case: ifP => // _ [<-].
Qed.
Lemma gev_fwd mt mn rest : model (ref_channel X ref) = [:: mt, mn & rest] ->
  k != 1%N -> eigensolver (eighO nC) -> (forall s f n, mt s f 0 n \is Num.real) ->
  (forall s f n, mn s f 0 n \is Num.real) -> (forall s f, well_conditioned (Rx mn s f)) ->
  exists (r : 'I_nS -> 'I_nF -> 'rV[C]_nC) (v a : 'I_nS -> 'I_nF -> 'cV[C]_nC) (l : 'I_nS -> 'I_nF -> C) Y,
   [/\ gev_forward eighO X model ref = Ok Y,
    (forall f s n, Y f s n = (r s f *m X f) 0 n),
    (forall s f, r s f = a s f ref 0 *: ctr (v s f) /\ response (v s f) (a s f) = 1) ,
    (forall s f, exists c : C, Rx mn s f *m v s f = c *: a s f) &
    (forall s f, eigenpair (Rx mt s f) (Rx mn s f) (l s f) (v s f) /\
       forall w, out_power (Rx mt s f) w <= l s f * out_power (Rx mn s f) w)].
Proof.
move=> hm k1 ok rt rn wc; rewrite /gev_forward hm.
have cherm (m : masks C nS nF nN) s f : (forall n, m s f 0 n \is Num.real) -> herm (cov (m s f) (X f)).
  move=> hr; apply/matrixP=> c d; rewrite ctrE !mxE rmorph_sum; apply: eq_bigr => n _.
  by rewrite !rmorphM conjCK (conj_Creal (hr n)) -!mulrA [X f c n * _]mulrC.
pose P (sf : 'I_nS * 'I_nF) (r : 'rV[C]_nC) (t : 'cV[C]_nC * 'cV[C]_nC * C) :=
  [/\ r = t.1.2 ref 0 *: ctr t.1.1, response t.1.1 t.1.2 = 1,
      (exists c : C, Rx mn sf.1 sf.2 *m t.1.1 = c *: t.1.2), eigenpair (Rx mt sf.1 sf.2) (Rx mn sf.1 sf.2) t.2 t.1.1 &
      forall w, out_power (Rx mt sf.1 sf.2) w <= t.2 * out_power (Rx mn sf.1 sf.2) w].
pose g := fun sf : 'I_nS * 'I_nF => let: (s, f) := sf in
  compute_gev_bf eighO (cov (mt s f) (X f)) (cov (mn s f) (X f)) ref.
have h sf : exists t, exists r, g sf = Ok r /\ P sf r t.
  case: sf => s f; have [r [v [a [l [h1 [h2 _] [h3 h4] h5 h6]]]]] :=
    @c33_lemma C k eighO (cov (mt s f) (X f)) (cov (mn s f) (X f)) ref k1 ok (cherm _ _ _ (rt s f)) (cherm _ _ _ (rn s f)) (wc s f).
  by exists (v, a, l), r.
have [T hT] := fin_all_exists h.
have [|bf [-> hb]] := @gather_pick _ 0 _ g (fun sf r => P sf r (T sf)); first exact: hT.
exists (fun s f => bf (s, f)), (fun s f => (T (s, f)).1.1), (fun s f => (T (s, f)).1.2), (fun s f => (T (s, f)).2).
eexists; split; [by []| | | |].
- by move=> f s n; rewrite ffunE mxE bmmE.
- by move=> s f; case: (hb (s, f)).
- by move=> s f; case: (hb (s, f)).
- by move=> s f; case: (hb (s, f)).
Qed.
End Fwd.
