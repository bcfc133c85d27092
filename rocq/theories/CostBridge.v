From Coq Require Import Ring Field.
From mathcomp Require Import all_ssreflect all_algebra complex.
From Verif Require Import CAlg Py Batch LinalgModel LinalgProofs TissModel TissSpec TissProofs TissProofs2 TissBridge
  SrcModel SrcSpec CostModel CostSpec CostProofs RField RLog.
Set Implicit Arguments. Unset Strict Implicit. Unset Printing Implicit Defensive.
Import GRing.Theory Num.Theory Order.TTheory.
Local Open Scope ring_scope.
Local Open Scope py_scope.

Section B.
Variable C : numClosedFieldType.
Add Field Cfield_cost9 : (f_ft C).
Ltac cring := fpre; fnorm C; fatoms; ring.
Ltac cfield := fpre; fnorm C; fatoms; field.
Variable lg : C -> C.
Hypothesis ll : log_like lg.

Lemma c19_sweep_lemma nS nB nT nN (w Y : 'M[C]_(nS, nN)) (W : 'M[C]_(nS, nS + nB)) (H : taps C nT nS (nS + nB))
    Z J Xb eps :
  (0 < nN)%N -> 0 < eps -> eps <= 1 -> (forall s n, 0 <= w s n) -> \det (full_demix W J) != 0 ->
  let: (Y', W', _) := iss_updates w eps Z J Xb (Y, W, H) in
  surrogate lg w Y' (full_demix W' J) <= surrogate lg w Y (full_demix W J).
Proof.
move=> n0 e0 e1 w0 d0; have := @sweep_sur C lg ll nS nB nT nN w eps n0 e0 w0 Z J Xb e1 (Y, W, H).
rewrite /ddet /= exprn_gt0 ?normr_gt0 // => /(_ isT).
by case: (iss_updates _ _ _ _ _ _) => [[Y' W'] H'].
Qed.

Hypothesis lm : log_mul lg.
Lemma gain_max nS nF nN (Y : sig C nF nN nS) eps s : gain eps Y s = Num.max (mean_power Y s) eps.
Proof.
rewrite /gain /mean_power /clamp /Num.max.
by under [X in _ = if (X / _) < _ then _ else X / _]eq_bigr => f _ do
  under eq_bigr => n _ do rewrite -mag_sqE.
Qed.

Lemma c19_iteration_lemma nS nB nF nT dl nN (X : sig C nF nN (nS + nB)) em eps
    (x y : @st C nS nB nF nT nN unit) :
  (0 < nN)%N -> 0 < eps -> eps <= 1 -> 0 < em ->
  one_iter dl (laplace_model em) X eps x = Ok y ->
  (forall f, \det (full_demix (stW x f) (stJ y f)) != 0) ->
  let a s := sqrtC (Num.max (mean_power (stY x) s) eps) in
  is_true (laplace_cost lg em (fun f => scale_rows a (stY y f)) (fun f => full_demix (scale_rows a (stW y f)) (stJ y f))
  <= laplace_cost lg em (stY x) (fun f => full_demix (stW x f) (stJ y f))).
Proof.
move=> n0 e0 e1 m0 h dn a.
have aE m (M : 'M[C]_(nS, m)) : scale_rows a M = scale_rows (den eps (stY x)) M.
  by apply/matrixP => s n; rewrite !mxE /a -gain_max denE.
have -> : laplace_cost lg em (fun f => scale_rows a (stY y f)) (fun f => full_demix (scale_rows a (stW y f)) (stJ y f))
  = laplace_cost lg em (fun f => scale_rows (den eps (stY x)) (stY y f))
     (fun f => full_demix (scale_rows (den eps (stY x)) (stW y f)) (stJ y f)).
  rewrite /laplace_cost /frame_norm; congr (_ - _); last by apply: eq_bigr => f _; rewrite aE.
  apply: eq_bigr => s _; congr (_ / _); apply: eq_bigr => n _; congr (contrast em (sqrtC _)).
  by apply: eq_bigr => f _; rewrite aE.
exact: (iter_cost n0 e0 e1 m0 ll lm h dn).
Qed.

Lemma c19_si_lemma nS nB nF nT dl nN (X : sig C nF nN (nS + nB)) em eps
    (x y : @st C nS nB nF nT nN unit) :
  (0 < nN)%N -> (0 < nF)%N -> 0 < eps -> eps <= 1 -> 0 < em ->
  one_iter dl (laplace_model em) X eps x = Ok y ->
  (forall f, \det (full_demix (stW x f) (stJ y f)) != 0) ->
  unclamped em eps x -> (forall s, 0 < \sum_n frame_norm (stY y) s n) ->
  laplace_cost_si lg (stY y) (fun f => full_demix (stW y f) (stJ y f))
  <= laplace_cost_si lg (stY x) (fun f => full_demix (stW x f) (stJ y f)).
Proof.
move=> n0 f0 e0 e1 m0 h dn [u1 u2] yp.
exact: (iter_cost_si n0 e0 e1 m0 ll lm f0 h dn u1 yp u2).
Qed.

(* a whole run, as many microphones as sources *)
Section Run.
Variables (nS nF nT dl nN : nat) (X : sig C nF nN (nS + 0)) (em eps : C).
Hypothesis n0 : (0 < nN)%N.
Hypothesis f0 : (0 < nF)%N.
Hypothesis e0 : 0 < eps.
Hypothesis e1 : eps <= 1.
Hypothesis m0 : 0 < em.
Local Notation st := (@st C nS 0 nF nT nN unit).
Local Notation iter := (one_iter dl (laplace_model (nS := nS) (nF := nF) (nN := nN) em) X eps).
Definition csi (x : st) : C := laplace_cost_si lg (stY x) (fun f => full_demix (stW x f) (stJ x f)).
Lemma csi_J (x : st) (J : filt C nF 0 nS) :
  laplace_cost_si lg (stY x) (fun f => full_demix (stW x f) (J f)) = csi x.
Proof. by rewrite /csi /laplace_cost_si; congr (_ - _); apply: eq_bigr => f _; rewrite !det_full0. Qed.
Lemma lap_real m (Y : sig C nF nN nS) f s n : (laplace_model em m Y).1 f s n \is Num.real.
Proof.
by have := wts_gt0 m0 Y f s n; rewrite /wts /laplace_model /= ffunE => /gtr0_real.
Qed.
Lemma run_si n (x y : st) : iterate iter n x = Ok y ->
  (forall f, \det (lsubmx (stW x f)) != 0) ->
  (forall k z, (k < n)%N -> iterate iter k x = Ok z -> unclamped em eps z) ->
  (forall s, 0 < \sum_n frame_norm (stY y) s n) ->
  csi y <= csi x.
Proof.
elim: n x => [|n IH] x /=; first by case=> ->.
case E: (iter x) => [z|//] /= h dx uc yp.
have dz f : \det (lsubmx (stW z f)) != 0.
  have [k [k0 ->]] := one_iter_det0 e0 lap_real f E.
  by rewrite mulf_neq0 // gt_eqF.
have uz k v : (k < n)%N -> iterate iter k z = Ok v -> unclamped em eps v.
  by move=> kn hv; apply: (uc k.+1 v) => //=; rewrite E.
apply: le_trans (IH z h dz uz yp) _.
rewrite -(csi_J x (stJ z)); apply: c19_si_lemma E _ _ _ => //.
- by move=> f; rewrite det_full0.
- exact: (uc 0%N).
case: n h uz IH uc => [[->] //|n] h uz _ _ s.
have [u _] := uz 0%N z isT (erefl _).
rewrite (bigD1 (Ordinal n0)) //= ltr_paddr //; first by apply: sumr_ge0 => k _; apply: frame_norm_ge0.
by have := lt_le_trans m0 (u s (Ordinal n0)); rewrite pmulr_rgt0 // ltr0n.
Qed.
Lemma run_init n x y : init nT dl X eps tt = Ok x -> iterate iter n x = Ok y ->
  (forall k z, (k < n)%N -> iterate iter k x = Ok z -> unclamped em eps z) ->
  (forall s, 0 < \sum_n frame_norm (stY y) s n) ->
  laplace_cost_si lg (stY y) (fun f => full_demix (stW y f) (stJ y f))
  <= laplace_cost_si lg (stY x) (fun f => full_demix (stW x f) (stJ x f)).
Proof.
move=> hi hn uc yp; apply: run_si hn _ uc yp => f; move: hi; rewrite /init /= => -[<-] /=.
by rewrite ffunE row_mxKl det1 oner_neq0.
Qed.
End Run.
End B.

Lemma lnC_log_mul : log_mul lnC.
Proof.
move=> [x xi] [y yi]; rewrite !ltcE /= => /andP [/eqP -> hx] /andP [/eqP -> hy].
have [x0 y0] : (Rdefinitions.Rlt Rdefinitions.R0 x) /\ (Rdefinitions.Rlt Rdefinitions.R0 y) by split; apply/RltbP.
rewrite /lnC /= mulr0 subr0.
by rewrite -rmorphD; congr (_%:C)%C; exact: Rpower.ln_mult.
Qed.

(* a clamp above one can increase the cost: one source, one sample *)
Section Large.
Variable C : numClosedFieldType.
Add Field Cfield_cost10 : (f_ft C).
Ltac cring := fpre; fnorm C; fatoms; ring.
Ltac cfield := fpre; fnorm C; fatoms; field.
Variable lg : C -> C.
Hypothesis ll : log_like lg.
Lemma large_eps : let w : 'M[C]_(1, 1) := const_mx 1 in
  let: (Y', W', _) := iss_updates (nT := 0) w 4%:R (0 : 'M[C]_(0, 1)) (0 : 'M[C]_(0, 1)) [ffun=> 0]
      (const_mx 1, row_mx 1%:M 0, [ffun=> 0]) in
  is_true (surrogate lg w (const_mx 1 : 'M[C]_(1, 1)) (full_demix (row_mx 1%:M 0) (0 : 'M[C]_(0, 1)))
  < surrogate lg w Y' (full_demix W' (0 : 'M[C]_(0, 1)))).
Proof.
move=> w; set st0 := (_, _, _).
have e0 : enum 'I_0 = [::] by apply: size0nil; rewrite size_enum_ord.
have e1 : enum 'I_1 = [:: ord0] by rewrite enum_ordSl e0.
have -> : iss_updates (nT := 0) w 4%:R (0 : 'M[C]_(0, 1)) (0 : 'M[C]_(0, 1)) [ffun=> 0] st0 = step1 w 4%:R st0 ord0.
  by rewrite /iss_updates e1 /= e0 /=.
set st1 := step1 _ _ _ _.
have w0 s n : 0 <= w s n by rewrite mxE ler01.
have p4 : 0 < 4%:R :> C by rewrite ltr0n.
have v0 : var w st0 ord0 = 1.
  by rewrite /var /wpower big_ord1 !mxE normr1 expr1n mulr1 divr1.
have d0 : ddet (0 : 'M[C]_(0, 1)) st0 = 1.
  by rewrite /ddet det_full0 /= row_mxKl det1 normr1 expr1n.
have o0 : own w 4%:R st0 ord0 = 4%:R.
  by rewrite /own v0 /clamp -[1]/(1%:R : C) ltr_nat.
have v1 : var w st1 ord0 = 4%:R^-1 by rewrite /st1 step1_var_own // v0 o0 mul1r.
have d1 : ddet 0 st1 = 4%:R^-1 by rewrite /st1 step1_ddet // d0 o0 mul1r.
rewrite (_ : surrogate lg w (const_mx 1) _ = 1 - lg 1); last first.
  by rewrite -[LHS]/(sur lg w 0 st0) surE big_ord1 v0 d0.
suff : 1 - lg 1 < sur lg w (0 : 'M[C]_(0, 1)) st1 by case: (st1) => [[Y' W'] H'].
rewrite surE big_ord1 v1 d1.
have h : 0 < 2%:R^-1 :> C by rewrite invr_gt0 ltr0n.
have q : 0 < 4%:R^-1 :> C by rewrite invr_gt0.
have := ler_add (ll (@ltr01 C) h) (ll h q).
have e : 4%:R^-1 / 2%:R^-1 = 2%:R^-1 :> C.
  have -> : 4%:R = 2%:R * 2%:R :> C by rewrite -natrM.
  by rewrite invfM invrK mulfVK // pnatr_eq0.
rewrite divr1 e.
have -> : lg 2%:R^-1 - lg 1 + (lg 4%:R^-1 - lg 2%:R^-1) = lg 4%:R^-1 - lg 1 by cring.
have -> : 2%:R^-1 - 1 + (2%:R^-1 - 1) = -1 :> C.
  have -> : 2%:R^-1 - 1 + (2%:R^-1 - 1) = 2%:R * 2%:R^-1 - 2%:R :> C by cring.
  by rewrite mulfV ?pnatr_eq0 //; cring.
move=> le.
have lt : 0 < 4%:R^-1 + (-1 - (lg 4%:R^-1 - lg 1)) by rewrite ltr_paddr // subr_ge0.
by rewrite -subr_gt0; move: lt; congr (0 < _); cring.
Qed.
Lemma large_det : \det (full_demix (row_mx 1%:M 0 : 'M[C]_(1, 1 + 0)) (0 : 'M[C]_(0, 1))) != 0.
Proof. by rewrite det_full0 row_mxKl det1 oner_neq0. Qed.
End Large.

(* two sources whose frames are [1 1] and [1 -1]: no clamp is active *)
Section Ex.
Variable C : numClosedFieldType.
Definition exY : sig C 1 2 2 := [ffun=> \matrix_(s, n) (if (s == 1) && (n == 1) then -1 else 1)].
Definition exst : @st C 2 0 1 0 2 unit := mkst exY [ffun=> row_mx 1%:M 0] [ffun=> [ffun=> 0]] [ffun=> 0] tt.
Lemma exY_norm f s n : `|exY f s n| ^+ 2 = 1.
Proof. by rewrite ffunE mxE; case: ifP => _; rewrite ?normrN1 ?normr1 expr1n. Qed.
Lemma ex_frame s n : frame_norm exY s n = 1.
Proof. by rewrite /frame_norm big_ord1 exY_norm sqrtC1. Qed.
Lemma ex_gain eps s : 0 < eps -> eps <= 1 -> gain eps exY s = 1.
Proof.
move=> e0 e1; rewrite gain_max /mean_power big_ord1 big_ord_recl big_ord1 !exY_norm mul1n divff; last by rewrite -[1 + 1]/(2%:R : C) pnatr_eq0.
by rewrite /Num.max; case: ifP => // /lt_geF; rewrite e1.
Qed.
Lemma ex_weights em eps f s n : 0 < em -> em <= 1 -> 0 < eps -> eps <= 1 -> iter_weights em eps exY f s n = 2%:R^-1.
Proof.
move=> m0 m1 e0 e1; rewrite wts1E wtsE ex_frame ex_gain // mulr1 div1r mulr1 clamp_id //.
by apply: le_trans m1 _; rewrite ler1n.
Qed.
Lemma ex_start eps f s n : 0 < eps -> eps <= 1 -> (iter_start eps exst f).1.1 s n = exY f s n.
Proof.
by move=> e0 e1; rewrite mxE ex_gain // sqrtC1 /divide clamp_id // divr1.
Qed.
Lemma ex_unclamped (eps : C) : 0 < eps -> eps <= 2%:R^-1 -> unclamped 1 eps exst.
Proof.
move=> e0 e2; have e1 : eps <= 1 by apply: le_trans e2 _; rewrite invf_le1 ?ltr0n // ler1n.
split=> [s n|f s w]; first by rewrite ex_frame mulr1 ler1n.
have wE t n : w t n = 2%:R^-1 by rewrite /w ex_weights ?ltr01.
have n2 : 2%:R != 0 :> C by rewrite pnatr_eq0.
have P (y : 'I_2 -> C) : (forall n, `|y n| ^+ 2 = 1) -> wpower (w s) y / 2%:R = 2%:R^-1.
  move=> h; rewrite /wpower big_ord_recl big_ord1 !h !wE !mulr1 -mulr2n -mulr_natl mulfV //.
  by rewrite mul1r.
have st_norm t n : `|(iter_start eps exst f).1.1 t n| ^+ 2 = 1 by rewrite ex_start // exY_norm.
have e2E : enum 'I_2 = [:: ord0; 1] by rewrite !enum_ordSl (_ : enum 'I_0 = [::]) /=; [congr [:: _; _]; apply: val_inj | apply: size0nil; rewrite size_enum_ord].
case: (ltngtP s 1%N) => [|lt|es]; first by rewrite ltnS leqn0 => /eqP ->; rewrite take0 /= P.
- by have := ltn_ord s; rewrite ltnS leqNgt lt.
rewrite es e2E /=; have es' : s = 1 by apply: val_inj; exact: es.
suff yE n : (step1 w eps (iter_start eps exst f) ord0).1.1 s n = (iter_start eps exst f).1.1 s n.
  by rewrite P // => n; rewrite yE.
case E: (iter_start eps exst f) => [[Y W] H] /=; rewrite mxBE outer_entry iss1_other ?es' //.
have -> : wcorr (w 1) (Y 1) (Y ord0) = 0.
  have YE t n' : Y t n' = exY f t n' by rewrite -(ex_start f t n' e0 e1) E.
  by rewrite /wcorr big_ord_recl big_ord1 !YE !wE !ffunE !mxE /= rmorph1 !mulr1 mulrN1 addrN.
by rewrite !mul0r subr0.
Qed.
End Ex.
