(* Beamformers in terms of the specification vocabulary. *)
From Coq Require Import Ring Field.
From mathcomp Require Import all_ssreflect all_algebra.
From Verif Require Import CAlg Py Batch LinalgModel LinalgSpec LinalgProofs LinalgBridge.
From Verif Require Import TissModel BeamModel BeamSpec BeamProofs.
Set Implicit Arguments. Unset Strict Implicit. Unset Printing Implicit Defensive.
Import GRing.Theory Num.Theory Order.TTheory.
Local Open Scope ring_scope.
Local Open Scope py_scope.

Section Bridge.
Variable C : numClosedFieldType.
Add Field beamB : (f_ft C).
Ltac cring := fpre; fnorm C; fatoms; ring.
Ltac cfield := fpre; fnorm C; fatoms; field.
Variable k : nat.
Local Notation nC := k.+1.
Implicit Types (Rt Rn : 'M[C]_nC) (ref : 'I_nC).

(* ---- C29 *)
Lemma c29_lemma Rn (d : 'cV[C]_nC) (eps : C) : psd Rn -> 0 < eps ->
  exists l w a, [/\ compute_mvdr_bf Rn d eps = Ok w, is_load Rn eps l, (Rn + l%:M) *m a = d,
   (eps <= response d a -> response w d = 1 /\
      forall u, response u d = 1 -> u != w -> out_power (Rn + l%:M) w < out_power (Rn + l%:M) u) &
   (response d a < eps -> response w d = response d a / eps /\ 0 <= response w d < 1)].
Proof.
move=> hR e0; rewrite /compute_mvdr_bf (solve_loaded_psd _ _ hR e0) //.
set l := load_factor Rn eps; set P := Rn + _; rewrite /=.
have hP : pd P by exact: pd_loaded.
have PE : Rn + l%:M = P by rewrite /P scalemx1.
set a := invmx P *m d; have ha : P *m a = d by rewrite mulKVmx ?pd_unit.
exists l, ((clamp ('Re (\sum_c (d c 0)^* * a c 0)) eps)^-1 *: a), a; rewrite PE.
have q0 := resp_ge0 hP ha.
have -> : 'Re (\sum_c (d c 0)^* * a c 0) = response d a by apply: Creal_ReP; exact: ger0_real.
split=> //; first exact: load_factor_is.
- move=> h; rewrite clamp_id //; have qn : response d a != 0 by rewrite gt_eqF // (lt_le_trans e0).
  split; first exact: mvdr_distortionless.
  by move=> u hu ne; rewrite !out_powerE; apply: mvdr_optimal.
- move=> h; rewrite /clamp h responseZ conj_Creal ?realV ?gtr0_real // -response_conj conj_Creal ?ger0_real //.
  rewrite mulrC; split=> //; rewrite mulr_ge0 ?invr_ge0 ?(ltW e0) //=.
  by rewrite ltr_pdivr_mulr // mul1r.
Qed.

(* ---- C32 *)
Lemma c32_ref Rt Rn (eps : C) ref : psd Rt -> psd Rn ->
  exists l w, [/\ compute_mwf_ref Rt Rn eps ref = Ok w, is_load (Rt + Rn) (10%:R ^- 6) l &
   forall u, u != w -> mmse_objective Rt Rn ref l w < mmse_objective Rt Rn ref l u].
Proof.
move=> ht hn; have e0 : 0 < c6 C by rewrite invr_gt0 exprn_gt0 ?ltr0n.
have hP := psdD ht hn.
rewrite /compute_mwf_ref (solve_loaded_psd _ _ hP e0) //.
exists (load_factor (Rt + Rn) (c6 C)); eexists; split; [by []|exact: load_factor_is|].
move=> u; apply: mmse_min => //; first exact: load_factor_gt0.
rewrite -scalemx1 mulKVmx //; apply: pd_unit; exact: pd_loaded.
Qed.
Lemma c32_all Rt Rn (eps : C) : psd Rt -> psd Rn -> 0 < eps ->
  exists l W, [/\ compute_mwf_all Rt Rn eps = Ok W, is_load (Rt + Rn) eps l &
   forall ref u, u != col ref W -> mmse_objective Rt Rn ref l (col ref W) < mmse_objective Rt Rn ref l u].
Proof.
move=> ht hn e0; have hP := psdD ht hn.
rewrite /compute_mwf_all (solve_loaded_psd _ _ hP e0) //.
exists (load_factor (Rt + Rn) eps); eexists; split; [by []|exact: load_factor_is|].
move=> ref u; apply: mmse_min => //; first exact: load_factor_gt0.
rewrite -scalemx1 [col ref (_ *m _)]colE -!mulmxA mulKVmx -?colE //; apply: pd_unit; exact: pd_loaded.
Qed.

(* ---- C31 *)
Lemma tr_outer n (x y : 'cV[C]_n) : \sum_i (x *m ctr y) i i = response y x.
Proof. by apply: eq_bigr => i _; rewrite mxE big_ord1 ctrE mulrC. Qed.
Lemma c31_lemma Rn (d : 'cV[C]_nC) (s eps : C) ref :
  pd Rn -> s != 0 -> d ref 0 != 0 ->
  exists w, compute_mvdr_bf2 (s *: (d *m ctr d)) Rn ref eps = Ok w /\
   response w ((d ref 0)^-1 *: d) = 1 /\
   forall u, response u ((d ref 0)^-1 *: d) = 1 -> u != w -> out_power Rn w < out_power Rn u.
Proof.
move=> hR s0 dr; rewrite /compute_mvdr_bf2 torch_solve_pd //=.
set a := invmx Rn *m d; have ha : Rn *m a = d by rewrite mulKVmx ?pd_unit.
have numE : invmx Rn *m (s *: (d *m ctr d)) = s *: (a *m ctr d) by rewrite -scalemxAr mulmxA.
have d0 : d != 0 by apply: contraNneq dr => ->; rewrite mxE.
have q0 := resp_gt0 hR ha d0; set q := response d a in q0.
have den : \sum_i (s *: (a *m ctr d)) i i = s * q.
  by rewrite /q -tr_outer mulr_sumr; apply: eq_bigr => i _; rewrite mxZE.
set d' := (d ref 0)^-1 *: d; set a' := (d ref 0)^-1 *: a.
have ha' : Rn *m a' = d' by rewrite -scalemxAr ha.
have q'E : response d' a' = `|d ref 0| ^- 2 * q.
  rewrite responseZ responseZr mulrA; congr (_ * _).
  by rewrite fmorphV -invfM normCK mulrC.
have wE : col ref ((s * q)^-1 *: (s *: (a *m ctr d))) = (response d' a')^-1 *: a'.
  apply/matrixP=> i j; rewrite q'E mxE !mxZE [(a *m _) i ref]mxE big_ord1 ctrE ord1.
  have -> : (`|d ref 0| ^- 2 * q)^-1 = d ref 0 * (d ref 0)^* / q by rewrite invfM invrK normCK.
  have qn : q != 0 by rewrite gt_eqF.
  by move: s0 qn dr => /eqP s0 /eqP qn /eqP dr; cfield.
rewrite numE den; eexists; split; first by []; rewrite wE.
have q'0 : response d' a' != 0.
  by rewrite q'E mulf_neq0 ?gt_eqF // invr_gt0 exprn_gt0 // normr_gt0.
split; first exact: mvdr_distortionless.
by move=> u hu ne; rewrite !out_powerE; apply: mvdr_optimal.
Qed.
Lemma c31_singular Rt Rn ref eps : Rn \notin unitmx -> compute_mvdr_bf2 Rt Rn ref eps = Err LinAlgError.
Proof. by rewrite /compute_mvdr_bf2 /torch_solve => /negbTE ->. Qed.

(* ---- generalized eigenvectors *)
Lemma geighE (eighO : forall n, eigh_oracle C n) Rt Rn : k != 1%N ->
  geigh eighO Rt Rn = geigh_n (eighO nC) Rt Rn.
Proof. by move: Rt Rn; case: k => [|[|k']]. Qed.

Lemma diag_qf n (M : 'M[C]_n) (c : 'cV[C]_n) : (forall i j, i != j -> M i j = 0) ->
  qf M c = \sum_i `|c i 0| ^+ 2 * M i i.
Proof.
move=> h; rewrite /qf -mulmxA mxE; apply: eq_bigr => i _; rewrite ctrE mxE (bigD1 i) //= big1 => [|j ne].
  by rewrite addr0 normCK; cring.
by rewrite h 1?eq_sym // mul0r.
Qed.
Lemma qf_trans n (M V : 'M[C]_n) c : qf (ctr V *m M *m V) c = qf M (V *m c).
Proof. by rewrite /qf ctrM !mulmxA. Qed.

Section Pencil.
Variables (n : nat) (A B V : 'M[C]_n) (ev : 'I_n -> C).
Hypotheses (hB : pd B) (uV : V \in unitmx).
Hypothesis he : forall i, eigenpair A B (ev i) (col i V).
Hypothesis orth : forall i j, i != j -> (ctr V *m B *m V) i j = 0.
Lemma pencil_entry i j : (ctr V *m A *m V) i j = ev j * (ctr V *m B *m V) i j.
Proof.
have E (M : 'M[C]_n) : (ctr V *m M *m V) i j = (ctr V *m (M *m col j V)) i 0.
  by rewrite [col j V]colE !mulmxA -colE [RHS]mxE.
by rewrite !E (he j) -scalemxAr mxZE.
Qed.
Lemma pencil_diag_gt0 i : 0 < (ctr V *m B *m V) i i.
Proof.
have -> : (ctr V *m B *m V) i i = qf B (col i V).
  have -> : (ctr V *m B *m V) i i = (ctr V *m (B *m col i V)) i 0.
    by rewrite [col i V]colE !mulmxA -colE [RHS]mxE.
  rewrite /qf -mulmxA; move: (B *m col i V) => z; rewrite !mxE; apply: eq_bigr => r _.
  by rewrite !ctrE mxE.
case: hB => _; apply; apply/negP => /eqP z.
have : col i (1%:M : 'M[C]_n) = 0 by rewrite -(mulVmx uV) [LHS]colE -mulmxA -colE z mulmx0.
by move/matrixP/(_ i 0)/eqP; rewrite !mxE eqxx oner_eq0.
Qed.
Lemma rayleigh m : (forall i, ev i <= ev m) -> forall w, qf A w <= ev m * qf B w.
Proof.
move=> top w; have [c ->] : exists c, w = V *m c by exists (invmx V *m w); rewrite mulKVmx.
rewrite -!qf_trans !diag_qf => [|i j ne|i j ne]; rewrite ?orth //; last by rewrite pencil_entry orth // mulr0.
rewrite mulr_sumr; apply: ler_sum => i _; rewrite pencil_entry mulrCA.
by rewrite ler_wpmul2r ?top // mulr_ge0 ?exprn_ge0 // ltW // pencil_diag_gt0.
Qed.
Lemma rayleigh_top m : qf A (col m V) = ev m * qf B (col m V).
Proof. by rewrite /qf -!mulmxA (he m) -scalemxAr mxZE. Qed.
(* a non-zero psd A has a positive top eigenvalue *)
Lemma top_gt0 m : psd A -> A != 0 -> (forall i, ev i <= ev m) -> 0 < ev m.
Proof.
move=> hA A0 top.
have ge i : 0 <= ev i.
  have b0 : 0 < qf B (col i V).
    case: hB => _; apply; apply/negP => /eqP z; have := pencil_diag_gt0 i.
    have -> : (ctr V *m B *m V) i i = (ctr V *m (B *m col i V)) i 0.
      by rewrite [col i V]colE !mulmxA -colE [RHS]mxE.
    by rewrite z mulmx0 mulmx0 mxE ltxx.
  have := (proj2 hA) (col i V); rewrite rayleigh_top pmulr_lge0 //.
rewrite lt_def ge andbT; apply: contraNneq A0 => z.
have evz i : ev i = 0 by apply/eqP; rewrite eq_le ge andbT -z top.
suff : A *m V = 0 by move/(congr1 (mulmx^~ (invmx V))); rewrite mulmxK // mul0mx => ->.
apply/matrixP=> r i; have /matrixP /(_ r 0) := he i.
by rewrite evz scale0r colE mulmxA -colE !mxE.
Qed.
End Pencil.

Lemma wc_pd n (B : 'M[C]_n) : herm B -> well_conditioned B -> pd B.
Proof.
move=> h wc; split=> // v v0; apply: lt_le_trans (wc v).
by rewrite mulr_gt0 ?invr_gt0 ?exprn_gt0 ?ltr0n // nrm2_gt0.
Qed.

(* ---- C33 *)
Lemma c33_lemma (eighO : forall n, eigh_oracle C n) Rt Rn ref :
  k != 1%N -> eigensolver (eighO nC) -> herm Rt -> herm Rn -> well_conditioned Rn ->
  exists (r : 'rV[C]_nC) (v a : 'cV[C]_nC) (l : C), [/\ compute_gev_bf eighO Rt Rn ref = Ok r,
    r = a ref 0 *: ctr v /\ (r *m a) 0 0 = a ref 0,
    response v a = 1 /\ (exists c : C, Rn *m v = c *: a),
    eigenpair Rt Rn l v &
    forall w, out_power Rt w <= l * out_power Rn w].
Proof.
move=> k1 ok hA hB wc; have hp := wc_pd hB wc.
have [ev [V [gE [rev asc he uV orth]]]] := c13_lemma ok hA hB wc.
rewrite /compute_gev_bf geighE // gE /=.
have uH : hermite V \in unitmx by rewrite hermiteE ctr_unit.
rewrite torch_solveE //=; set a := invmx _ *m _.
have ha : ctr V *m a = delta_mx ord_max 0 by rewrite /a -hermiteE mulKVmx.
set r := \row_c _; have rE : r = a ref 0 *: ctr (col ord_max V).
  by apply/matrixP=> i c; rewrite (ord1 i) mxZE ctrE [col _ _ _ _]mxE [r _ _]mxE mulrC.
have vd : (ctr (col ord_max V) *m a) 0 0 = 1.
  transitivity ((ctr V *m a) ord_max 0); last by rewrite ha mxE !eqxx.
  by rewrite !mxE; apply: eq_bigr => i _; rewrite !ctrE [col _ _ _ _]mxE.
exists r, (col ord_max V), a, (ev ord_max); split=> //.
- by split=> //; rewrite rE -scalemxAl mxZE vd mulr1.
- split; first by rewrite responseE.
  (* V^H Rn v_last is a multiple of e_last = V^H a *)
  exists ((ctr V *m Rn *m V) ord_max ord_max).
  have uc : ctr V \in unitmx by rewrite ctr_unit.
  apply: (can_inj (mulKmx uc)).
  rewrite -scalemxAr ha; apply/matrixP=> i j; rewrite ord1.
  have -> : (ctr V *m (Rn *m col ord_max V)) i 0 = (ctr V *m Rn *m V) i ord_max.
    by rewrite [col _ V]colE !mulmxA -colE [LHS]mxE.
  rewrite mxZE [delta_mx _ _ _ _]mxE eqxx andbT; case: (altP (i =P ord_max)) => [->|ne]; first by rewrite mulr1.
  by rewrite orth // mulr0.
- move=> w; rewrite !out_powerE; apply: (rayleigh hp uV he orth) => i.
  by apply: asc; rewrite -ltnS.
Qed.

(* with two channels, uncorrelated covariances make compute_gev_bf fail *)
Lemma zero_col_sing n (V : 'M[C]_n) i : col i V = 0 -> hermite V \notin unitmx.
Proof.
move=> z; rewrite hermiteE ctr_unit; apply/negP => u.
have : col i (1%:M : 'M[C]_n) = 0 by rewrite -(mulVmx u) [LHS]colE -mulmxA -colE z mulmx0.
by move/matrixP/(_ i 0)/eqP; rewrite !mxE eqxx oner_eq0.
Qed.
End Bridge.

Section More.
Variable C : numClosedFieldType.
Add Field beamB2 : (f_ft C).
Ltac cring := fpre; fnorm C; fatoms; ring.
Ltac cfield := fpre; fnorm C; fatoms; field.

Lemma c33_two (eighO : forall n, eigh_oracle C n) (A B : 'M[C]_2) ref :
  herm A -> pd B -> A 0 1 = 0 -> B 0 1 = 0 ->
  10%:R ^- 15 <= \det B -> 10%:R ^- 15 <= pencil_disc A B ->
  compute_gev_bf eighO A B ref = Err LinAlgError.
Proof.
move=> hA hB a0 b0 dB de; have e0 : 0 < (10%:R ^- 15 : C) by rewrite invr_gt0 exprn_gt0 ?ltr0n.
have [i z] := c11_diag_lemma hA hB a0 b0 e0 dB de.
by rewrite /compute_gev_bf /= /torch_solve (negbTE (zero_col_sing z)).
Qed.

(* ---- C30 *)
Section Rtf.
Variable k : nat.
Local Notation nC := k.+1.
Implicit Types (Rt Rn : 'M[C]_nC) (ref : 'I_nC).

Lemma outer_apply (d v : 'cV[C]_nC) (s : C) : (s *: (d *m ctr d)) *m v = (s * response d v) *: d.
Proof.
rewrite -scalemxAl -mulmxA; have -> : ctr d *m v = (response d v)%:M.
  by apply/matrixP=> i j; rewrite !ord1 responseE !mxE eqxx mulr1n.
by rewrite mul_mx_scalar scalerA.
Qed.
Lemma rtf_scale (c : C) (d : 'cV[C]_nC) ref : c != 0 ->
  ((c *: d) ref 0)^-1 *: (c *: d) = (d ref 0)^-1 *: d.
Proof. by move=> c0; rewrite mxZE scalerA invfM -mulrA [_ * c]mulrC mulrA mulVf // mul1r. Qed.

Lemma c30_gevd (eighO : forall n, eigh_oracle C n) Rt Rn ref :
  k != 1%N -> eigensolver (eighO nC) -> herm Rt -> herm Rn -> well_conditioned Rn ->
  exists v l, [/\ eigenpair Rt Rn l v, v != 0, (forall w, out_power Rt w <= l * out_power Rn w) &
   ((Rn *m v) ref 0 != 0 -> exists d, [/\ compute_mvdr_rtf_eigh eighO Rt Rn ref None = Ok d,
      d ref 0 = 1 & exists c : C, d = c *: (Rn *m v)])].
Proof.
move=> k1 ok hA hB wc; have hp := wc_pd hB wc.
have [ev [V [gE [rev asc he uV orth]]]] := c13_lemma ok hA hB wc.
exists (col ord_max V), (ev ord_max); split=> //.
- apply/negP => /eqP z; have := zero_col_sing z; by rewrite hermiteE ctr_unit uV.
- move=> w; rewrite !out_powerE; apply: (rayleigh hp uV he orth) => i.
  by apply: asc; rewrite -ltnS.
- rewrite /compute_mvdr_rtf_eigh /rtf_vector geighE // gE /= => nz.
  eexists; split; [by []| |by eexists].
  by rewrite mxZE mulVf.
Qed.
Lemma c30_rank1 (eighO : forall n, eigh_oracle C n) (s : C) (d : 'cV[C]_nC) Rn ref :
  k != 1%N -> eigensolver (eighO nC) -> herm Rn -> well_conditioned Rn -> 0 < s -> d ref 0 != 0 ->
  compute_mvdr_rtf_eigh eighO (s *: (d *m ctr d)) Rn ref None = Ok ((d ref 0)^-1 *: d).
Proof.
move=> k1 ok hB wc s0 dr; have hp := wc_pd hB wc.
have hA : psd (s *: (d *m ctr d)) by apply: psdZ; [exact: ltW|exact: psd_outer].
have d0 : d != 0 by apply: contraNneq dr => ->; rewrite mxE.
have A0 : s *: (d *m ctr d) != 0.
  rewrite scaler_eq0 (gt_eqF s0) /=; apply/negP => /eqP /matrixP /(_ ref ref) /eqP.
  by rewrite mxE big_ord1 ctrE mxE mulf_eq0 conjC_eq0 orbb (negbTE dr).
have [ev [V [gE [rev asc he uV orth]]]] := c13_lemma ok (proj1 hA) hB wc.
have top i : ev i <= ev ord_max by apply: asc; rewrite -ltnS.
have l0 := top_gt0 hp uV he hA A0 top.
rewrite /compute_mvdr_rtf_eigh /rtf_vector geighE // gE /=; congr Ok.
set v := col ord_max V; have := he ord_max; rewrite /eigenpair outer_apply -/v => e.
have e' : Rn *m v = ((ev ord_max)^-1 * (s * response d v)) *: d.
  by rewrite -scalerA e scalerA mulVf ?gt_eqF // scale1r.
rewrite e' rtf_scale // mulf_neq0 ?invr_eq0 ?(gt_eqF l0) // mulf_neq0 ?(gt_eqF s0) //.
apply/negP => /eqP z; move: e'; rewrite z !mulr0 scale0r => z2.
have : v = 0 by rewrite -[v](mulKmx (pd_unit hp)) z2 mulmx0.
by move/zero_col_sing; rewrite hermiteE ctr_unit uV.
Qed.

(* power iterations: the loaded noise covariance enters *)
Lemma c30_power (eighO : forall n, eigh_oracle C n) (s : C) (d : 'cV[C]_nC) Rn ref p :
  psd Rn -> 0 < s -> d 0 0 != 0 ->
  exists l, is_load Rn (10%:R ^- 5) l /\ forall x, (Rn + l%:M) *m x = d ->
   compute_mvdr_rtf_eigh eighO (s *: (d *m ctr d)) Rn ref (Some p)
   = Ok (((Rn *m x) ref 0)^-1 *: (Rn *m x)).
Proof.
move=> hR s0 dr; have e0 : 0 < (10%:R ^- 5 : C) by rewrite invr_gt0 exprn_gt0 ?ltr0n.
exists (load_factor Rn (10%:R ^- 5)); split; first exact: load_factor_is.
rewrite /compute_mvdr_rtf_eigh /rtf_vector (solve_loaded_psd _ _ hR e0) //=.
rewrite -scalemx1; set P := Rn + _ => x hx; have hP : pd P by exact: pd_loaded.
have xE : x = invmx P *m d by rewrite -hx mulKmx // pd_unit.
have d0 : d != 0 by apply: contraNneq dr => ->; rewrite mxE.
set Phi := invmx P *m _; have PhiE v : Phi *m v = (s * response d v) *: x.
  by rewrite /Phi -mulmxA outer_apply -scalemxAr xE.
have q0 : 0 < response d x by exact: (resp_gt0 hP hx d0).
have ind j : exists c, c != 0 /\ iter j (fun v => f_normalize (Phi *m v)) (col 0 Phi) = c *: x.
  elim: j => [|j [c [c0 IH]]] /=.
    exists (s * (d 0 0)^* ); split; first by rewrite mulf_neq0 ?(gt_eqF s0) // conjC_eq0.
    rewrite colE PhiE; congr ((_ * _) *: _); rewrite /response (bigD1 0) //= big1 => [|i ne].
      by rewrite mxE !eqxx mulr1 addr0.
    by rewrite mxE (negbTE ne) mulr0.
  rewrite IH PhiE /f_normalize responseZr scalerA; eexists; split; last by [].
  rewrite mulf_neq0 //; last by rewrite !mulf_neq0 ?(gt_eqF s0) ?(gt_eqF q0).
  rewrite invr_eq0 gt_eqF // clamp_gt0 ?invr_gt0 ?exprn_gt0 ?ltr0n //.
  by rewrite ger0_real // sqrtC_ge0; apply: sumr_ge0 => i _; exact: exprn_ge0.
have [c [c0 ->]] := ind (p - 1)%N.
by congr Ok; rewrite -scalemxAr rtf_scale.
Qed.
End Rtf.
End More.
