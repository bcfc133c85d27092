(* Closed forms of the beamformers with one microphone. *)
From mathcomp Require Import all_ssreflect all_algebra.
From Verif Require Import CAlg Py Batch LinalgModel LinalgProofs TissModel BeamModel LinalgSpec BeamSpec LevelSpec PhaseTiss.
Set Implicit Arguments. Unset Strict Implicit. Unset Printing Implicit Defensive.
Import GRing.Theory Num.Theory Order.TTheory.
Local Open Scope ring_scope.
Local Open Scope py_scope.

Section One.
Variable C : numClosedFieldType.
Variable eighO : forall n, eigh_oracle C n.
Variables (nF nN : nat) (X : sig C nF nN 1).
Local Notation ones := ((fun _ _ => \row_n 1) : masks C 1 nF nN).
Local Notation zeros := ((fun _ _ => \row_n 0) : masks C 1 nF nN).
Lemma cov1 f : cov (ones 0 f) (X f) = (energy X f)%:M.
Proof.
apply/matrixP=> c d; rewrite mxE !ord1 mxE mulr1n; apply: eq_bigr => n _.
by rewrite mxE mul1r normCK.
Qed.
Lemma cov0 f : cov (zeros 0 f) (X f) = 0.
Proof. by apply/matrixP=> c d; rewrite mxE big1 ?mxE // => n _; rewrite mxE !mul0r. Qed.
Lemma energy_ge0 f : 0 <= energy X f.
Proof. by apply: sumr_ge0 => n _; exact: exprn_ge0. Qed.
Lemma max_abs1 (x : C) : 0 <= x -> max_abs (x%:M : 'M_1) = x.
Proof.
move=> h; rewrite /max_abs big_ord_recl big_ord0 big_ord_recl big_ord0 mxE eqxx mulr1n ger0_norm // /Order.max.
by rewrite (le_gtF h) (le_gtF h).
Qed.
Lemma sl1 (x y l : C) : 0 <= x -> 0 < l -> 
  solve_loaded (x%:M : 'M_1) (y%:M : 'M_1) l = Ok ((y / (x + clamp (l * x) l))%:M).
Proof.
move=> hx hl; rewrite /solve_loaded /load_factor max_abs1 // scalemx1 -rmorphD /=.
set z := x + _; have hz : 0 < z.
  apply: (lt_le_trans hl); rewrite -[l]add0r; apply: ler_add => //; apply: clamp_ge; apply: ger0_real.
    by rewrite mulr_ge0 // ltW.
  exact: ltW.
rewrite torch_solveE; last by rewrite unitmxE det_scalar expr1 unitfE lt0r_neq0.
by rewrite invmx_scalar -scalar_mxM mulrC.
Qed.
Lemma quiet eps : (forall f, energy X f <= 1) ->
  mwf_forward X (fun _ => [:: ones; zeros]) 0 eps true =
  Ok [ffun f => (energy X f / (energy X f + 10%:R ^- 6)) *: X f].
Proof.
move=> h; rewrite /mwf_forward.
rewrite (@gather_ok _ _ _ _ (fun sf => ((energy X sf.2 / (energy X sf.2 + 10%:R ^- 6))%:M : 'M_1))); last first.
  case=> s f; rewrite [s]ord1 cov1 cov0 /compute_mwf_ref addr0.
  have -> : col 0 ((energy X f)%:M : 'M[C]_1) = (energy X f)%:M by apply/matrixP=> i j; rewrite !mxE !ord1.
  have l0 : 0 < c6 C by rewrite invr_gt0 exprn_gt0 // ltr0n.
  rewrite sl1 ?energy_ge0 //=; congr (Ok (_ / (_ + _))%:M).
  have r1 : c6 C \is Num.real by rewrite ger0_real // ltW.
  have r2 : c6 C * energy X f \is Num.real by rewrite rpredM // ger0_real // energy_ge0.
  rewrite /clamp; case: ifP => // /negbT; rewrite -real_leNgt // => h1.
  by apply: le_anti; rewrite h1 andbT ler_pimulr // ltW.
rewrite /=; congr Ok; apply/ffunP => f; rewrite !ffunE; apply/matrixP=> s n; rewrite !mxE big_ord_recl big_ord0 addr0 ffunE /= mxE mulr1n [s]ord1.
have e0 := energy_ge0 f; have l0 : 0 < (10%:R : C) ^- 6 by rewrite invr_gt0 exprn_gt0 // ltr0n.
rewrite mulrC; congr (_ * _); apply: conj_Creal; rewrite rpredM ?rpredV ?ger0_real // addr_ge0 // ltW //.
Qed.
Lemma rtf1 (E : C) p : 1 <= E -> compute_mvdr_rtf_eigh eighO (E%:M : 'M_1) (E%:M) 0 (Some p) = Ok (1%:M).
Proof.
move=> E1; have E0 : 0 < E := lt_le_trans ltr01 E1; rewrite /compute_mvdr_rtf_eigh /rtf_vector.
have c0 : 0 < (10%:R : C) ^- 5 by rewrite invr_gt0 exprn_gt0 // ltr0n.
rewrite sl1 ?(ltW E0) //=; set q := E / _; have q0 : 0 < q.
  rewrite divr_gt0 // addr_gt0 // clamp_gt0 // ger0_real // mulr_ge0 // ltW //.
have it j : exists2 v : C, 0 < v & iter j (fun v : 'cV[C]_1 => f_normalize (q%:M *m v)) (col 0 q%:M) = v%:M.
  elim: j => [|j [v v0 IH]]; first by exists q => //; apply/matrixP=> a b; rewrite !mxE !ord1.
  rewrite iterS IH -scalar_mxM /f_normalize scale_scalar_mx; eexists; last by [].
  apply: mulr_gt0; last exact: mulr_gt0.
  rewrite invr_gt0; apply: clamp_gt0; last by rewrite invr_gt0 exprn_gt0 // ltr0n.
  rewrite ger0_real // sqrtC_ge0; apply: sumr_ge0 => i _; exact: exprn_ge0.
have [v v0 ->] := it (p - 1)%N; rewrite -scalar_mxM mxE mulr1n scale_scalar_mx mulVf ?lt0r_neq0 ?mulr_gt0 //.
Qed.
Lemma loud_out eps p : 0 < eps -> (forall f, 1 <= energy X f) -> (forall f, 1 < eps * ((1 + eps) * energy X f)) ->
  mvdr_forward eighO X (fun _ => [:: ones; ones]) 0 eps Rtf (Some p) =
  Ok [ffun f => (eps * ((1 + eps) * energy X f))^-1 *: X f].
Proof.
move=> e0 h1 h2; rewrite /mvdr_forward.
rewrite (@gather_ok _ _ _ _ (fun sf => (((eps * ((1 + eps) * energy X sf.2))^-1)%:M : 'M_1))); last first.
  case=> s f; rewrite [s]ord1 cov1.
  set E := energy X f; have E1 : 1 <= E := h1 f; have E2 := h2 f; rewrite -/E in E2.
  have E0 : 0 < E := lt_le_trans ltr01 E1.
  rewrite rtf1 //=.
  rewrite /compute_mvdr_bf sl1 ?(ltW E0) //=; congr Ok.
  have -> : clamp (eps * E) eps = eps * E by rewrite clamp_id // ler_pmulr.
  have z0 : 0 < (1 + eps) * E by rewrite mulr_gt0 // addr_gt0.
  have zE : 1 / (E + eps * E) = ((1 + eps) * E)^-1 by rewrite div1r mulrDl mul1r.
  rewrite zE big_ord_recl big_ord0 addr0 !mxE !mulr1n conjC1 mul1r scale_scalar_mx (Creal_ReP _ _); last by rewrite rpredV ger0_real // ltW.
  rewrite /clamp ifT; first by rewrite -invfM mulrC.
  by rewrite -[_^-1]div1r ltr_pdivr_mulr.
rewrite /=; congr Ok; apply/ffunP => f; rewrite !ffunE; apply/matrixP=> s n; rewrite !mxE big_ord_recl big_ord0 addr0 ffunE /= mxE mulr1n [s]ord1.
rewrite mulrC; congr (_ * _); apply: conj_Creal; rewrite rpredV ger0_real // ltW //; exact: lt_trans ltr01 (h2 f).
Qed.
End One.

Section Refute.
Variable C : numClosedFieldType.
Variable eighO : forall n, eigh_oracle C n.
Definition const (x : C) : sig C 1 1 1 := [ffun=> x%:M].
Lemma energy_const x f : 0 <= x -> energy (const x) f = x ^+ 2.
Proof. by move=> h; rewrite /energy big_ord_recl big_ord0 addr0 ffunE mxE mulr1n ger0_norm. Qed.
Lemma amplify_const a x : amplify a (const x) = const (a * x).
Proof. by apply/ffunP => f; rewrite !ffunE scale_scalar_mx. Qed.
Lemma const_inj x y : const x = const y -> x = y.
Proof. by move/ffunP/(_ 0); rewrite !ffunE => /matrixP/(_ 0 0); rewrite !mxE !mulr1n. Qed.
Lemma const_fun (h : 'I_1 -> C) x : ([ffun f => h f *: const x f] : sig C 1 1 1) = const (h 0 * x).
Proof. by apply/ffunP => f; rewrite !ffunE !ord1 scale_scalar_mx. Qed.
Local Notation t := (10%:R : C).
Lemma t0 : t != 0. Proof. by rewrite pnatr_eq0. Qed.
Lemma tn k : t ^+ k != 0. Proof. by rewrite expf_neq0 // t0. Qed.
Lemma tp k : 0 < t ^+ k. Proof. by rewrite exprn_gt0 // ltr0n. Qed.
Lemma mwf_refuted : exists (X : sig C 1 1 1) (a : C), a != 0 /\
  mwf_forward (amplify a X) (fun _ => [:: fun _ _ => \row_n 1; fun _ _ => \row_n 0] : seq (masks C 1 1 1)) 0 (10%:R ^- 5) true <>
  rmap (fun Y => amplify a Y) (mwf_forward X (fun _ => [:: fun _ _ => \row_n 1; fun _ _ => \row_n 0] : seq (masks C 1 1 1)) 0 (10%:R ^- 5) true).
Proof.
exists (const (t ^- 3)), (t ^+ 3); split; first exact: tn.
have l3 : 0 <= t ^- 3 by rewrite invr_ge0 ltW ?tp.
have e6 : t ^- 3 ^+ 2 = t ^- 6 by rewrite exprVn -exprM.
rewrite amplify_const divff ?tn // !quiet; last 2 first.
- by move=> f; rewrite energy_const // e6 invf_le1 ?tp // exprn_ege1 // ler1n.
- by move=> f; rewrite energy_const ?ler01 // expr1n.
rewrite /= => -[]; rewrite !const_fun amplify_const !energy_const ?ler01 // => /const_inj; rewrite e6 expr1n mulrCA divff ?tn // !mulr1 => h.
have u0 : 0 < t ^- 6 by rewrite invr_gt0 tp.
have u1 : t ^- 6 != 1.
  by rewrite -(inj_eq (@invr_inj C)) invrK invr1 -natrX -[1]/(1%:R) eqr_nat.
move: h u0 u1; set u := t ^- 6; clearbody u => /eqP h u0 u1.
move: h; rewrite eqr_div ?lt0r_neq0 ?addr_gt0 // mul1r mulrDr mulr1 (inj_eq (addrI u)) -{1}[u]mulr1 => /eqP /(mulfI (lt0r_neq0 u0)) h.
by rewrite -h eqxx in u1.
Qed.
Lemma mvdr_refuted p : exists (X : sig C 1 1 1) (a : C), a != 0 /\
  mvdr_forward eighO (amplify a X) (fun _ => [:: fun _ _ => \row_n 1; fun _ _ => \row_n 1] : seq (masks C 1 1 1)) 0 (10%:R ^- 5) Rtf (Some p) <>
  rmap (fun Y => amplify a Y) (mvdr_forward eighO X (fun _ => [:: fun _ _ => \row_n 1; fun _ _ => \row_n 1] : seq (masks C 1 1 1)) 0 (10%:R ^- 5) Rtf (Some p)).
Proof.
exists (const (t ^+ 3)), t; split; first exact: t0.
have e0 : 0 < t ^- 5 by rewrite invr_gt0 tp.
have big k : (2 < k)%N -> 1 < t ^- 5 * ((1 + t ^- 5) * (t ^+ k ^+ 2)).
  move=> hk; rewrite mulrCA mulrDl mul1r -exprM.
  have h : 1 < t ^- 5 * t ^+ (k * 2).
    have hk2 : (5 < k * 2)%N by rewrite (@leq_trans (3 * 2)) // leq_mul2r.
    by rewrite mulrC -expfB // exprn_egt1 ?ltr1n // -lt0n subn_gt0.
  apply: (lt_le_trans h); rewrite ler_addl; rewrite mulr_ge0 // ?mulr_ge0 // ltW // ?mulr_gt0 // tp //.
have one k : 1 <= t ^+ k ^+ 2 by rewrite -exprM exprn_ege1 // ler1n.
have ge k : 0 <= t ^+ k by rewrite ltW ?tp.
have hl k f : 1 <= energy (const (t ^+ k)) f by rewrite energy_const // one.
have hb k : (2 < k)%N -> forall f, 1 < t ^- 5 * ((1 + t ^- 5) * energy (const (t ^+ k)) f).
  by move=> hk f; rewrite energy_const // big.
rewrite amplify_const -exprS (loud_out eighO p e0 (hl 4%N) (hb 4%N isT)) (loud_out eighO p e0 (hl 3%N) (hb 3%N isT)).
rewrite /= => -[]; rewrite !const_fun amplify_const !energy_const // => /const_inj.
have q0 : 0 < 1 + t ^- 5 by rewrite addr_gt0 ?ltr01.
move: e0 q0; set e := t ^- 5; set q := 1 + e; clearbody q; clearbody e => e0 q0.
have tk k : t ^+ k != 0 := tn k.
move/eqP; rewrite [t * (_ * t ^+ 3)]mulrCA -[t * t ^+ 3]exprS -!exprM (inj_eq (mulIf (tk 4%N))) (inj_eq (@invr_inj C)) (inj_eq (mulfI (lt0r_neq0 e0))) (inj_eq (mulfI (lt0r_neq0 q0))).
by rewrite -!natrX eqr_nat.
Qed.
End Refute.
