From mathcomp Require Import all_ssreflect all_algebra.
From Verif Require Import CAlg Py Batch LinalgModel LinalgProofs TissModel IvaModel PhaseSpec PhaseProofs PhaseTiss.
Set Implicit Arguments. Unset Strict Implicit. Unset Printing Implicit Defensive.
Import GRing.Theory Num.Theory Order.TTheory.
Local Open Scope ring_scope.
Local Open Scope py_scope.

Section PI.
Variable C : numClosedFieldType.
Add Field CfieldPI : (f_ft C).
Ltac cring := fpre; fnorm C; fatoms; ring.
Variables (nS nB nF nN : nat).
Local Notation nC := (nS + nB)%N.
Local Notation sig := (sig C nF nN).
Local Notation filt := (filt C nF).
Local Notation one := (@one C nN).

Variable D : 'I_nF -> 'I_nC -> C.
Hypothesis hD : phases D.
Local Notation dS f := (fun s => D f (lshift nB s)).
Local Notation dB f := (fun b => D f (rshift nS b)).
Let uD f : unimod (D f). Proof. exact: hD. Qed.
Let uDS f : unimod (dS f). Proof. by move=> i; exact: hD. Qed.
Let uDB f : unimod (dB f). Proof. by move=> i; exact: hD. Qed.
Hint Resolve uD uDS uDB uni_one : core.
Variables (X : sig nC) (eps : C).
Local Notation X' := (rotate D X).
Local Notation rotW := (rotW D).
Local Notation rotJ := (rotJ D).

Lemma ip_Cx_rot f : ip_Cx X' f = rot (D f) (D f) (ip_Cx X f).
Proof. exact: C_XX_rot. Qed.
Lemma orth_rot (W : filt nS nC) load :
  orthogonal_constraint (rotW W) (ip_Cx X') load = rmap rotJ (orthogonal_constraint W (ip_Cx X) load).
Proof.
rewrite /orthogonal_constraint; case: ifP => _; last first.
  by congr Ok; apply/ffunP => f; rewrite !ffunE rot0.
rewrite (@eq_gather _ _ _ _ (fun f => rmap (rot (dS f) (dB f))
  (let A := W f *m ip_Cx X f in solve_loaded_general (lsubmx A) (rsubmx A) load load))).
  rewrite (gather_rmap _ _ (fun f => rot (dS f) (dB f))) bind_rmap rmap_bind; apply: eq_bind => JH /=.
  by congr Ok; apply/ffunP => f; rewrite !ffunE ctr_rot.
by move=> f; rewrite ffunE ip_Cx_rot rotM // lsub_rot rsub_rot rot_slg.
Qed.
Lemma ip_V_rot (w : sig nS) k f : ip_V X' w k f = rot (D f) (D f) (ip_V X w k f).
Proof.
apply/matrixP=> c d; rewrite rotE /ip_V [LHS]mxE [in RHS]mxE rotateE.
under eq_bigr => n _ do rewrite !rot1E [_ * w f k n]mulrC.
rewrite num_rot; congr (_ * _ * _); apply: eq_bigr => n _; cring.
Qed.
Lemma ip_WV_rot W J V f : ip_WV (rot (dS f) (D f) W) (rot (dB f) (dS f) J) (rot (D f) (D f) V) =
  rot (D f) (D f) (ip_WV W J V).
Proof. by rewrite /ip_WV rotM // usub_rot dsub_rot rotM // -rotB -col_mx_rot. Qed.

Definition rotWJ (p : filt nS nC * filt nB nS) := (rotW p.1, rotJ p.2).
Lemma ip_source_rot (w : sig nS) st k : ip_source X' w eps (rotWJ st) k = rmap rotWJ (ip_source X w eps st k).
Proof.
case: st => W J0; rewrite /ip_source /= orth_rot bind_rmap rmap_bind; apply: eq_bind => J.
pose h f := rot (D f) (fun _ : 'I_1 => D f (lshift nB k)).
rewrite (@eq_gather _ _ _ _ (fun f => rmap (h f) (solve_loaded_general (ip_WV (W f) (J f) (ip_V X w k f))
   (delta_mx (lshift nB k) 0 : 'cV[C]_nC) eps eps))).
  rewrite (gather_rmap _ _ h) bind_rmap rmap_bind; apply: eq_bind => sol /=.
  congr (Ok (_, _)); apply/ffunP => f; rewrite !ffunE; apply/matrixP=> s c; rewrite !mxE; case: eqP => [->|_]; last by [].
  have e c1 : (h f (sol f) c1 0)^* = D f (lshift nB k) * (sol f c1 0)^* * (D f c1)^*.
    by rewrite /h rotE !rmorphM conjCK; cring.
  have -> : \sum_c0 \sum_d (h f (sol f) c0 0)^* * ((h f (sol f) d 0)^*)^* * ip_V X' w k f c0 d =
            \sum_c0 \sum_d (sol f c0 0)^* * ((sol f d 0)^*)^* * ip_V X w k f c0 d.
    apply: eq_bigr => c0 _; apply: eq_bigr => d _; rewrite ip_V_rot rotE !e !rmorphM !conjCK.
    have e0 := uni_mulr (lshift nB k) (uD f); have e1 := uni_mulr c0 (uD f); have e2 := uni_mulr d (uD f).
    transitivity ((D f (lshift nB k) * (D f (lshift nB k))^*) * (D f c0 * (D f c0)^*) * (D f d * (D f d)^*) *
       ((sol f c0 0)^* * sol f d 0 * ip_V X w k f c0 d)); first by cring.
    by rewrite e0 e1 e2 !mul1r.
  rewrite !rmorphM conjCK; cring.
move=> f; rewrite !ffunE ip_V_rot ip_WV_rot.
have e : delta_mx (lshift nB k) 0 = h f (delta_mx (lshift nB k) 0) :> 'cV[C]_nC.
  by rewrite /h delta_rot // uni_mulr.
by rewrite [in LHS]e rot_slg.
Qed.
Lemma foldM_rot (A B : Type) (r : A -> A) (g g' : A -> B -> result A) l x :
  (forall x b, g' (r x) b = rmap r (g x b)) -> foldM g' (r x) l = rmap r (foldM g x l).
Proof. by move=> h; elim: l x => //= b l IH x; rewrite h bind_rmap rmap_bind; apply: eq_bind => y; exact: IH. Qed.

Variable St : Type.
Variable model : St -> sig nS -> sig nS * St.
Hypothesis hM : magnitude_model model.
Local Notation rotY := (rotY D).
Definition rotI (x : ipst C nS nB nF nN St) : ipst C nS nB nF nN St :=
  let: (Y, W, J, m) := x in (rotY Y, rotW W, rotJ J, m).
Lemma ip_gain_rot (Y : sig nS) s : ip_gain eps (rotY Y) s = ip_gain eps Y s.
Proof. exact: gain_rot. Qed.
Lemma ip_iter_rot x : ip_iter model X' eps (rotI x) = rmap rotI (ip_iter model X eps x).
Proof.
case: x => [[[Y W] J] m]; rewrite /ip_iter /= (hM m (rotY_mag hD Y)); case: (model m Y) => w m'.
have -> : [ffun f => \matrix_(s, c) (rotW W f s c / clamp (sqrtC (ip_gain eps (rotY Y) s)) eps)] =
   rotW [ffun f => \matrix_(s, c) (W f s c / clamp (sqrtC (ip_gain eps Y s)) eps)].
  apply/ffunP => f; rewrite !ffunE; apply/matrixP=> s c; rewrite !mxE ip_gain_rot; cring.
have -> : [ffun f => \matrix_(s, n) (w f s n * ip_gain eps (rotY Y) s)] =
          [ffun f => \matrix_(s, n) (w f s n * ip_gain eps Y s)] :> sig nS.
  apply/ffunP => f; rewrite !ffunE; apply/matrixP=> s n; by rewrite !mxE ip_gain_rot.
set w1 := [ffun f => \matrix_(s, n) (w f s n * _)].
set W1 := [ffun f => _]; rewrite -/(rotWJ (W1, J)) (foldM_rot (g := ip_source X w1 eps)); last exact: ip_source_rot.
rewrite bind_rmap rmap_bind; apply: eq_bind => -[W' J'] /=; congr (Ok (_, _, _, _)).
apply/ffunP => f; rewrite [LHS]ffunE [RHS]ffunE [X in rot _ _ X]ffunE rotateE ffunE rotM //.
Qed.
Lemma ip_loop_rot n x : ip_loop model X' eps n (rotI x) = rmap rotI (ip_loop model X eps n x).
Proof. by elim: n x => //= n IH x; rewrite ip_iter_rot bind_rmap rmap_bind; apply: eq_bind => y; exact: IH. Qed.
Lemma ip_raw_rot n m0 : ip_raw model X' eps n m0 = rmap rotI (ip_raw model X eps n m0).
Proof.
rewrite /ip_raw; have e : rotW [ffun f => row_mx 1%:M 0] = [ffun f => row_mx 1%:M 0] :> filt nS nC by exact: eyeW_rot.
rewrite -{1}e orth_rot bind_rmap rmap_bind; apply: eq_bind => J; rewrite -ip_loop_rot /rotI e.
congr (ip_loop _ _ _ _ (_, _, _, _)); apply/ffunP => f; rewrite [LHS]ffunE [RHS]ffunE [X in rot _ _ X]ffunE rotateE usub_rot //.
Qed.
Definition ip_phase (pb : option 'I_nC) f (s : 'I_nS) : C := if pb is Some ref then D f ref else D f (lshift nB s).
Lemma ip_pb_rot (Y : sig nS) W J ref : ip_pb (rotY Y) (rotW W) (rotJ J) ref = rmap (rotate (fun f (_ : 'I_nS) => D f ref)) (ip_pb Y W J ref).
Proof.
rewrite /ip_pb.
rewrite (@eq_gather _ _ _ _ (fun f => rmap (rot (cj (dS f)) (fun=> (D f ref)^*)) (pb_f (W f) (J f) ref))).
  rewrite (gather_rmap _ _ (fun f => rot (cj (dS f)) (fun=> (D f ref)^*))) bind_rmap rmap_bind; apply: eq_bind => a /=.
  congr Ok; apply/ffunP => f; rewrite !ffunE; apply/matrixP=> s n; rewrite !mxE.
  rewrite /PhaseProofs.one conjC1 mulr1 conjCK /cj.
  have e := uni_mul s (@uDS f); rewrite -[RHS]mul1r -e; cring.
by move=> f; rewrite !ffunE -pb_f_rot // /pb_f.
Qed.
Lemma ip_forward_rot n pb m0 :
  ip_forward model X' eps n pb m0 =
  rmap (fun r => (rotate (ip_phase pb) r.1, r.2)) (ip_forward model X eps n pb m0).
Proof.
rewrite /ip_forward ip_raw_rot bind_rmap rmap_bind; apply: eq_bind => -[[[Y W] J] m] /=.
case: pb => [ref|] /=; first by rewrite ip_pb_rot bind_rmap rmap_bind; apply: eq_bind => Z.
by congr (Ok (_, _)); apply/ffunP => f; rewrite !ffunE; apply/matrixP=> s k; rewrite rot1E mxE.
Qed.
End PI.
