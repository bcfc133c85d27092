From mathcomp Require Import all_ssreflect all_algebra.
From Verif Require Import CAlg Py Batch LinalgModel LinalgProofs TissModel IvaModel PhaseSpec PhaseProofs PhaseTiss.
Set Implicit Arguments. Unset Strict Implicit. Unset Printing Implicit Defensive.
Import GRing.Theory Num.Theory Order.TTheory.
Local Open Scope ring_scope.
Local Open Scope py_scope.

Section P2.
Variable C : numClosedFieldType.
Add Field CfieldP2 : (f_ft C).
Ltac cring := fpre; fnorm C; fatoms; ring.

Section Freq.
Variable D : 'I_2 -> C.
Hypothesis uD : unimod D.
Hint Resolve uD uni_one : core.
Let k1 : unimod (fun _ : 'I_2 => D i1). Proof. by move=> i; exact: uD. Qed.
Hint Resolve k1 : core.
(* the eigenvectors turn with the microphones, and together by the phase of the second *)
Local Notation rE := (rot D (fun=> D i1)).



Lemma rot_diag (A : 'M[C]_2) i : rot D D A i i = A i i.
Proof. by rewrite rotE mulrAC uni_mulr ?mul1r. Qed.
Lemma cross_rot (A B : 'M[C]_2) i j :
  'Re (rot D D A i j) * 'Re (rot D D B i j) + 'Im (rot D D A i j) * 'Im (rot D D B i j) =
  'Re (A i j) * 'Re (B i j) + 'Im (A i j) * 'Im (B i j).
Proof.
apply: (mulfI (two_neq0 C)); rewrite !re_prod !rotE !rmorphM !conjCK.
have e0 := uni_mulr i uD; have e1 := uni_mulr j uD.
transitivity (((D i * (D i)^*) * (D j * (D j)^*)) * (A i j * (B i j)^*) + ((D i * (D i)^*) * (D j * (D j)^*)) * ((A i j)^* * B i j)); first by cring.
by rewrite e0 e1 !mul1r.
Qed.
Lemma magsq_rot m n (d : 'I_m -> C) (e : 'I_n -> C) (A : 'M[C]_(m, n)) i j : unimod d -> unimod e ->
  mag_sq (rot d e A i j) = mag_sq (A i j).
Proof. by move=> hd he; apply: mag_sq_norm; rewrite norm_rot. Qed.
Lemma normalize_rot (V : 'M[C]_2) eps : normalize_cols (rE V) eps = rE (normalize_cols V eps).
Proof.
apply/matrixP=> i k; rewrite rotE /normalize_cols [LHS]mxE [in RHS]mxE !magsq_rot // rotE /divide; cring.
Qed.
Lemma geigh_rot (A B : 'M[C]_2) eps : (geigh_2x2 (rot D D A) (rot D D B) eps).2 = rE (geigh_2x2 A B eps).2.
Proof.
rewrite /geigh_2x2 /= !rot_diag cross_rot !magsq_rot // -normalize_rot; congr normalize_cols.
have e1 := uni_mulr i1 uD.
set ev1 := _ / _; set ev2 := _ / _; clearbody ev1 ev2.
apply: matrix22P => k; rewrite rotE; move: k; apply: ord2P; rewrite !(mx22_00, mx22_01, mx22_10, mx22_11) ?rotE.
- rewrite mx22_00; cring.
- rewrite mx22_01; cring.
- by rewrite mx22_10 [RHS]mulrAC e1 mul1r.
- by rewrite mx22_11 [RHS]mulrAC e1 mul1r.
Qed.
Lemma uni_inv (x : C) : `|x| = 1 -> x^-1 = x^*.
Proof. by move=> h; rewrite invC_norm h expr1n invr1 mul1r. Qed.
Variable nN : nat.
Local Notation one := (@one C nN).
Lemma ip2_V_rot (X w : 'M[C]_(2, nN)) k : ip2_V (rot D one X) w k = rot D D (ip2_V X w k).
Proof.
rewrite /ip2_V /= !hermiteE; set V := \matrix_(c, d) _; set V' := \matrix_(c, d) (_ / _).
suff -> : V = rot D D V' by rewrite ctr_rot -rotD -rotZ.
apply/matrixP=> c d; rewrite rotE /V /V' [LHS]mxE [in RHS]mxE.
under eq_bigr => n _ do rewrite !rot1E.
rewrite num_rot; set S := \sum_n _; cring.
Qed.
Lemma ip2_eigvec_rot (V0 V1 : 'M[C]_2) eps :
  ip2_eigvec (rot D D V0) (rot D D V1) eps = rE (ip2_eigvec V0 V1 eps).
Proof.
rewrite /ip2_eigvec geigh_rot; set E := (geigh_2x2 V1 V0 eps).2; clearbody E.
apply/matrixP=> i k; rewrite rotE [LHS]mxE [in RHS]mxE.
have f (V : 'M[C]_2) : \sum_i0 ((\matrix_(i1, k0) rE E i1 (rev_ord k0)) i0 k)^* *
    (\sum_j rot D D V i0 j * (\matrix_(i1, k0) rE E i1 (rev_ord k0)) j k) =
  \sum_i0 ((\matrix_(i1, k0) E i1 (rev_ord k0)) i0 k)^* * (\sum_j V i0 j * (\matrix_(i1, k0) E i1 (rev_ord k0)) j k).
  apply: eq_bigr => a _; rewrite !mulr_sumr; apply: eq_bigr => b _; rewrite !mxE !rmorphM conjCK.
  have ea := uni_mulr a uD; have eb := uni_mulr b uD; have e1 := uni_mulr i1 uD.
  transitivity ((D a * (D a)^*) * (D b * (D b)^*) * (D i1 * (D i1)^*) *
    ((E a (rev_ord k))^* * (V a b * E b (rev_ord k)))); first by cring.
  by rewrite ea eb e1 !mul1r.
have -> : (if k == i0 then rot D D V0 else rot D D V1) = rot D D (if k == i0 then V0 else V1) by case: ifP.
rewrite f !mxE; cring.
Qed.
(* below the threshold of inv_2x2 the phase of the determinant is lost *)
Definition lost (W : 'M[C]_2) : C := if 10%:R ^- 6 <= `|det2 W| then 1 else D i1 * (D i0)^*.
Lemma adj_rot (W : 'M[C]_2) i j : let W' := rot (fun=> D i1) D W in
  mx22 (W' i1 i1) (- W' i0 i1) (- W' i1 i0) (W' i0 i0) i j =
  D i1 * (D i0)^* * rE (mx22 (W i1 i1) (- W i0 i1) (- W i1 i0) (W i0 i0)) i j.
Proof.
have e0 := uni_mulr i0 uD; have e1 := uni_mulr i1 uD; move=> W'; rewrite [in RHS]rotE.
move: i j; apply: ord2P; apply: ord2P; rewrite ?mx22_00 ?mx22_01 ?mx22_10 ?mx22_11 /W' rotE.
- transitivity (D i0 * (D i0)^* * (D i1 * W i1 i1 * (D i1)^*)); [by rewrite e0 mul1r|rewrite ?mx22_00; cring].
- transitivity (D i0 * (D i0)^* * (D i1 * (- W i0 i1) * (D i1)^*)); [by rewrite e0 mul1r mulrN mulNr|rewrite ?mx22_01; cring].
- transitivity (D i1 * (D i1)^* * (D i1 * (- W i1 i0) * (D i0)^*)); [by rewrite e1 mul1r mulrN mulNr|rewrite ?mx22_10; cring].
- transitivity (D i1 * (D i1)^* * (D i1 * W i0 i0 * (D i0)^*)); [by rewrite e1 mul1r|rewrite ?mx22_11; cring].
Qed.
Lemma inv_rot (W : 'M[C]_2) :
  inv_2x2 (rot (fun=> D i1) D W) (10%:R ^- 6) = lost W *: rE (inv_2x2 W (10%:R ^- 6)).
Proof.
set W' := rot _ _ W.
have e0 := uni_mulr i0 uD; have e1 := uni_mulr i1 uD.
have hd : W' i0 i0 * W' i1 i1 - W' i0 i1 * W' i1 i0 = D i1 * (D i0)^* * det2 W.
  rewrite /W' !rotE /det2.
  transitivity (D i1 * (D i1)^* * (D i1 * (D i0)^* * (W i0 i0 * W i1 i1 - W i0 i1 * W i1 i0))); first by cring.
  by rewrite e1 mul1r.
have hn : `|D i1 * (D i0)^* * det2 W| = `|det2 W| by rewrite !normrM norm_conjC !uD !mul1r.
have c6 : (10%:R ^- 6 : C) \is Num.real by apply: gtr0_real; rewrite invr_gt0 exprn_gt0 // ltr0n.
rewrite /inv_2x2 hd hn -/(det2 W) /lost real_leNgt ?normr_real //.
have hi : (D i1 * (D i0)^*)^-1 = (D i1)^* * D i0.
  by rewrite !invfM (uni_inv (uD i1)) (@uni_inv (D i0)^*) ?conjCK // norm_conjC uD.
apply/matrixP=> i j; rewrite [LHS]mxE [RHS]mxE [in RHS]rotE [in RHS]mxE adj_rot rotE.
move: (mx22 _ _ _ _ i j) => z; case: ifP => _ /=; first by cring.
rewrite mul1r invfM hi.
transitivity (D i1 * (D i1)^* * (D i0 * (D i0)^*) * (D i * (z / det2 W) * (D i1)^*)); last by rewrite e0 e1 !mul1r.
move: (det2 W) => dt; cring.
Qed.
Lemma ip2_update_rot (X w : 'M[C]_(2, nN)) eps :
  let r := ip2_update X w eps in let r' := ip2_update (rot D one X) w eps in
  r'.1.1 = rot (fun=> D i1) one r.1.1 /\ r'.1.2 = rot (fun=> D i1) D r.1.2 /\
  r'.2 = lost r.1.2 *: rE r.2.
Proof.
rewrite /ip2_update /= !ip2_V_rot ip2_eigvec_rot !hermiteE ctr_rot; set W := ctr _.
by split; [rewrite rotM|split=> //; exact: inv_rot].
Qed.
Lemma ip2_update_W (X w : 'M[C]_(2, nN)) eps : (ip2_update X w eps).1.1 = (ip2_update X w eps).1.2 *m X.
Proof. by []. Qed.
End Freq.

Section Loop.
Variables (nF nN : nat).
Local Notation sig := (sig C nF nN).
Local Notation filt := (filt C nF).
Local Notation one := (@one C nN).
Variable D : 'I_nF -> 'I_2 -> C.
Hypothesis hD : phases D.
Let uD f : unimod (D f). Proof. exact: hD. Qed.
Hint Resolve uD uni_one : core.
Variable St : Type.
Variable model : St -> sig 2 -> sig 2 * St.
Hypothesis hM : magnitude_model model.
Variables (X : sig 2) (eps : C).
Local Notation X' := (rotate D X).

Lemma rotateE2 (d : 'I_nF -> 'I_2 -> C) (Y : sig 2) f : rotate d Y f = rot (d f) one (Y f).
Proof. by apply/matrixP=> c n; rewrite ffunE rot1E mxE. Qed.
Lemma ip2_gain_mag (Y Y' : sig 2) s : same_mag Y Y' -> ip2_gain Y s = ip2_gain Y' s.
Proof.
move=> h; rewrite /ip2_gain; congr (clamp (_ / _) _); apply: eq_bigr => f _; apply: eq_bigr => n _.
exact: mag_sq_norm.
Qed.
Definition gw (w Y : sig 2) : sig 2 := [ffun f => \matrix_(s, n) (w f s n * ip2_gain Y s)].
Lemma gw_mag w Y Y' : same_mag Y Y' -> gw w Y' = gw w Y.
Proof. by move=> h; apply/ffunP => g; rewrite !ffunE; apply/matrixP=> s n; rewrite !mxE (ip2_gain_mag _ h). Qed.
(* the state after an iteration, from the state before it *)
Definition upd (Z : sig 2) (w Y : sig 2) f := ip2_update (Z f) (gw w Y f) eps.
Definition st3 (T : Type) (r : 'I_nF -> 'M[C]_(2, nN) * 'M[C]_2 * 'M[C]_2) (m : T) : sig 2 * filt 2 2 * filt 2 2 * T :=
  ([ffun f => (r f).1.1], [ffun f => (r f).1.2], [ffun f => (r f).2], m).
Lemma st3_eq (T : Type) (r r' : 'I_nF -> _) (m : T) : r =1 r' -> st3 r m = st3 r' m.
Proof. by move=> h; congr (_, _, _, _); apply/ffunP => f; rewrite !ffunE h. Qed.
Lemma st3_m (T : Type) r (m : T) : (st3 r m).2 = m. Proof. by []. Qed.
Lemma st3_1 (T : Type) r (m : T) f : (st3 r m).1.1.1 f = (r f).1.1. Proof. exact: ffunE. Qed.
Lemma st3_2 (T : Type) r (m : T) f : (st3 r m).1.1.2 f = (r f).1.2. Proof. exact: ffunE. Qed.
Lemma st3_3 (T : Type) r (m : T) f : (st3 r m).1.2 f = (r f).2. Proof. exact: ffunE. Qed.
Lemma ip2_iterE (Z Y : sig 2) W A m : ip2_iter model Z eps (Y, W, A, m) = st3 (upd Z (model m Y).1 Y) (model m Y).2.
Proof.
rewrite /ip2_iter; case: (model m Y) => w m' /=.
by congr (_, _, _, _); apply/ffunP => f; rewrite [LHS]ffunE [RHS]ffunE ffunE.
Qed.
Definition rel2 (x x' : sig 2 * filt 2 2 * filt 2 2 * St) : Prop :=
  x'.2 = x.2 /\ forall f, [/\ x'.1.1.1 f = rot (fun=> D f i1) one (x.1.1.1 f),
    x'.1.1.2 f = rot (fun=> D f i1) (D f) (x.1.1.2 f) &
    x'.1.2 f = lost (D f) (x.1.1.2 f) *: rot (D f) (fun=> D f i1) (x.1.2 f)].
Lemma rel2_st3 r r' m :
  (forall f, (r' f).1.1 = rot (fun=> D f i1) one (r f).1.1 /\ (r' f).1.2 = rot (fun=> D f i1) (D f) (r f).1.2 /\
    (r' f).2 = lost (D f) (r f).1.2 *: rot (D f) (fun=> D f i1) (r f).2) ->
  rel2 (st3 r m) (st3 r' m).
Proof.
move=> h; split; first by rewrite !st3_m.
by move=> f; rewrite !st3_1 !st3_2 !st3_3; case: (h f) => ? [? ?]; split.
Qed.
Lemma ip2_iter_rot Y W A Y' W' A' m : same_mag Y Y' ->
  rel2 (ip2_iter model X eps (Y, W, A, m)) (ip2_iter model X' eps (Y', W', A', m)).
Proof.
move=> hY; rewrite (ip2_iterE X) (ip2_iterE X') -(hM m hY); apply: rel2_st3 => f.
by rewrite /upd (gw_mag _ hY) rotateE2; exact: ip2_update_rot.
Qed.
Lemma rel2_mag x x' : rel2 x x' -> same_mag x.1.1.1 x'.1.1.1 /\ x'.2 = x.2.
Proof.
case=> e h; split=> // f k n; case: (h f) => -> _ _; rewrite norm_rot //; by move=> ?; exact: hD.
Qed.
Lemma ip2_loopS (Z : sig 2) n m0 : ip2_loop model Z eps n.+1 m0 = ip2_iter model Z eps (ip2_loop model Z eps n m0).
Proof. by rewrite /ip2_loop iterS. Qed.
Lemma ip2_iter_rel x x' : same_mag x.1.1.1 x'.1.1.1 /\ x'.2 = x.2 -> rel2 (ip2_iter model X eps x) (ip2_iter model X' eps x').
Proof. move: x x' => [[[Y W] A] m] [[[Y' W'] A'] m'] [/= hm ->]; exact: ip2_iter_rot. Qed.
Lemma rotate_mag : same_mag X X'.
Proof. by move=> f k n; rewrite rotateE2 norm_rot. Qed.
Lemma ip2_loop_mag n m0 : let x := ip2_loop model X eps n m0 in let x' := ip2_loop model X' eps n m0 in
  same_mag x.1.1.1 x'.1.1.1 /\ x'.2 = x.2.
Proof.
elim: n => [|n IH]; first by split; [exact: rotate_mag|].
by cbv zeta; rewrite (ip2_loopS X) (ip2_loopS X'); apply: rel2_mag; apply: ip2_iter_rel.
Qed.
Lemma ip2_loop_rot n m0 : rel2 (ip2_loop model X eps n.+1 m0) (ip2_loop model X' eps n.+1 m0).
Proof. by rewrite (ip2_loopS X) (ip2_loopS X'); apply: ip2_iter_rel; exact: ip2_loop_mag. Qed.
Definition ip2_phase (W : filt 2 2) (mic : option 'I_2) f (s : 'I_2) : C :=
  if mic is Some r then D f r * lost (D f) (W f) else D f i1.
Lemma ip2_forward0_rot mic m0 :
  ip2_forward model X' eps 0 mic m0 = (rotate D (ip2_forward model X eps 0 mic m0).1, (ip2_forward model X eps 0 mic m0).2).
Proof. by case: mic => [r|]. Qed.
Lemma ip2_forward_rot n mic m0 :
  ip2_forward model X' eps n.+1 mic m0 =
  (rotate (ip2_phase (ip2_loop model X eps n.+1 m0).1.1.2 mic) (ip2_forward model X eps n.+1 mic m0).1, (ip2_forward model X eps n.+1 mic m0).2).
Proof.
have := ip2_loop_rot n m0; rewrite /ip2_forward.
move: (ip2_loop _ X _ _ _) (ip2_loop _ X' _ _ _) => [[[Y W] A] m] [[[Y' W'] A'] m'] [/= -> h].
case: mic => [r|] /=; congr (_, _); apply/ffunP => f; case: (h f) => eY _ eA.
  rewrite !ffunE; apply/matrixP=> s k; rewrite !mxE eY eA [in LHS]mxE !rotE /PhaseProofs.one conjC1 mulr1.
  transitivity (D f i1 * (D f i1)^* * (D f r * lost (D f) (W f) * (A f r s * Y f s k))); first by cring.
  by rewrite uni_mulr ?mul1r.
by rewrite eY; apply/matrixP=> s k; rewrite ffunE rot1E mxE.
Qed.
Lemma ip2_loop_W n m0 f : let x := ip2_loop model X eps n.+1 m0 in x.1.1.1 f = x.1.1.2 f *m X f.
Proof.
cbv zeta; rewrite ip2_loopS; move: (ip2_loop _ _ _ _ _) => [[[Y W] A] m].
by rewrite ip2_iterE st3_1 st3_2 /upd ip2_update_W.
Qed.
Lemma ip2_none n m0 : (ip2_forward model X eps n None m0).1 = (ip2_loop model X eps n m0).1.1.1.
Proof. by rewrite /ip2_forward; case: (ip2_loop _ _ _ _ _) => [[[Y W] A] m]. Qed.
End Loop.
End P2.
