From Coq Require Import Ring Field.
From mathcomp Require Import all_ssreflect all_algebra.
From Verif Require Import CAlg Py Batch LinalgModel LinalgSpec LinalgProofs LinalgBridge TissModel FiveModel FiveSpec FiveProofs.
Set Implicit Arguments. Unset Strict Implicit. Unset Printing Implicit Defensive.
Import GRing.Theory Num.Theory Order.TTheory.
Local Open Scope ring_scope.

(* ---- two channels: orthonormality of the columns of eigh_2x2 *)
Section Two.
Variable C : numClosedFieldType.
Add Field fiveB2 : (f_ft C).
Ltac cring := fpre; fnorm C; fatoms; ring.
Variables (A : 'M[C]_2) (eps : C).
Hypotheses (hA : herm A) (e0 : 0 < eps) (de : eps <= pencil_disc A 1%:M) (ao : eps <= `|A 0 1|).
Lemma sum_ev : (eigh_2x2 A eps).1 i0 + (eigh_2x2 A eps).1 i1 = A i0 i0 + A i1 i1.
Proof.
have de' : eps <= edelta A by rewrite -c12_disc.
have [V [-> _]] := eigh_2x2E hA de'; rewrite /= /eev -mulrDr.
rewrite (_ : _ + _ = 2%:R * (A i0 i0 + A i1 i1)); last by cring.
by rewrite mulrA divfK ?mul1r // pnatr_eq0.
Qed.
Lemma ev_lt : (eigh_2x2 A eps).1 i0 < (eigh_2x2 A eps).1 i1.
Proof.
have de' : eps <= edelta A by rewrite -c12_disc.
have [V [-> _]] := eigh_2x2E hA de'; rewrite /= /eev.
rewrite ltr_pmul2l ?divr_gt0 ?ltr01 ?ltr0n // ltr_add2l mulN1r mul1r gtr_opp //.
by rewrite sqrtC_gt0; apply: lt_le_trans de'.
Qed.
Lemma conj_herm n (B : 'M[C]_n) : herm B -> herm (map_mx conjC B).
Proof. by move=> h; apply/matrixP=> i j; rewrite ctrE !mxE (herm_off i j h) conjCK. Qed.
Lemma eig_perp n (B : 'M[C]_n) (u v : 'cV[C]_n) a b : herm B -> a \is Num.real -> a != b ->
  B *m u = a *: u -> B *m v = b *: v -> (ctr u *m v) 0 0 = 0.
Proof.
move=> hB ar ab eu ev; apply/eqP; have : a * (ctr u *m v) 0 0 = b * (ctr u *m v) 0 0.
  transitivity ((ctr u *m (B *m v)) 0 0); last by rewrite ev -scalemxAr mxZE.
  rewrite mulmxA -{1}hB -ctrM eu ctrZ (conj_Creal ar) -scalemxAl mxZE //.
move/eqP; rewrite -subr_eq0 -mulrBl mulf_eq0 subr_eq0 (negbTE ab); exact.
Qed.
Lemma eigh2_orth : ctr (eigh_2x2 A eps).2 *m (eigh_2x2 A eps).2 = 1%:M.
Proof.
have de' : eps <= edelta A by rewrite -c12_disc.
have lt := ev_lt.
have [ev [V [E [rl _ _ eg nv]]]] := eigh_2x2_main hA (ltW e0) de'; rewrite {}E /= in lt *.
have cE i j : (ctr V *m V) i j = (ctr (col i V) *m col j V) 0 0.
  by rewrite !mxE; apply: eq_bigr => m _; rewrite !ctrE !mxE.
have ne : ev i0 != ev i1 by rewrite lt_eqF.
have hc := conj_herm hA.
have ao' : eps <= `|A i0 i1| by rewrite i0E i1E.
have a10 : `|A i1 i0| = `|A i0 i1| by rewrite -(herm_off i0 i1 hA) norm_conjC.
have un i : nrm2 (col i V) = 1.
  have [c c0 [_ [_ [_ h]]]] := nv i.
  have ge : `|A i0 i1| ^+ 2 <= nrm2 (evec A i (ev i)).
    rewrite nrm2_2; case/orP: (i01 i) => /eqP ->; rewrite !mxE /=.
      by rewrite ler_addr exprn_ge0.
    by rewrite a10 ler_addl exprn_ge0.
  have g0 : 0 < `|A i0 i1| by apply: lt_le_trans ao'.
  apply: h; first by rewrite -nrm2_gt0; apply: lt_le_trans ge; rewrite exprn_gt0.
  apply: le_trans ao' _; rewrite -[X in X <= _](sqrCK (ltW g0)) ler_sqrtC //.
    by rewrite qualifE exprn_ge0.
  by rewrite qualifE nrm2_ge0.
apply/matrixP; apply: ord2P; apply: ord2P; rewrite cE.
- by rewrite -nrm2_ctr un mxE.
- by rewrite (eig_perp hc (rl i0) ne (eg i0) (eg i1)) mxE.
- by rewrite (eig_perp hc (rl i1) _ (eg i1) (eg i0)) ?mxE // eq_sym.
- by rewrite -nrm2_ctr un mxE.
Qed.
End Two.

Section B.
Variable C : numClosedFieldType.
Add Field fiveBB : (f_ft C).
Ltac cring := fpre; fnorm C; fatoms; ring.
Variable eighO : forall n, eigh_oracle C n.
Arguments eighO : clear implicits.
Lemma eighE k (A : 'M[C]_k.+1) : k != 1%N -> eigh eighO A = eighO k.+1 A.
Proof. by move: A; case: k => [|[|k']]. Qed.
Lemma tiny_gt0 n : 0 < 10%:R ^- n :> C.
Proof. by rewrite invr_gt0 exprn_gt0 // ltr0n. Qed.

Section G.
Variables (k nN : nat).
Local Notation nC := k.+1.
Implicit Types X : 'M[C]_(nC, nN).
(* an orthonormal eigenbasis of the covariance, before flipping *)
Definition basis X := ctr (eigh eighO (sample_cov X)).2 *m (eigh eighO (sample_cov X)).2 = 1%:M /\
  forall i, sample_cov X *m col i (eigh eighO (sample_cov X)).2 = (eigh eighO (sample_cov X)).1 i *: col i (eigh eighO (sample_cov X)).2.
Lemma vecE X : five_vec eighO X = \matrix_(i, j) (eigh eighO (sample_cov X)).2 i (rev_ord j).
Proof. by rewrite /five_vec CxE. Qed.
Lemma valE X j : five_val eighO X j = (eigh eighO (sample_cov X)).1 (rev_ord j).
Proof. by rewrite /five_val CxE. Qed.
Lemma flip_orth X : ctr (eigh eighO (sample_cov X)).2 *m (eigh eighO (sample_cov X)).2 = 1%:M -> orth eighO X.
Proof.
move=> o; rewrite /orth vecE; set U := (eigh _ _).2 in o *.
apply/matrixP=> i j; have := congr1 (fun M : 'M[C]_nC => M (rev_ord i) (rev_ord j)) o.
rewrite [X in _ = X -> _]mxE (inj_eq rev_ord_inj) [X in _ -> _ = X]mxE => <-; rewrite [LHS]mxE [RHS]mxE.
by apply: eq_bigr => m _; rewrite !ctrE ![(\matrix_(_, _) _) _ _]mxE.
Qed.
Lemma flip_col X i : col i (five_vec eighO X) = col (rev_ord i) (eigh eighO (sample_cov X)).2.
Proof. by rewrite vecE; apply/matrixP=> a b; rewrite !mxE. Qed.
Lemma basis_ok X : basis X -> full_power X ->
  [/\ orth eighO X, eigv eighO X & forall i, 10%:R ^- 5 <= five_val eighO X i].
Proof.
case=> o e fp; have oo := flip_orth o.
have ee : eigv eighO X by move=> i; rewrite flip_col valE e.
split=> // i; have u1 : nrm2 (col i (five_vec eighO X)) = 1.
  rewrite nrm2_ctr; have := congr1 (fun M : 'M[C]_nC => M i i) oo; rewrite [X in _ = X -> _]mxE eqxx mulr1n => <-.
  by rewrite !mxE; apply: eq_bigr => j _; rewrite !ctrE ![col _ _ _ _]mxE.
have := fp (col i (five_vec eighO X)); rewrite -qf_cov -/(nrm2 _) u1 mulr1.
by rewrite /qf -mulmxA ee -scalemxAr mxZE -nrm2_ctr u1 mulr1.
Qed.
End G.

Lemma basisP k nN (X : 'M[C]_(k.+1, nN)) : (forall n, eigensolver (eighO n)) -> real_if_two (sample_cov X) -> basis X.
Proof.
move=> ok; case: (eqVneq k 1%N) => [k1|k1 _]; last first.
  by rewrite /basis eighE //; have [_ _ o e] := ok k.+1 _ (cov_herm X).
move: X; rewrite {}k1 => X [r a d]; have h := cov_herm X; have t := tiny_gt0 15.
split; first exact: (eigh2_orth h t d a).
move=> i; have := c12_real_lemma i h (ltW t) d r; rewrite /eigenpair mul1mx; exact.
Qed.
(* ---- C26 *)
Lemma c26_lemma k nN (X : 'M[C]_(k.+1, nN)) : (forall n, eigensolver (eighO n)) -> full_power X -> real_if_two (sample_cov X) ->
  sample_cov (five_white eighO X) = 1%:M.
Proof. by move=> ok fp r; have [o e v] := basis_ok (basisP ok r) fp; apply: whitened. Qed.
Lemma c26_ref nN (X : 'M[C]_(2, nN)) : 10%:R ^- 15 <= `|sample_cov X 0 1| -> 10%:R ^- 15 <= pencil_disc (sample_cov X) 1%:M ->
  sample_cov X 0 1 \isn't Num.real -> sample_cov (five_white eighO X) <> 1%:M.
Proof.
move=> a d nr hw; have h := cov_herm X; have t := tiny_gt0 15.
have o : orth eighO X := flip_orth (eigh2_orth h t d a).
have [ev0 [V0 [E0 [rl0 _ _ _]]]] := c12_lemma h (ltW t) d.
have rl i : five_val eighO X i \is Num.real by rewrite valE (_ : eigh eighO (sample_cov X) = (ev0, V0)).
pose s := five_sqrt eighO X; pose V := five_vec eighO X.
have s0 i : 0 < s i := sqrt_gt0 (rl i).
have sr i : (s i)^-1 \is Num.real by rewrite rpredV gtr0_real.
have key : ctr V *m sample_cov X *m V = dg (fun i => s i ^+ 2).
  have : dg (fun i => (s i)^-1) *m (ctr V *m sample_cov X *m V) *m dg (fun i => (s i)^-1) = 1%:M.
    have wE : sample_cov (five_white eighO X) = five_Q eighO X *m sample_cov X *m ctr (five_Q eighO X).
      by rewrite !cov_gram /five_white ctrM -scalemxAr -scalemxAl !mulmxA.
    by rewrite -hw wE five_Qd ctrM ctrK ctr_dg // !mulmxA.
  move=> e; have := congr1 (fun M => dg s *m M *m dg s) e.
  have -> : dg s *m 1%:M *m dg s = dg (fun i => s i ^+ 2) by rewrite mulmx1 dg_mul; apply: eq_dg => i; rewrite expr2.
  move=> <-.
  rewrite !mulmxA dg_mul -!mulmxA dg_mul !mulmxA.
  by rewrite !dg1 ?mul1mx ?mulmx1 // => i; rewrite ?mulfV ?mulVf // gt_eqF.
have s2 i : s i ^+ 2 = clamp (five_val eighO X i) (10%:R ^- 5) by rewrite sqrtCK.
have sge i : five_val eighO X i <= s i ^+ 2 by rewrite s2 clamp_geR // gtr0_real // tiny_gt0.
have tr : \sum_i s i ^+ 2 = \sum_i five_val eighO X i.
  transitivity (\tr (dg (fun i => s i ^+ 2))); first by apply: eq_bigr => i _; rewrite mxE eqxx mulr1n.
  rewrite -key -mulmxA mxtrace_mulC -mulmxA (mulmx1C o) mulmx1 /mxtrace !sum2 !valE.
  have -> : rev_ord i0 = i1 by apply/val_inj. have -> : rev_ord i1 = i0 by apply/val_inj.
  by rewrite -(sum_ev h d) addrC.
have se i : s i ^+ 2 = five_val eighO X i.
  apply/eqP; rewrite -subr_eq0; apply/eqP; move: i.
  have : \sum_i (s i ^+ 2 - five_val eighO X i) = 0 by rewrite sumrB tr subrr.
  move/eqP; rewrite psumr_eq0 => [/allP H i|i _]; last by rewrite subr_ge0.
  by apply/eqP; apply: H; rewrite mem_index_enum.
have eg : sample_cov X *m V = V *m dg (five_val eighO X).
  by rewrite -(eq_dg se) -key !mulmxA (mulmx1C o) mul1mx.
apply: (c12_ref_lemma (k := i0) h (ltW t) d nr); rewrite /eigenpair mul1mx.
have := congr1 (fun M => col i1 M) eg; rewrite col_mulmx flip_col.
have -> : rev_ord i1 = i0 by apply/val_inj.
move=> ->; apply/matrixP=> p q; rewrite [LHS]mxE mul_dg mxZE valE /V vecE mulrC.
by rewrite [(\matrix_(_, _) _) _ _]mxE [col _ _ _ _]mxE; have -> : rev_ord i1 = i0 by apply/val_inj.
Qed.
Lemma c26_zero nN (X : 'M[C]_(2, nN)) : sample_cov X 0 1 = 0 -> sample_cov X 1 1 < sample_cov X 0 0 ->
  10%:R ^- 15 <= pencil_disc (sample_cov X) 1%:M -> five_vec eighO X = 0.
Proof.
move=> a lt d; have [c0 c1] := c12_diag_lemma (cov_herm X) a lt (tiny_gt0 15) d.
apply/matrixP=> i j; rewrite vecE [LHS]mxE [RHS]mxE /=.
case/orP: (i01 (rev_ord j)) => /eqP ->.
  by have := congr1 (fun M : 'cV[C]_2 => M i 0) c0; rewrite !mxE -i0E.
by have := congr1 (fun M : 'cV[C]_2 => M i 0) c1; rewrite !mxE -i1E.
Qed.

(* ---- the loop *)
Section L.
Variables (k nF nN : nat) (St : Type) (model : St -> 'M[C]_(nF, nN) -> 'M[C]_(nF, nN) * St).
Local Notation nC := k.+1.
Variables (X : sig C nF.+1 nN nC) (mic : 'I_nC) (np : option nat).
Local Notation loop := (five_loop eighO model X mic np).
Local Notation fwd := (five_forward eighO model X mic np).
Definition drop_dc (Y : 'M[C]_(nF.+1, nN)) : 'M[C]_(nF, nN) := \matrix_(f, n) Y (lift ord0 f) n.
Lemma loopS n Y m : loop n.+1 Y m = bind (loop n Y m) (fun r => loop 1 r.1 r.2).
Proof.
elim: n Y m => [|n IH] Y m //; rewrite [loop n.+2 Y m]/= [loop n.+1 Y m]/=.
case: (model m Y) => w m'; case: (five_eigvec _ _ _ _) => [u|e] //=.
exact: (IH _ m').
Qed.
Lemma fwdS n m0 Y m : fwd n.+1 m0 = Ok (Y, m) -> exists Yp mp u,
  [/\ fwd n m0 = Ok (Yp, mp), m = (model mp (drop_dc Yp)).2,
      five_eigvec eighO X np (model mp (drop_dc Yp)).1 = Ok u &
      forall f, row (lift ord0 f) Y = outr eighO (X (lift ord0 f)) mic (u f)].
Proof.
rewrite /five_forward loopS; case E: (loop n _ m0) => [[Yl ml]|e] //=.
set Yp : 'M[C]_(nF.+1, nN) := \matrix_(f, j) (if unlift ord0 f is Some g then Yl g j else 0).
have dE : drop_dc Yp = Yl by apply/matrixP=> f j; rewrite !mxE liftK.
case M: (model ml Yl) => [w m'] /=; case U: (five_eigvec _ _ _ _) => [u|e] //= [<- <-].
exists Yp, ml, u; rewrite dE M /=; split=> // f.
by apply/matrixP=> i j; rewrite !ord1 ![in LHS]mxE liftK mxE [RHS]mxE.
Qed.
Lemma dc_zero n m0 Y m : fwd n m0 = Ok (Y, m) -> row ord0 Y = 0.
Proof.
rewrite /five_forward; case: (loop n _ m0) => [[Yl ml]|e] //= [<- _].
by apply/matrixP=> i j; rewrite !mxE unlift_none.
Qed.
Lemma fwd0 m0 Y m : fwd 0 m0 = Ok (Y, m) -> forall f, row (lift ord0 f) Y = five_init eighO mic (X (lift ord0 f)).
Proof.
rewrite /five_forward /= => -[<- _] f.
by apply/matrixP=> i j; rewrite !ord1 ![in LHS]mxE liftK !mxE.
Qed.
End L.

(* ---- power method *)
Section Pw.
Variables (k nF : nat).
Local Notation nC := k.+1.
Implicit Types (V : 'I_nF -> 'M[C]_nC).
Lemma vnormE (x : 'cV[C]_nC) : vnorm x = sqrtC (nrm2 x).
Proof. by []. Qed.
Lemma step_unit (M : 'M[C]_nC) x : M \in unitmx -> x != 0 ->
  vnorm (M *m x) != 0 /\ nrm2 (power_step M x) = 1.
Proof.
move=> uM x0; have y0 : M *m x != 0.
  by apply: contra x0 => /eqP h; rewrite -[x](mulKmx uM) h mulmx0.
have n0 : 0 < nrm2 (M *m x) by rewrite nrm2_gt0.
have s0 : 0 < sqrtC (nrm2 (M *m x)) by rewrite sqrtC_gt0.
split; first by rewrite vnormE gt_eqF.
by rewrite /power_step vnormE nrm2Z normrV ?unitfE ?gt_eqF // (gtr0_norm s0) exprVn sqrtCK mulVf // gt_eqF.
Qed.
Lemma unit_neq0 (x : 'cV[C]_nC) : nrm2 x = 1 -> x != 0.
Proof. by move=> h; rewrite -nrm2_gt0 h ltr01. Qed.
Lemma iter_unit (M : 'M[C]_nC) x n : M \in unitmx -> x != 0 -> iter n (power_step M) x != 0.
Proof.
move=> uM x0; elim: n => [|n IH] //=; apply: unit_neq0; exact: (step_unit uM IH).2.
Qed.
Lemma smallest_powerP V p u : smallest_power V p = Ok u ->
  (1 < p)%N /\ exists (Vinv : {ffun 'I_nF -> 'M[C]_nC}) (x0 : 'I_nF -> 'cV[C]_nC),
    [/\ forall f, inv_loaded (V f) (10%:R ^- 5) = Ok (Vinv f), (forall f, Vinv f \in unitmx /\ x0 f != 0),
        (forall f c, (exists g, Vinv g c 0 != 0) /\ x0 f c 0 = Vinv f c 0 / sqrtC (\sum_g `|Vinv g c 0| ^+ 2)) &
        forall f, u f = (sgn (iter (p - 1) (power_step (Vinv f)) (x0 f) 0 0))^* *: iter (p - 1) (power_step (Vinv f)) (x0 f)].
Proof.
rewrite /smallest_power; case G: (gather _ _) => [Vinv|//] /=; case: (leqP p 1) => // p1.
case: ifP => // nz [<-]; split; first by [].
exists Vinv.
exists (fun f => \col_c (Vinv f c 0 / sqrtC (\sum_g `|Vinv g c 0| ^+ 2))).
have un f : Vinv f \in unitmx.
  have := gather_inv G f; rewrite /inv_loaded /= /torch_inv; case: ifP => // h [<-].
  by rewrite unitmx_inv.
have nn (f : 'I_nF) (c : 'I_nC) : \sum_g `|Vinv g c 0| ^+ 2 != 0.
  have f0 : (0 < nF)%N by case: (f) => a; exact: leq_ltn_trans.
  by move: nz; rewrite f0 /= => /negbT; rewrite negb_exists => /forallP /(_ c); rewrite sqrtC_eq0.
split=> [f|f|f c|f]; [exact: gather_inv G f| | |by rewrite ffunE].
- split=> //; apply/eqP=> h.
  suff h0 : col 0 (Vinv f) = 0.
    have : invmx (Vinv f) *m col 0 (Vinv f) = 0 by rewrite h0 mulmx0.
    rewrite -col_mulmx mulVmx //; by move/matrixP/(_ 0 0)/eqP; rewrite !mxE eqxx oner_eq0.
  apply/matrixP=> c d; have := congr1 (fun M : 'cV[C]_nC => M c 0) h; rewrite !mxE => /eqP.
  by rewrite mulf_eq0 invr_eq0 sqrtC_eq0 (negbTE (nn f c)) orbF => /eqP.
- split; last by rewrite mxE.
  apply/existsP; apply: contraR (nn f c); rewrite negb_exists => /forallP h.
  by rewrite big1 // => g _; move: (h g); rewrite negbK => /eqP ->; rewrite normr0 expr0n.
Qed.
Lemma sgn_norm (z : C) : z != 0 -> `|sgn z| = 1.
Proof. by move=> h; rewrite /sgn (negbTE h) normf_div normr_id divff // normr_eq0. Qed.
(* the norms the power method divides by are never zero *)
Lemma power_nonzero V p u f n : smallest_power V p = Ok u -> forall Vinv x0,
  inv_loaded (V f) (10%:R ^- 5) = Ok Vinv -> x0 != 0 ->
  vnorm (Vinv *m iter n (power_step Vinv) x0) != 0.
Proof.
move=> /smallest_powerP [_ [Vi [y0 [h1 h2 _ _]]]] Vinv x0 e nz; have [un _] := h2 f.
have E : Vinv = Vi f by move: (h1 f); rewrite e => -[].
by rewrite E; apply: (step_unit un _).1; apply: iter_unit.
Qed.
Lemma power_vec V p u f : smallest_power V p = Ok u -> nrm2 (u f) = 1 \/ u f = 0.
Proof.
case/smallest_powerP=> p1 [Vi [x0 [h1 h2 _ ->]]]; have [un nz] := h2 f.
move: p1; rewrite -subn_gt0; case: (p - 1)%N => // n _.
have := (step_unit un (iter_unit n un nz)).2; rewrite -iterS; set x := iter _ _ _ => x1.
case: (eqVneq (x 0 0) 0) => [->|nx]; first by right; rewrite /sgn eqxx rmorph0 scale0r.
by left; rewrite nrm2Z norm_conjC sgn_norm // expr1n mul1r.
Qed.
End Pw.

Lemma eigh_unit k nN (w : 'rV[C]_nN) (Z : 'M[C]_(k.+1, nN)) : (forall n, eigensolver (eighO n)) ->
  nrm2 (smallest_eigh eighO (five_V w Z)) = 1.
Proof. by move=> ok; have [-> _] := rayleigh 0 (ok k.+1) (five_V_herm w Z). Qed.
(* ---- C27, C62 *)
Section T.
Variables (k nF nN : nat) (St : Type) (model : St -> 'M[C]_(nF, nN) -> 'M[C]_(nF, nN) * St).
Local Notation nC := k.+1.
Variables (X : sig C nF.+1 nN nC) (mic : 'I_nC) (np : option nat).
Local Notation fwd := (five_forward eighO model X mic np).
Hypothesis ok : forall n, eigensolver (eighO n).
Hypothesis n0 : (0 < nN)%N.
Variable f : 'I_nF.
Local Notation Xf := (X (lift ord0 f)).
Hypothesis fp : full_power Xf.
Hypothesis r2 : real_if_two (sample_cov Xf).
Let rl i : five_val eighO Xf i \is Num.real.
Proof.
have [_ _ h] := basis_ok (basisP ok r2) fp; apply: gtr0_real.
exact: lt_le_trans (tiny_gt0 5) (h i).
Qed.
Lemma out_filter u : exists g, outr eighO Xf mic u = filtered g Xf.
Proof.
exists (ctr (zz eighO Xf mic u *: (ctr u *m five_Q eighO Xf))).
by rewrite outrE filteredE ctrK -scalemxAl mulmxA.
Qed.
Lemma eigvec_unit w u : five_eigvec eighO X np w = Ok u -> nrm2 (u f) = 1 \/ u f = 0.
Proof.
rewrite /five_eigvec; case: np => [p|]; first exact: power_vec.
by case=> <-; left; rewrite ffunE; apply: eigh_unit.
Qed.
Lemma c27_lemma n m0 Y m : fwd n.+1 m0 = Ok (Y, m) ->
  (exists g, row (lift ord0 f) Y = filtered g Xf) /\
  corr (row mic Xf - row (lift ord0 f) Y) (row (lift ord0 f) Y) = 0.
Proof.
move=> h; have [Yp [mp [u [_ _ eu ->]]]] := fwdS h; split; first exact: out_filter.
have [o e v] := basis_ok (basisP ok r2) fp.
case: (eigvec_unit eu) => [u1|u0]; first by apply: out_orth => //; exact: c26_lemma.
rewrite outrE u0 ctr0 mul0mx scaler0 corrE ctr0 mulmx0 mxE //.
Qed.
Lemma z_init : \sum_d five_Q eighO Xf 0 d * five_Cx Xf d mic = (five_Qinv eighO Xf mic 0)^*.
Proof.
have [o e v] := basis_ok (basisP ok r2) fp.
have w := c26_lemma ok fp r2.
have QC : five_Q eighO Xf *m sample_cov Xf = ctr (five_Qinv eighO Xf).
  have iq : ctr (five_Q eighO Xf) *m ctr (five_Qinv eighO Xf) = 1%:M.
    by rewrite -ctrM QinvQ // ctr1.
  rewrite -[LHS]mulmx1 -iq mulmxA.
  have -> : five_Q eighO Xf *m sample_cov Xf *m ctr (five_Q eighO Xf) = 1%:M.
    by rewrite -w !cov_gram /five_white ctrM -scalemxAr -scalemxAl !mulmxA.
  by rewrite mul1mx.
by rewrite CxE -ctrE -QC mxE.
Qed.
Lemma c27_init m0 Y m : fwd 0 m0 = Ok (Y, m) ->
  exists (c : C) (p : 'rV[C]_nN),
    [/\ energy p = nN%:R, corr (row mic Xf - c *: p) p = 0, row (lift ord0 f) Y = c^* *: p,
        c = five_Qinv eighO Xf mic 0 &
        corr (row mic Xf - row (lift ord0 f) Y) (row (lift ord0 f) Y) = 0 <-> c \is Num.real].
Proof.
move=> h; have yE := fwd0 h f.
have [o e v] := basis_ok (basisP ok r2) fp; have w := c26_lemma ok fp r2.
pose c := five_Qinv eighO Xf mic 0; pose p := row 0 (five_white eighO Xf).
have yE' : row (lift ord0 f) Y = c^* *: p.
  by rewrite yE; apply/matrixP=> i n; rewrite !ord1 /five_init z_init [LHS]mxE mxZE [p _ _]mxE.
have G := gram_white n0 w.
have en : (p *m ctr p) 0 0 = nN%:R.
  have -> : (p *m ctr p) 0 0 = (five_white eighO Xf *m ctr (five_white eighO Xf)) 0 0.
    by rewrite !mxE; apply: eq_bigr => j _; rewrite !ctrE !mxE.
  by rewrite G mxE eqxx mulr1n.
have xp : (row mic Xf *m ctr p) 0 0 = c * nN%:R.
  have -> : row mic Xf = row mic (five_Qinv eighO Xf) *m five_white eighO Xf by rewrite -row_mul -unwhiten.
  have -> : (row mic (five_Qinv eighO Xf) *m five_white eighO Xf *m ctr p) 0 0 =
     (five_Qinv eighO Xf *m (five_white eighO Xf *m ctr (five_white eighO Xf))) mic 0.
    rewrite mulmxA !mxE; apply: eq_bigr => j _; rewrite !ctrE [p _ _]mxE; congr (_ * _).
    by rewrite !mxE; apply: eq_bigr => i _; rewrite [row _ _ _ _]mxE.
  by rewrite G mul_mx_scalar mxZE mulrC.
have nn : nN%:R != 0 :> C by rewrite pnatr_eq0 -lt0n.
exists c, p; split=> //.
- by rewrite energyE.
- by rewrite corrE mulmxBl mxBE xp -scalemxAl mxZE en subrr.
rewrite yE' corrE mulmxBl mxBE ctrZ conjCK -scalemxAr -scalemxAl -scalemxAr !mxZE xp en.
have -> : c * (c * nN%:R) - c^* * (c * nN%:R) = c * nN%:R * (c - c^*) by cring.
split=> [/eqP|/conj_Creal ->]; last by rewrite subrr mulr0.
rewrite !mulf_eq0 (negbTE nn) orbF => /orP [/eqP ->|]; first exact: real0.
by rewrite subr_eq0 eq_sym => /eqP /CrealP.
Qed.
End T.

Section T62.
Variables (k nF nN : nat) (St : Type) (model : St -> 'M[C]_(nF, nN) -> 'M[C]_(nF, nN) * St).
Local Notation nC := k.+1.
Variables (X : sig C nF.+1 nN nC) (mic : 'I_nC).
Local Notation fwd := (five_forward eighO model X mic None).
Lemma c62_lemma n m0 Y m f : (forall n, eigensolver (eighO n)) -> (0 < nN)%N ->
  full_power (X (lift ord0 f)) -> real_if_two (sample_cov (X (lift ord0 f))) ->
  fwd n.+1 m0 = Ok (Y, m) -> exists Yp mp, fwd n m0 = Ok (Yp, mp) /\
  let w := (model mp (\matrix_(g, j) Yp (lift ord0 g) j)).1 in
  (forall j, w f j \is Num.real) -> extracts (row f w) (X (lift ord0 f)) (row (lift ord0 f) Y).
Proof.
move=> ok n0 fp r2 h; have [Yp [mp [u [h1 h2 eu yE]]]] := fwdS h; exists Yp, mp; split=> // w wr.
rewrite yE; move: eu; rewrite /five_eigvec => -[<-]; rewrite ffunE.
have [o e v] := basis_ok (basisP ok r2) fp.
apply: out_extracts => //.
- by move=> i; apply: gtr0_real; apply: lt_le_trans (tiny_gt0 5) (v i).
- exact: c26_lemma.
- by move=> j; rewrite mxE; apply: wr.
Qed.
End T62.

(* ---- C28 *)
Section One.
Variables (nF nN : nat) (St : Type) (model : St -> 'M[C]_(nF, nN) -> 'M[C]_(nF, nN) * St).
Variables (X : sig C nF.+1 nN 1).
Hypothesis ok : forall n, eigensolver (eighO n).
Lemma out_one (Xf : 'M[C]_(1, nN)) u : nrm2 u = 1 -> outr eighO Xf 0 u = row 0 Xf.
Proof.
move=> u1; have [o e] : basis Xf by apply: basisP.
have rl i : five_val eighO Xf i \is Num.real.
  by rewrite valE eighE //; have [h _ _ _] := @ok 1%N _ (cov_herm Xf).
rewrite [in RHS](unwhiten (flip_orth o) rl) outrE.
apply/matrixP=> a n; rewrite !ord1 mxZE [(ctr u *m _) _ _]mxE big_ord1 ctrE.
rewrite /zz big_ord1 [row _ _ _ _]mxE [(_ *m five_white _ _) _ _]mxE big_ord1.
move: u1; rewrite /nrm2 big_ord1 normCK; move: (u 0 0) (u 0 0)^* (five_Qinv _ _ _ _) (five_white _ _ _ _) => u0 u0c q w h.
by rewrite -[q * w]mulr1 -h; cring.
Qed.
Lemma c28_lemma n m0 Y m np : (forall m Z f j, 0 <= (model m Z).1 f j) ->
  five_forward eighO model X 0 np n.+1 m0 = Ok (Y, m) ->
  row ord0 Y = 0 /\ forall f, row (lift ord0 f) Y = row 0 (X (lift ord0 f)).
Proof.
move=> w0 h; split; first exact: dc_zero h.
move=> f; have [Yp [mp [u [_ _ eu ->]]]] := fwdS h; apply: out_one.
case: (eigvec_unit ok f eu) => // u0.
move: eu; rewrite /five_eigvec; case: (np) => [p|].
  case/smallest_powerP=> p1 [Vi [x0 [h1 h2 _ h4]]]; have [un nz] := h2 f.
  move: p1; rewrite -subn_gt0; move: (h4 f); case: (p - 1)%N => // q uE _.
  have := (step_unit un (iter_unit q un nz)).2; rewrite -iterS; set x := iter _ _ _ in uE *.
  rewrite /nrm2 !big_ord1 => x1; rewrite uE mxZE.
  have nx : x 0 0 != 0 by apply/eqP=> e; move: x1; rewrite e normr0 expr0n /= => /eqP; rewrite eq_sym oner_eq0.
  by rewrite normrM norm_conjC sgn_norm // mul1r x1.
case=> uE; move: u0; rewrite -uE ffunE => /eqP; rewrite -[_ == 0]negbK -nrm2_gt0 eigh_unit // ltr01.
Qed.
End One.
Section Unb.
Variables (k nF nN : nat) (St : Type) (model : St -> 'M[C]_(nF, nN) -> 'M[C]_(nF, nN) * St).
Local Notation nC := k.+1.
Variables (X : sig C nF.+1 nN nC) (mic : 'I_nC).
Lemma V_psd (w : 'rV[C]_nN) (Z : 'M[C]_(nC, nN)) : (forall j, 0 <= w 0 j) -> psd (five_V w Z).
Proof.
move=> w0; have [h q] := five_VE Z (fun j => ger0_real (w0 j)); split=> // v.
by rewrite q; apply: sumr_ge0 => j _; rewrite mulr_ge0 // exprn_ge0.
Qed.
Lemma gather_inv_ok (w : 'M[C]_(nF, nN)) : (forall f j, 0 <= w f j) -> exists Vi : {ffun 'I_nF -> 'M[C]_nC},
  gather 0 (fun f => inv_loaded (five_V (row f w) (five_white eighO (no_dc X f))) (10%:R ^- 5)) = Ok Vi /\
  forall f, let V := five_V (row f w) (five_white eighO (no_dc X f)) in
     V + (load_factor V (10%:R ^- 5))%:M \in unitmx /\ Vi f = invmx (V + (load_factor V (10%:R ^- 5))%:M).
Proof.
move=> w0; pose V f := five_V (row f w) (five_white eighO (no_dc X f)).
have pV f : psd (V f) by apply: V_psd => j; rewrite mxE.
eexists; split; first by apply: gather_ok => f; apply: inv_loaded_psd => //; [exact: pV|exact: tiny_gt0].
move=> f; rewrite ffunE /= scalemx1; split=> //; rewrite -scalemx1; apply: pd_unit.
by apply: pd_loaded => //; [exact: pV|exact: tiny_gt0].
Qed.
Lemma c28_unbound n m0 p : (forall m Z f j, 0 <= (model m Z).1 f j) -> (p <= 1)%N ->
  five_forward eighO model X mic (Some p) n.+1 m0 = Err UnboundLocalError.
Proof.
move=> w0 p1; rewrite /five_forward /=; set Y0 := \matrix_(f, n) _.
have := w0 m0 Y0; case: (model m0 Y0) => w m' /= wp.
by rewrite /smallest_power; have [Vi [-> _]] := gather_inv_ok wp; rewrite /= p1.
Qed.
(* linearly dependent channels at every frequency: NaN *)
Lemma c63_lemma n m0 p : (forall m Z f j, 0 <= (model m Z).1 f j) -> (1 < p)%N -> (0 < nF)%N -> (1 < k)%N ->
  (forall n, eigensolver (eighO n)) ->
  (forall f, exists2 v : 'cV[C]_nC, v != 0 & filtered v (X (lift ord0 f)) = 0) ->
  five_forward eighO model X mic (Some p) n.+1 m0 = Err NotANumber.
Proof.
move=> w0 p1 f0 k1 ok dep; rewrite /five_forward /=; set Y0 := \matrix_(f, n) _.
have := w0 m0 Y0; case: (model m0 Y0) => w m' /= wp.
rewrite /smallest_power; have [Vi [-> hV]] := gather_inv_ok wp; rewrite /= leqNgt p1 /= f0 /=.
have z f j : five_white eighO (no_dc X f) ord_max j = 0.
  pose R := sample_cov (no_dc X f); have hR : herm R := cov_herm _.
  have kne : k != 1%N by rewrite gtn_eqF.
  have [v v0 fv] := dep f; have [u1 ry] := rayleigh v (ok nC) hR.
  set u := col 0 _ in u1 ry.
  have qE x : qf R x = energy (filtered x (no_dc X f)) / nN%:R.
    rewrite qf_cov /energy mulr_suml; apply: eq_bigr => i _; by rewrite mxE.
  have q0 : qf R v = 0 by rewrite qE fv /energy big1 ?mul0r // => i _; rewrite mxE normr0 expr0n.
  have qu0 : qf R u = 0.
    apply/eqP; rewrite eq_le; apply/andP; split.
      by rewrite -(pmulr_lle0 _ (_ : 0 < nrm2 v)) ?nrm2_gt0 // -q0.
    by rewrite qE divr_ge0 ?ler0n // sumr_ge0 // => i _; rewrite exprn_ge0.
  have uX i : filtered u (no_dc X f) 0 i = 0.
    move: qu0; rewrite qE => /eqP; rewrite mulf_eq0 => /orP [|]; last first.
      by rewrite invr_eq0 pnatr_eq0 => /eqP n1; have := ltn_ord i; rewrite [X in (_ < X)%N]n1 ltn0.
    rewrite psumr_eq0 => [/allP H|a _]; last by rewrite exprn_ge0.
    by have := H i (mem_index_enum _); rewrite /= expf_eq0 /= normr_eq0 => /eqP.
  rewrite /five_white mxE; under eq_bigr => c _.
    rewrite mxE hermiteE ctrE vecE mxE eighE // -mulrA; over.
  rewrite -mulr_sumr (_ : \sum_i _ = filtered u (no_dc X f) 0 j) ?uX ?mulr0 //.
  rewrite -[RHS](uX j) [RHS]mxE; apply: eq_bigr => c _; congr (_ ^* * _); rewrite mxE; congr (_ _ _).
  by apply/val_inj; rewrite /= subnn.
case: ifP => // /negbT /negP []; apply/existsP; exists ord_max; rewrite sqrtC_eq0 big1 // => f _.
suff -> : Vi f ord_max 0 = 0 by rewrite normr0 expr0n.
have [uM ->] := hV f; set V := five_V _ _ in uM *; set l := load_factor _ _ in uM *.
have l0 : l != 0 by rewrite gt_eqF // load_factor_gt0 // tiny_gt0.
have V0 j : V ord_max j = 0.
  rewrite /V /five_V mxZE mxDE hermiteE ctrE !mxE !big1 ?rmorph0 ?addr0 ?mulr0 // => i _.
    by rewrite z rmorph0 mulr0.
  by rewrite z mulr0 mul0r.
have := congr1 (fun M : 'M[C]_nC => M ord_max 0) (mulmxV uM); rewrite [RHS]mxE.
have -> : (ord_max == 0 :> 'I_nC) = false by apply/eqP=> /(congr1 val) /= e; move: k1; rewrite e.
rewrite mulmxDl mxDE mul_scalar_mx mxZE [(V *m _) _ _]mxE big1 => [|j _]; last by rewrite V0 mul0r.
by rewrite add0r mulr0n => /eqP; rewrite mulf_eq0 (negbTE l0) => /eqP.
Qed.
End Unb.
End B.

Section Ret.
Variable C : numClosedFieldType.
Variable eighO : forall n, eigh_oracle C n.
Arguments eighO : clear implicits.
Lemma five_returns k nF nN St (model : St -> 'M[C]_(nF, nN) -> 'M[C]_(nF, nN) * St) (X : sig C nF.+1 nN k.+1)
    (mic : 'I_k.+1) n m0 : exists Y m, five_forward eighO model X mic None n m0 = Ok (Y, m).
Proof.
rewrite /five_forward; move: (\matrix_(f, j) _) => Y0.
suff [Y [m ->]] : exists Y m, five_loop eighO model X mic None n Y0 m0 = Ok (Y, m) by do 2 eexists.
elim: n Y0 m0 => [|n IH] Y0 m0 /=; first by do 2 eexists.
by case: (model m0 Y0) => w m'; apply: IH.
Qed.
Lemma one_returns nF nN St (model : St -> 'M[C]_(nF, nN) -> 'M[C]_(nF, nN) * St) (X : sig C nF.+1 nN 1) n m0 np :
  (forall m Z f j, 0 <= (model m Z).1 f j) -> (if np is Some p then (1 < p)%N else true) ->
  exists Y m, five_forward eighO model X 0 np n m0 = Ok (Y, m).
Proof.
case: np => [p|] w0 p1; last exact: five_returns.
rewrite /five_forward; move: (\matrix_(f, j) _) => Y0.
suff [Y [m ->]] : exists Y m, five_loop eighO model X 0 (Some p) n Y0 m0 = Ok (Y, m) by do 2 eexists.
elim: n Y0 m0 => [|n IH] Y0 m0 /=; first by do 2 eexists.
have := w0 m0 Y0; case: (model m0 Y0) => w m' /= wp.
rewrite /smallest_power; have [Vi [-> hV]] := gather_inv_ok eighO X wp; rewrite /= leqNgt p1 /=.
case: ifP => [|_]; last exact: IH.
case/andP=> f0 /existsP [c]; rewrite sqrtC_eq0 psumr_eq0 => [/allP H|g _]; last by rewrite exprn_ge0.
have := H (Ordinal f0) (mem_index_enum _); rewrite /= expf_eq0 /= normr_eq0 !ord1 => /eqP z.
have [uM E] := hV (Ordinal f0); move: uM; rewrite -unitmx_inv -E unitmxE det_mx11 z unitr0 //.
Qed.
End Ret.

Section Silent.
Variable C : numClosedFieldType.
Variable eighO : forall n, eigh_oracle C n.
Variables (nF nN : nat) (St : Type) (model : St -> 'M[C]_(nF, nN) -> 'M[C]_(nF, nN) * St).
Variables (X : sig C nF.+1 nN 2) (mic : 'I_2) (np : option nat).
Lemma white_zero (Xf : 'M[C]_(2, nN)) : five_vec eighO Xf = 0 -> five_white eighO Xf = 0.
Proof.
move=> v0; rewrite /five_white (_ : five_Q eighO Xf = 0) ?mul0mx //.
by apply/matrixP=> i j; rewrite mxE hermiteE v0 ctr0 !mxE mulr0.
Qed.
Lemma c26_silent n m0 Y m f : five_forward eighO model X mic np n m0 = Ok (Y, m) ->
  sample_cov (X (lift ord0 f)) 0 1 = 0 -> sample_cov (X (lift ord0 f)) 1 1 < sample_cov (X (lift ord0 f)) 0 0 ->
  10%:R ^- 15 <= pencil_disc (sample_cov (X (lift ord0 f))) 1%:M ->
  row (lift ord0 f) Y = 0.
Proof.
move=> h a lt d; have w0 := white_zero (c26_zero eighO a lt d).
case: n h => [|n] h.
  by rewrite (fwd0 h); apply/matrixP=> i j; rewrite /five_init w0 !mxE mulr0.
by have [Yp [mp [u [_ _ eu ->]]]] := fwdS h; rewrite outrE w0 mulmx0 scaler0.
Qed.
End Silent.

Section Wit.
Variable C : numClosedFieldType.
Add Field fiveW : (f_ft C).
Ltac cring := fpre; fnorm C; fatoms; ring.
Definition wX : 'M[C]_(3, 3) :=
  \matrix_(i, j) nth 0 (nth [::] [:: [:: 2%:R; 1; 0]; [:: - (2%:R * 'i); 'i; 0]; [:: 0; 0; 1]] i) j.
Lemma wX_power : full_power wX.
Proof.
move=> v; rewrite -mulr_suml !big_ord_recl !big_ord0 !mxE /= !mulr0 !addr0 !add0r !mulr1.
move: (v ord0 0) (v (lift ord0 ord0) 0) (v (lift ord0 (lift ord0 ord0)) 0) => a b c.
set S := _ + (`|b| ^+ 2 + _).
have S0 : 0 <= S by rewrite !addr_ge0 // exprn_ge0.
have par : `|a^* - 'i * b^*| ^+ 2 + `|a^* + 'i * b^*| ^+ 2 = 2%:R * (`|a| ^+ 2 + `|b| ^+ 2).
  rewrite !normCK !rmorphB !rmorphD !rmorphM /= !conjCK conjCi.
  have i2 : 'i * 'i = -1 :> C by rewrite -expr2 sqrCi.
  have -> : (a^* - 'i * b^*) * (a - - 'i * b) + (a^* + 'i * b^*) * (a + - 'i * b) =
     2%:R * (a * a^* - 'i * 'i * (b * b^*)) by cring.
  by rewrite i2 mulN1r opprK.
have -> : a^* * 2%:R + b^* * - (2%:R * 'i) = 2%:R * (a^* - 'i * b^*) by cring.
rewrite [b^* * 'i]mulrC norm_conjC normrM exprMn normr_nat.
have ge : S <= 2%:R ^+ 2 * `|a^* - 'i * b^*| ^+ 2 + (`|a^* + 'i * b^*| ^+ 2 + `|c| ^+ 2).
  rewrite addrA; apply: (@le_trans _ _ (2%:R * (`|a| ^+ 2 + `|b| ^+ 2) + `|c| ^+ 2)).
    rewrite /S addrA ler_add2r ler_pemull ?ler1n // addr_ge0 // exprn_ge0 //.
  rewrite -par ler_add2r ler_add2r ler_pemull ?exprn_ge0 // exprn_ege1 // ler1n //.
apply: le_trans (ler_wpmul2r _ ge); last by rewrite invr_ge0 ler0n.
rewrite mulrC ler_wpmul2l // lef_pinv ?qualifE ?exprn_gt0 ?ltr0n //.
by rewrite -natrX ler_nat.
Qed.
Lemma wX_cov : [/\ sample_cov wX 0 0 = 5%:R / 3%:R, sample_cov wX 0 1 = 'i, sample_cov wX 1 0 = - 'i,
   sample_cov wX 1 1 = 5%:R / 3%:R & [/\ sample_cov wX 0 2%:R = 0, sample_cov wX 1 2%:R = 0, sample_cov wX 2%:R 0 = 0,
   sample_cov wX 2%:R 1 = 0 & sample_cov wX 2%:R 2%:R = 1 / 3%:R]].
Proof.
have i2 : 'i * 'i = -1 :> C by rewrite -expr2 sqrCi.
have t3 : 3%:R <> 0 :> C by apply/eqP; rewrite pnatr_eq0.
split; [| | | |split]; rewrite mxE !big_ord_recl !big_ord0 !mxE /= ?rmorphN ?rmorphM ?conjCi ?rmorph0 ?rmorph1 ?conjC_nat;
  rewrite ?mulr0 ?mul0r ?addr0 ?add0r ?mul1r ?mulr1 //.
- by congr (_ / _); cring.
- have -> : 2%:R * - (2%:R * - 'i) + - 'i = 3%:R * 'i :> C by cring.
  by rewrite mulrC mulKf //; apply/eqP.
- have -> : - (2%:R * 'i) * 2%:R + 'i = 3%:R * - 'i :> C by cring.
  by rewrite mulrC mulKf //; apply/eqP.
- congr (_ / _); have -> : - (2%:R * 'i) * - (2%:R * - 'i) + 'i * - 'i = - 5%:R * ('i * 'i) :> C by cring.
  by rewrite i2 mulrN mulr1 opprK.
all: by rewrite mul0r.
Qed.
Lemma real_i (x : C) : x \is Num.real -> 'i * x \is Num.real -> x = 0.
Proof.
move=> r /CrealP; rewrite rmorphM conjCi (conj_Creal r) mulNr => /eqP.
rewrite eq_sym -subr_eq0 opprK -mulr2n mulrn_eq0 /= mulf_eq0 (negbTE (neq0Ci C)) /= => /eqP //.
Qed.
Lemma ord3 (P : 'I_3 -> Prop) : P 0 -> P 1 -> P 2%:R -> forall i, P i.
Proof.
by move=> p0 p1 p2 [[|[|[|//]]] i]; [move: p0|move: p1|move: p2]; congr P; apply/val_inj.
Qed.
Lemma sum3 (F : 'I_3 -> C) : \sum_i F i = F 0 + (F 1 + F 2%:R).
Proof.
by rewrite !big_ord_recl big_ord0 addr0; congr (F _ + (F _ + F _)); apply/val_inj.
Qed.
Lemma c27_wit (eighO : forall n, eigh_oracle C n) : (forall n, eigensolver (eighO n)) ->
  exists mic : 'I_3, five_Qinv eighO wX mic 0 \isn't Num.real.
Proof.
move=> ok; have [o e v] := basis_ok (basisP (k := 2) ok I) wX_power.
have rl i : five_val eighO wX i \is Num.real by apply: gtr0_real; apply: lt_le_trans (tiny_gt0 C 5) (v i).
have s0 i := sqrt_gt0 (rl i).
case r0: (five_Qinv eighO wX 0 0 \is Num.real); last by exists 0; rewrite r0.
case r1: (five_Qinv eighO wX 1 0 \is Num.real); last by exists 1; rewrite r1.
exfalso; pose V := five_vec eighO wX; pose l := five_val eighO wX.
have vr i : five_Qinv eighO wX i 0 \is Num.real -> V i 0 \is Num.real.
  rewrite mxE => h; rewrite -[V i 0](mulfK (lt0r_neq0 (s0 0))) rpredM // rpredV gtr0_real //.
have e0 := e 0; have ei i : \sum_j sample_cov wX i j * V j 0 = l 0 * V i 0.
  have := congr1 (fun M : 'cV[C]_3 => M i 0) e0; rewrite mxE mxZE [col _ _ _ _]mxE => <-.
  by apply: eq_bigr => j _; rewrite [col _ _ _ _]mxE.
have [c00 c01 c10 c11 [c02 c12 c20 c21 c22]] := wX_cov.
have v1 : V 1 0 = 0.
  apply: real_i; first exact: vr.
  have := ei 0; rewrite sum3 c00 c01 c02 mul0r addr0 => h.
  rewrite (_ : 'i * _ = l 0 * V 0 0 - 5%:R / 3%:R * V 0 0); last by rewrite -h addrC addKr.
  by apply: rpredB; apply: rpredM; rewrite ?rl ?vr // rpred_div ?realn.
have v0 : V 0 0 = 0.
  apply: real_i; first exact: vr.
  have := ei 1; rewrite sum3 c10 c11 c12 mul0r addr0 mulNr => h.
  rewrite (_ : 'i * _ = 5%:R / 3%:R * V 1 0 - l 0 * V 1 0); last by rewrite -h opprD opprK addrCA subrr addr0.
  by apply: rpredB; apply: rpredM; rewrite ?rl ?vr // rpred_div ?realn.
have v2 : V 2%:R 0 != 0.
  apply/eqP=> h; have := congr1 (fun M : 'M[C]_3 => M 0 0) o; rewrite mxE sum3 -/V v0 v1 h !mulr0 !addr0 mxE.
  by move/eqP; rewrite eq_sym oner_eq0.
have l0 : l 0 = 1 / 3%:R.
  apply: (mulIf v2); rewrite -ei sum3 c20 c21 c22; rewrite !mul0r !add0r //.
have tr : \sum_i l i = 11%:R / 3%:R.
  have key : ctr V *m sample_cov wX *m V = dg l.
    have /eig_diag : forall i, sample_cov wX *m col i V = l i *: (1%:M *m col i V) by move=> i; rewrite mul1mx; apply: e.
    by rewrite mul1mx -mulmxA => ->; rewrite mulmxA o mul1mx.
  transitivity (\tr (dg l)); first by apply: eq_bigr => i _; rewrite mxE eqxx mulr1n.
  rewrite -key -mulmxA mxtrace_mulC -mulmxA (mulmx1C o) mulmx1 /mxtrace sum3 c00 c11 c22.
  by rewrite -!mulrDl; congr (_ / _); cring.
have le i : l i <= l 0.
  rewrite /l !valE eighE //; have [_ asc _ _] := ok 3%N _ (cov_herm wX); apply: asc.
  by rewrite /= leq_sub2l.
have : 11%:R / 3%:R <= 3%:R * (1 / 3%:R) :> C.
  rewrite -tr -l0 sum3 (_ : 3%:R * l 0 = l 0 + (l 0 + l 0)); last by move: (l 0) => x; cring.
  by rewrite !ler_add.
by rewrite mul1r mulfV ?pnatr_eq0 // ler_pdivr_mulr ?ltr0n // mul1r ler_nat.
Qed.
Lemma c27_ref_lemma : exists X : sig C 2 3 3, (forall f, full_power (X f)) /\
  forall eighO : (forall n, eigh_oracle C n), (forall n, eigensolver (eighO n)) -> exists mic : 'I_3,
  forall St (model : St -> 'M[C]_(1, 3) -> 'M[C]_(1, 3) * St) np m0 Y m,
  five_forward eighO model X mic np 0 m0 = Ok (Y, m) ->
  corr (row mic (X 1) - row 1 Y) (row 1 Y) <> 0.
Proof.
exists [ffun _ => wX]; split=> [f|eighO ok]; first by rewrite ffunE; exact: wX_power.
have [mic nr] := c27_wit ok; exists mic => St model np m0 Y m h.
have f1 : lift ord0 0 = 1 :> 'I_2 by apply/val_inj.
have [c [p [_ _ _ cE h5]]] := @c27_init C eighO 2 1 3 St model [ffun _ => wX] mic np ok isT 0 (eq_ind _ _ wX_power _ (esym (ffunE _ _))) I m0 Y m h.
rewrite -f1 => /h5; rewrite cE ffunE; exact/negP.
Qed.
End Wit.
