(* T_ISS on a batch: the iterations, the projection back and the whole of forward. *)
From Coq Require Import String Ascii ZArith.
From mathcomp Require Import all_ssreflect all_algebra.
From mathcomp Require Import zify.
From Verif Require TorchShape.
From Verif Require Import CAlg Py Batch LinalgModel TissModel TensorModel TOpsModel TSpec TSepSpec TensorProofs TEinsum TOpsProofs TWpeProofs TTissModel TTissProofs TTissBatch.
Set Implicit Arguments. Unset Strict Implicit. Unset Printing Implicit Defensive.
Import GRing.Theory Num.Theory Order.TTheory.
Local Open Scope ring_scope.
Arguments clip : simpl never.
Arguments TorchShape.bc2 : simpl never.
Arguments Nat.eqb : simpl never.

Section Run.
Variable C : numClosedFieldType.
Local Notation tensor := (tensor C).
Variables (nS nB F T dl N : nat) (B : seq nat).
Local Notation nC := (nS + nB)%N.
Local Notation sg k n t b := (sig_at F n k t b).
Variables (St St1 : Type) (tm : St -> tensor -> result (tensor * St)) (m : St1 -> sig C F N nS -> sig C F N nS * St1) (inv : St -> Prop) (rs : St -> seq nat -> St1).
Hypothesis hm : source_as B tm m inv rs.
Hypothesis N0 : (0 < N)%N.
Variables (X Xb : tensor) (eps : C).
Hypothesis sX : sh X = [:: N, F, nC & B].
Hypothesis sXb : sh Xb = [:: N, T, F, nC & B].
Hypothesis hXb : forall b, inr B b -> xb_at F T N nC Xb b = delayed T dl (sg nC N X b).

Definition tst := (tensor * tensor * tensor * option tensor * St)%type.
Definition okS (s : tst) : Prop := [/\ okYWH nS nB F T N B s.1.1, okJ nS nB F B s.1.2 & inv s.2].
Definition rdS (s : tst) (b : seq nat) : st C nS nB F T N St1 :=
  mkst (sg nS N s.1.1.1.1 b) (sg nS nC s.1.1.1.2 b) (taps_at F T nS nC s.1.1.2 b) (rdJ nS nB F s.1.2 b) (rs s.2 b).

(* the covariance matrices of the background update, computed only when there is a background *)
Definition okC (Cs : option (tensor * tensor)) : Prop :=
  if Cs is Some (CXX, CXbX) then
    [/\ (0 < nB)%N, sh CXX = [:: nC, F, nC & B], sh CXbX = [:: nC, F, T, nC & B],
      forall b f c d, inr B b -> at_ CXX [:: nat_of_ord d, nat_of_ord f, nat_of_ord c & b] = C_XX (sg nC N X b) f c d &
      forall b f t c d, inr B b -> at_ CXbX [:: nat_of_ord d, nat_of_ord f, nat_of_ord t, nat_of_ord c & b] = C_XbarX (sg nC N X b) (xb_at F T N nC Xb b) f t c d]
  else nB = 0%N.
Variable Cs : option (tensor * tensor).
Hypothesis hC : okC Cs.

Lemma bg_at (W H : tensor) e : sh W = [:: nC, F, nS & B] -> sh H = [:: T, nC, F, nS & B] -> (0 < nB)%N -> exists CXX CXbX, Cs = Some (CXX, CXbX) /\
  gives (okJ nS nB F B) B (let* J := t_background_update W H CXX CXbX e in Ok (Some J))%py
    (fun b => background_update (sg nS nC W b) (taps_at F T nS nC H b) (sg nC N X b) (delayed T dl (sg nC N X b)) e) (rdJ nS nB F).
Proof.
move=> sW sH n0; move: hC; rewrite /okC; case: Cs => [[c1 c2]|b0]; last by rewrite b0 in n0.
move=> [_ s1 s2 h1 h2]; exists c1, c2; split=> //.
have := background_at e sW sH s1 s2 h1 h2; rewrite /lifts /gives; case: (t_background_update _ _ _ _ _) => [J [sJ h]|er [b hb h]] /=.
  by split=> // b hb; rewrite -hXb // h.
by exists b => //; rewrite -hXb.
Qed.
Lemma one_iter_at s : okS s -> gives okS B (t_one_iter tm X Xb Cs eps s) (fun b => one_iter dl m (sg nC N X b) eps (rdS s b)) rdS.
Proof.
case: s => [[[[Y W] H] J] m0] ok; set gr := (fun b => one_iter _ _ _ _ _).
have [[sY sW sH] jJ iJ] := ok; cbn [fst snd] in sY, sW, sH, jJ, iJ; rewrite /t_one_iter.
have [w [m1 [-> im1 sw hw]]] := hm iJ sY; cbn [bind].
have [g [-> shg hg]] := tmean2E (sY : sh (tmap (@mag_sq C) Y) = _); cbn [bind]; cbv zeta.
pose gc := tmap (fun x => clamp x eps) g; rewrite -/gc; have sgc : sh gc = [:: 1, 1, nS & B]%N by [].
have gE b s : at_ gc [:: 0%N, 0%N, nat_of_ord s & b] = gain eps (sg nS N Y b) s.
  rewrite /gc; cbn [at_ tmap]; rewrite hg /gain; congr (clamp (_ / _) _).
  by apply: eq_bigr => f _; apply: eq_bigr => n _; rewrite sigE.
pose gq := tmap sqrtC gc; rewrite -/gq; have sgq : sh gq = [:: 1, 1, nS & B]%N by [].
have [Y1 [e1 sY1 hY1]] := tzip_gain (fun x y => divide x y eps) sY sgq; rewrite {1}/tdivide e1; cbn [bind].
have [W1 [e2 sW1 hW1]] := tzip_gain (fun x y => divide x y eps) sW sgq; rewrite {1}/tdivide e2; cbn [bind].
rewrite (@unsqE _ 0 gq) //; cbn [bind]; set g4 := mkT _ _; have sg4 : sh g4 = [:: 1, 1, 1, nS & B]%N by rewrite /g4; cbn [sh]; rewrite sgq.
have [H1 [e3 sH1 hH1]] := tzip_gain3 (fun x y => divide x y eps) sH sg4; rewrite {1}/tdivide e3; cbn [bind].
have [w1 [e4 sw1 hw1]] := tzip_gain *%R sw sgc; rewrite /tmul e4; cbn [bind].
pose yb b : sig C F N nS := [ffun f => \matrix_(s, n) divide (sg nS N Y b f s n) (sqrtC (gain eps (sg nS N Y b) s)) eps].
have rY b : inr B b -> sg nS N Y1 b = yb b.
  move=> hb; apply/ffunP => f; apply/matrixP => s n; rewrite sigE ffunE mxE sigE -gE hY1 //=; by rewrite !ltn_ord.
pose wb b : filt C F nS nC := [ffun f => \matrix_(s, c) divide (sg nS nC W b f s c) (sqrtC (gain eps (sg nS N Y b) s)) eps].
have rW b : inr B b -> sg nS nC W1 b = wb b.
  move=> hb; apply/ffunP => f; apply/matrixP => s n; rewrite sigE ffunE mxE sigE -gE hW1 //=; by rewrite !ltn_ord.
pose hb_ b : tfilt C F T nS nC := [ffun f => [ffun t => \matrix_(s, c) divide (taps_at F T nS nC H b f t s c) (sqrtC (gain eps (sg nS N Y b) s)) eps]].
have rH b : inr B b -> taps_at F T nS nC H1 b = hb_ b.
  move=> hb; apply/ffunP => f; apply/ffunP => t; apply/matrixP => s n; rewrite tapsE ffunE ffunE mxE tapsE -gE hH1 //=; by rewrite !ltn_ord.
pose ub b : sig C F N nS := [ffun f => \matrix_(s, n) (sg nS N w b f s n * gain eps (sg nS N Y b) s)].
have rw b : inr B b -> sg nS N w1 b = ub b.
  move=> hb; apply/ffunP => f; apply/matrixP => s n; rewrite sigE ffunE mxE sigE -gE hw1 //=; by rewrite !ltn_ord.
have hJ1 : gives (okJ nS nB F B) B (match J, Cs with
     | Some _, Some (c1, c2) => let* J := t_background_update W1 H1 c1 c2 (10%:R ^- 3) in Ok (Some J)
     | Some _, None => raise AttributeError | None, _ => Ok None end)%py
   (fun b => if (0 < nB)%N then background_update (wb b) (hb_ b) (sg nC N X b) (delayed T dl (sg nC N X b)) (eps_bg C) else Ok (rdJ nS nB F J b)) (rdJ nS nB F).
  case E: J jJ => [J'|] => [[n0 sJ]|b0]; last first.
    have -> : (0 < nB)%N = false by rewrite (b0 : nB = 0%N).
    by split.
  have [c1 [c2 [-> h]]] := bg_at (10%:R ^- 3) sW1 sH1 n0; rewrite n0.
  by apply: eq_gives h => b hb; rewrite rW // rH.
have nz : (N == 0%N) && (0 < nS)%N = false by rewrite gtn_eqF.
pose kb b (J1 : filt C F nB nS) : result (st C nS nB F T N St1) :=
  let r := [ffun f => iss_updates (ub b f) eps (demix_background (sg nC N X b) J1 f) (J1 f) (delayed T dl (sg nC N X b) f) (yb b f, wb b f, hb_ b f)] in
  Ok (mkst [ffun f => (r f).1.1] [ffun f => (r f).1.2] [ffun f => (r f).2] J1 (rs m1 b)).
have hk J1 : okJ nS nB F B J1 -> gives okS B (let* Zt := t_demix_background X J1 in let* (YW, H) := t_iss_updates_with_H Y1 Xb W1 H1 w1 J1 Zt eps in Ok (YW, H, J1, m1))%py
   (fun b => kb b (rdJ nS nB F J1 b)) rdS.
  move=> j1; have [Zt [-> z1 hz]] := demix_background_at sX j1; cbn [bind].
  have ok1 : okYWH nS nB F T N B (Y1, W1, H1) by split.
  have [[[Y2 W2] H2] [-> ok2 r2]] := updates_at eps sw1 sXb ok1 j1 z1 nz; cbn [bind].
  rewrite /kb; apply: gives_ok; [reflexivity|by split|move=> b hb; cbv zeta].
  set r := [ffun f => iss_updates _ _ _ _ _ _]; have rE f : r f = rdYWH nS nB T N (Y2, W2, H2) (b, f).
    rewrite ffunE r2 // /rdYWH; cbn [fst snd]; by rewrite hz // hXb // rw // rY // rW // rH.
  rewrite /rdS; cbn [fst snd]; congr mkst; apply/ffunP => f; by rewrite [RHS]ffunE rE.
have := @gives_bind _ _ _ _ _ _ _ _ _ _ _ kb _ hJ1 hk; apply: eq_gives => b hb; rewrite /gr /rdS /one_iter; cbn [fst snd]; rewrite hw //.
rewrite nz; by case: ifP.
Qed.
Lemma one_iter_dmc_at s : okS s -> gives okS B (t_one_iter_dmc tm X Xb Cs eps s) (fun b => one_iter_dmc dl m (sg nC N X b) eps (rdS s b)) rdS.
Proof.
case: s => [[[[Y W] H] J] m0] ok; set gr := (fun b => one_iter_dmc _ _ _ _ _).
have [[sY sW sH] jJ iJ] := ok; cbn [fst snd] in sY, sW, sH, jJ, iJ; rewrite /t_one_iter_dmc.
have [Y1 [-> sY1 hY1]] := demix_at sX sXb sW sH; cbn [bind].
have ok1 : okS (Y1, W, H, J, m0) by split.
have grE b : inr B b -> gr b = (let* x' := one_iter dl m (sg nC N X b) eps (rdS (Y1, W, H, J, m0) b) in
    Ok (mkst (sg nS N Y b) (stW x') (stH x') (stJ x') (stM x')))%py.
  move=> hb; have e1 : rdS (Y1, W, H, J, m0) b = mkst (demix_derev (sg nC N X b) (delayed T dl (sg nC N X b)) (sg nS nC W b) (taps_at F T nS nC H b))
      (sg nS nC W b) (taps_at F T nS nC H b) (rdJ nS nB F J b) (rs m0 b).
    by rewrite /rdS; cbn [fst snd]; rewrite hY1 // hXb.
  rewrite e1; reflexivity.
have := gives_map (h := fun s : tst => (Y, s.1.1.1.2, s.1.1.2, s.1.2, s.2)) (k := fun b x' => mkst (sg nS N Y b) (stW x') (stH x') (stJ x') (stM x')) (P' := okS) (rd' := rdS) (one_iter_at ok1).
have -> : (let* (YWH, J, m) := t_one_iter tm X Xb Cs eps (Y1, W, H, J, m0) in Ok (Y, YWH.1.2, YWH.2, J, m))%py =
  (let* a := t_one_iter tm X Xb Cs eps (Y1, W, H, J, m0) in Ok (Y, a.1.1.1.2, a.1.1.2, a.1.2, a.2))%py.
  by case: (t_one_iter _ _ _ _ _ _) => [[[a j] mm]|].
move=> hh; apply: eq_gives (hh _ _) => [b hb|[[[[Y2 W2] H2] J2] m2]|//]; first by rewrite grE.
by move=> [[/= s1 s2 s3] j2 i2]; split.
Qed.
Lemma iterate_at body (g : seq nat -> st C nS nB F T N St1 -> result (st C nS nB F T N St1)) n s :
  (forall s, okS s -> gives okS B (body s) (fun b => g b (rdS s b)) rdS) -> okS s ->
  gives okS B (t_iterate body n s) (fun b => iterate (g b) n (rdS s b)) rdS.
Proof.
move=> h; elim: n s => [|n IH] s hs /=; first by split.
exact: (@gives_bind _ _ _ _ _ _ _ _ _ _ _ (fun b => iterate (g b) n) _ (h s hs) IH).
Qed.
End Run.
