From Coq Require Import Ring Field.
From mathcomp Require Import all_ssreflect all_algebra.
From Verif Require Import CAlg Py Batch LinalgModel LinalgProofs TissModel TissSpec TissProofs TissProofs2 TissBridge TissBridge2
  SrcModel SrcSpec CostModel CostSpec.
Set Implicit Arguments. Unset Strict Implicit. Unset Printing Implicit Defensive.
Import GRing.Theory Num.Theory Order.TTheory.
Local Open Scope ring_scope.
Local Open Scope py_scope.

Section Log.
Variable C : numClosedFieldType.
Variable lg : C -> C.
Hypothesis ll : log_like lg.
Lemma lg_mono x y : 0 < x -> x <= y -> lg x <= lg y.
Proof.
move=> x0 le; have y0 := lt_le_trans x0 le.
rewrite -subr_le0; apply: le_trans (ll y0 x0) _.
by rewrite subr_le0 ler_pdivr_mulr // mul1r.
Qed.
Lemma lg_div x e : 0 < x -> 0 < e -> lg x - lg (x / e) <= e - 1.
Proof.
move=> x0 e0; have xe : 0 < x / e by rewrite divr_gt0.
apply: le_trans (ll xe x0) _; rewrite invf_div mulrCA mulfV ?gt_eqF //.
by rewrite mulr1.
Qed.
End Log.

Section Sweep.
Variable C : numClosedFieldType.
Add Field Cfield_cost1 : (f_ft C).
Ltac cring := fpre; fnorm C; fatoms; ring.
Ltac cfield := fpre; fnorm C; fatoms; field.
Variable lg : C -> C.
Hypothesis ll : log_like lg.
Variables (nS nB nT nN : nat).
Local Notation nC := (nS + nB)%N.
Local Notation issst := (issst C nS nB nT nN).
Variables (w : 'M[C]_(nS, nN)) (eps : C).
Hypothesis n0 : (0 < nN)%N.
Hypothesis e0 : 0 < eps.
Hypothesis w0 : forall s n, 0 <= w s n.
Variables (Z : 'M[C]_(nB, nN)) (J : 'M[C]_(nB, nS)) (Xb : taps C nT nC nN).

Definition var (st : issst) s : C := wpower (w s) (st.1.1 s) / nN%:R.
Definition ddet (st : issst) : C := `|\det (full_demix st.1.2 J)| ^+ 2.
Definition own (st : issst) s : C := clamp (var st s) eps.

Lemma NR0 : 0 < nN%:R :> C. Proof. by rewrite ltr0n. Qed.
Lemma var_ge0 st s : 0 <= var st s.
Proof. by rewrite divr_ge0 ?(ltW NR0) // wpower_ge0. Qed.
Lemma own_gt0 st s : 0 < own st s.
Proof. by rewrite clamp_gt0 // ger0_real // var_ge0. Qed.
Lemma var_own st s : var st s <= own st s.
Proof. by rewrite clamp_geR ?ger0_real ?var_ge0 // ltW. Qed.

Lemma step1_var_other st src c : c != src -> var (step1 w eps st src) c <= var st c.
Proof.
case: st => [[Y W] H] ne; have [h _ _] := step1_other Y W H n0 e0 ne (w0 c).
by rewrite /var ler_pmul2r ?invr_gt0 ?NR0.
Qed.
Lemma step1_var_own st src : var (step1 w eps st src) src = var st src / own st src.
Proof.
case: st => [[Y W] H]; set e := own _ _.
have ep : 0 < e := own_gt0 (Y, W, H) src.
have yE n : (step1 w eps (Y, W, H) src).1.1 src n = Y src n / sqrtC e.
  rewrite /= mxBE outer_entry [row _ _ _ _]mxE iss1_src -/(var (Y, W, H) src) -/(own (Y, W, H) src) -/e.
  by rewrite div1r mulrBl mul1r opprB [LHS]addrC subrK mulrC.
rewrite /var -/(own (Y, W, H) src) mulrAC; congr (_ / _).
rewrite /wpower mulr_suml; apply: eq_bigr => n _.
rewrite yE normrM normfV (ger0_norm (x := sqrtC e)) ?sqrtC_ge0 ?(ltW ep) //.
by rewrite exprMn exprVn sqrtCK mulrA.
Qed.
Lemma step1_ddet st src : ddet (step1 w eps st src) = ddet st / own st src.
Proof.
case: st => [[Y W] H].
have := det_step1_factor w eps Y W H J src; rewrite /step1 /= => h; rewrite /ddet /= h.
rewrite -/(var (Y, W, H) src) -/(own (Y, W, H) src); set e := own _ _.
have ep : 0 < e := own_gt0 (Y, W, H) src.
by rewrite normrM normfV (ger0_norm (x := sqrtC e)) ?sqrtC_ge0 ?(ltW ep) // exprMn exprVn sqrtCK.
Qed.
Lemma step2_var st b c : var (step2 w eps Z J st b) c <= var st c.
Proof.
case: st => [[Y W] H]; have [h _ _] := c18_bg Y W H Z J b e0 (w0 c).
by rewrite /var ler_pmul2r ?invr_gt0 ?NR0.
Qed.
Lemma step2_ddet st b : ddet (step2 w eps Z J st b) = ddet st.
Proof. by case: st => [[Y W] H]; rewrite /ddet /= det_step2. Qed.
Lemma step3_var st ct c : var (step3 w eps Xb st ct) c <= var st c.
Proof.
case: st ct => [[Y W] H] [d t]; have [h _ _] := c18_tap Y W H Xb d t e0 (w0 c).
by rewrite /var ler_pmul2r ?invr_gt0 ?NR0.
Qed.
Lemma step3_ddet st ct : ddet (step3 w eps Xb st ct) = ddet st.
Proof. by case: st ct => [[Y W] H] [d t]. Qed.

Definition sur (st : issst) := surrogate lg w st.1.1 (full_demix st.1.2 J).
Lemma surE st : sur st = \sum_s var st s - lg (ddet st). Proof. by []. Qed.

Lemma own_drop (d e : C) : 0 < e -> d <= e -> (d = e) \/ (e <= 1) -> d / e + (e - 1) <= d.
Proof.
move=> ep de h; rewrite -subr_le0.
have -> : d / e + (e - 1) - d = (1 - e) * (d / e - 1) by cfield; exact/eqP/lt0r_neq0.
case: h => [->|e1]; first by rewrite mulfV ?gt_eqF // subrr mulr0.
apply: mulr_ge0_le0; first by rewrite subr_ge0.
by rewrite subr_le0 ler_pdivr_mulr // mul1r.
Qed.

Hypothesis e1 : eps <= 1.
Lemma step1_sur st src : 0 < ddet st -> sur (step1 w eps st src) <= sur st.
Proof.
move=> dp; rewrite !surE step1_ddet.
rewrite (bigD1 src) //= [X in _ <= X - _](bigD1 src) //= step1_var_own.
have hs : \sum_(i < nS | i != src) var (step1 w eps st src) i <= \sum_(i < nS | i != src) var st i.
  by apply: ler_sum => i ne; apply: step1_var_other.
have ho : var st src / own st src + (own st src - 1) <= var st src.
  apply: own_drop (own_gt0 st src) (var_own st src) _.
  rewrite /own /clamp; case: ifP => _; [by right | by left].
have hl := lg_div ll dp (own_gt0 st src).
set a := var _ src in ho *; set e := own _ _ in ho hl *.
set b := \sum_(i < _ | _) _ in hs *; set b' := \sum_(i < _ | _) _ in hs *.
rewrite -subr_ge0 in hs; rewrite -subr_ge0 in ho; rewrite -subr_ge0 in hl; rewrite -subr_ge0.
have := addr_ge0 (addr_ge0 hs ho) hl; congr (0 <= _); cring.
Qed.

Lemma fold_le (B : Type) (g : issst -> B -> issst) (F : issst -> C) (P : issst -> Prop) :
  (forall x b, P x -> P (g x b)) -> (forall x b, P x -> F (g x b) <= F x) ->
  forall l x, P x -> P (foldl g x l) /\ F (foldl g x l) <= F x.
Proof.
move=> hp h; elim=> [|b l IH] x px //=.
have [p1 h1] := IH _ (hp _ b px); split=> //; exact: le_trans h1 (h _ _ px).
Qed.
Lemma step1_ddet_gt0 st src : 0 < ddet st -> 0 < ddet (step1 w eps st src).
Proof. by move=> h; rewrite step1_ddet divr_gt0 // own_gt0. Qed.

Lemma sweep_sur st : 0 < ddet st ->
  sur (iss_updates w eps Z J Xb st) <= sur st.
Proof.
move=> dp; rewrite /iss_updates.
have [d1 h1] := fold_le (F := sur) (P := fun x => 0 < ddet x) step1_ddet_gt0 step1_sur (enum 'I_nS) dp.
set st1 := foldl _ _ _ in d1 h1 *.
have [| |d2 h2] := fold_le (g := step2 w eps Z J) (F := sur) (P := fun x => 0 < ddet x) _ _ (enum 'I_nB) d1.
- by move=> x b; rewrite step2_ddet.
- by move=> x b _; rewrite !surE step2_ddet ler_add2r; apply: ler_sum => s _; apply: step2_var.
set st2 := foldl (step2 _ _ _ _) _ _ in d2 h2 *.
have [| |_ h3] := fold_le (g := step3 w eps Xb) (F := sur) (P := fun x => 0 < ddet x) _ _ (allpairs pair (enum 'I_nC) (enum 'I_nT)) d2.
- by move=> x b; rewrite step3_ddet.
- by move=> x b _; rewrite !surE step3_ddet ler_add2r; apply: ler_sum => s _; apply: step3_var.
exact: le_trans h3 (le_trans h2 h1).
Qed.

(* ---- without clamping of the own variances *)
Lemma fold1_notin l st c : c \notin l -> var (foldl (step1 w eps) st l) c <= var st c.
Proof.
elim: l st => //= b l IH st; rewrite inE negb_or => /andP [cb cl].
exact: le_trans (IH _ cl) (step1_var_other _ cb).
Qed.
Lemma fold1_si l st : uniq l ->
  (forall l1 s l2, l = l1 ++ s :: l2 -> eps <= var (foldl (step1 w eps) st l1) s) ->
  exists d : 'I_nS -> C, [/\ forall s, s \in l -> 0 < d s <= var st s,
    forall s, s \in l -> var (foldl (step1 w eps) st l) s <= 1 &
    ddet (foldl (step1 w eps) st l) = ddet st / \prod_(s <- l) d s].
Proof.
elim: l st => [|b l IH] st /=; first by exists (fun=> 1); split=> //; rewrite big_nil divr1.
case/andP=> bl ul hc; have hb : eps <= var st b := hc [::] b l (erefl _).
have [|d [d1 d2 d3]] := IH (step1 w eps st b) ul.
  by move=> l1 s l2 e; apply: (hc (b :: l1) s l2); rewrite e.
have vb : own st b = var st b by rewrite /own clamp_id.
exists (fun s => if s == b then var st b else d s); split.
- move=> s; rewrite inE; case: eqP => [-> _|nb /= sl]; first by rewrite lexx andbT (lt_le_trans e0 hb).
  have /andP [-> h] := d1 s sl; rewrite (le_trans h) //; apply: step1_var_other; exact/eqP.
- move=> s; rewrite inE; case: eqP => [-> _|nb /= sl]; last exact: d2.
  apply: le_trans (fold1_notin _ bl) _.
  by rewrite step1_var_own vb mulfV // gt_eqF // (lt_le_trans e0 hb).
rewrite d3 step1_ddet vb big_cons eqxx; move: (var st b) => v.
rewrite -mulrA -invfM; congr (_ / (_ * _)).
apply: eq_big_seq => s sl; case: eqP => // e; by rewrite e (negbTE bl) in sl.
Qed.
Lemma fold_var (B : Type) (g : issst -> B -> issst) l st s :
  (forall x b, var (g x b) s <= var x s) -> var (foldl g st l) s <= var st s.
Proof. by move=> h; elim: l st => //= b l IH st; exact: le_trans (IH _) (h _ _). Qed.
Lemma fold_ddet (B : Type) (g : issst -> B -> issst) l st :
  (forall x b, ddet (g x b) = ddet x) -> ddet (foldl g st l) = ddet st.
Proof. by move=> h; elim: l st => //= b l IH st; rewrite IH h. Qed.
Lemma sweep_si st :
  (forall s : 'I_nS, eps <= var (foldl (step1 w eps) st (take s (enum 'I_nS))) s) ->
  exists d : 'I_nS -> C, [/\ forall s, 0 < d s <= var st s,
    forall s, var (iss_updates w eps Z J Xb st) s <= 1 &
    ddet (iss_updates w eps Z J Xb st) = ddet st / \prod_s d s].
Proof.
move=> hc; have [|d [d1 d2 d3]] := @fold1_si (enum 'I_nS) st (enum_uniq _).
  move=> l1 s l2 e; have -> : l1 = take s (enum 'I_nS); last exact: hc.
  have sz : index s (enum 'I_nS) = size l1.
    have := enum_uniq 'I_nS; rewrite e cat_uniq /= negb_or => /and3P [_ /andP [nl _] _].
    by rewrite index_cat (negbTE nl) /= eqxx addn0.
  have : index s (enum 'I_nS) = s by rewrite index_enum_ord.
  by rewrite sz => <-; rewrite e take_size_cat.
exists d; split=> [s|s|]; first by apply: d1; rewrite mem_enum.
- rewrite /iss_updates; apply: le_trans (fold_var _ _ (fun x b => step3_var x b s)) _.
  apply: le_trans (fold_var _ _ (fun x b => step2_var x b s)) _.
  by apply: d2; rewrite mem_enum.
rewrite /iss_updates (fold_ddet _ _ step3_ddet) (fold_ddet _ _ step2_ddet) d3.
by rewrite big_enum.
Qed.
End Sweep.

Section Contrast.
Variable C : numClosedFieldType.
Add Field Cfield_cost2 : (f_ft C).
Ltac cring := fpre; fnorm C; fatoms; ring.
Ltac cfield := fpre; fnorm C; fatoms; field.
Implicit Types r q em : C.

Lemma contrast_major em r q : 0 < em -> 0 <= r -> 0 <= q ->
  contrast em q <= contrast em r + (q ^+ 2 - r ^+ 2) / clamp (2%:R * r) em.
Proof.
move=> m0 r0 q0; rewrite /contrast.
have two0 : 0 < 2%:R :> C by rewrite ltr0n.
have rr : 2%:R * r \is Num.real by rewrite ger0_real // mulr_ge0 // ltW.
have qq : 2%:R * q \is Num.real by rewrite ger0_real // mulr_ge0 // ltW.
have mr : em \is Num.real by rewrite gtr0_real.
have mn : em != 0 by rewrite gt_eqF.
have n2 : 2%:R != 0 :> C by rewrite pnatr_eq0.
have n4 : 4%:R != 0 :> C by rewrite pnatr_eq0.
have e4 : 4%:R = 2%:R * 2%:R :> C by rewrite -natrM.
case: (real_leP mr rr) => hr; case: (real_leP mr qq) => hq.
- rewrite clamp_id //; have rp : 0 < 2%:R * r := lt_le_trans m0 hr.
  have rn : r != 0 by apply: contraTneq rp => ->; rewrite mulr0 ltxx.
  rewrite -subr_ge0.
  have -> : r + (q ^+ 2 - r ^+ 2) / (2%:R * r) - q = (q - r) ^+ 2 / (2%:R * r).
    have -> : 2%:R = 1 + 1 :> C by [].
    have nn : 1 + 1 != 0 :> C by [].
    cfield; split; exact/eqP.
  rewrite divr_ge0 ?(ltW rp) // -realEsqr realB // ger0_real //.
- rewrite clamp_id //; have rp : 0 < 2%:R * r := lt_le_trans m0 hr.
  have rn : r != 0 by apply: contraTneq rp => ->; rewrite mulr0 ltxx.
  rewrite -subr_ge0.
  have -> : r + (q ^+ 2 - r ^+ 2) / (2%:R * r) - (q ^+ 2 / em + em / 4%:R)
    = (2%:R * r - em) * (2%:R * r * em - (2%:R * q) ^+ 2) / (4%:R * (2%:R * r) * em).
    rewrite e4; have -> : 2%:R = 1 + 1 :> C by [].
    have nn : 1 + 1 != 0 :> C by [].
    have nn2 : (1 + 1) * (1 + 1) != 0 :> C by rewrite mulf_neq0.
    cfield; repeat apply: conj; first [exact/eqP | exact: (elimN eqP nn) | exact: (elimN eqP nn2)].
  have h4 : 0 < 4%:R :> C by rewrite ltr0n.
  rewrite divr_ge0 //; last by rewrite !mulr_ge0 // ltW.
  rewrite mulr_ge0 // subr_ge0 // expr2; apply: ler_pmul => //; last exact: ltW.
  - by rewrite mulr_ge0 // ltW.
  - by rewrite mulr_ge0 // ltW.
  exact: le_trans (ltW hq) hr.
- have -> : clamp (2%:R * r) em = em by rewrite /clamp hr.
  rewrite -subr_ge0.
  have -> : r ^+ 2 / em + em / 4%:R + (q ^+ 2 - r ^+ 2) / em - q = (q - em / 2%:R) ^+ 2 / em.
    rewrite e4; have -> : 2%:R = 1 + 1 :> C by [].
    have nn : 1 + 1 != 0 :> C by [].
    have nn2 : (1 + 1) * (1 + 1) != 0 :> C by rewrite mulf_neq0.
    cfield; repeat apply: conj; first [exact/eqP | exact: (elimN eqP nn) | exact: (elimN eqP nn2)].
  rewrite divr_ge0 ?(ltW m0) // -realEsqr realB ?(ger0_real q0) // ger0_real // divr_ge0 // ltW //.
have -> : clamp (2%:R * r) em = em by rewrite /clamp hr.
rewrite -subr_ge0 le_eqVlt; apply/orP; left; rewrite eq_sym; apply/eqP.
rewrite e4; have -> : 2%:R = 1 + 1 :> C by [].
have nn : 1 + 1 != 0 :> C by [].
have nn2 : (1 + 1) * (1 + 1) != 0 :> C by rewrite mulf_neq0.
cfield; repeat apply: conj; first [exact/eqP | exact: (elimN eqP nn) | exact: (elimN eqP nn2)].
Qed.
End Contrast.

Section Iter.
Variable C : numClosedFieldType.
Add Field Cfield_cost3 : (f_ft C).
Ltac cring := fpre; fnorm C; fatoms; ring.
Ltac cfield := fpre; fnorm C; fatoms; field.
Variables (nS nB nF nT dl nN : nat).
Local Notation nC := (nS + nB)%N.
Local Notation sig := (sig C nF nN).
Variables (X : sig nC) (eps em : C).
Hypothesis n0 : (0 < nN)%N.
Hypothesis e0 : 0 < eps.
Hypothesis e1 : eps <= 1.
Hypothesis m0 : 0 < em.
Local Notation st := (@st C nS nB nF nT nN unit).
Local Notation iter := (one_iter dl (laplace_model (nS := nS) (nF := nF) (nN := nN) em) X eps).
Local Notation Xb := (Xb nT dl X).

Definition wts (Y : sig nS) f : 'M[C]_(nS, nN) :=
  \matrix_(s, n) laplace em (\matrix_(f, n) Y f s n) f n.
Local Notation wts1 := (iter_weights em eps).
Definition den (Y : sig nS) s : C := clamp (sqrtC (gain eps Y s)) eps.
Local Notation start := (iter_start eps).
Lemma wts1E Y f s n : wts1 Y f s n = wts Y f s n * gain eps Y s.
Proof. by rewrite /iter_weights /laplace_model /= !(mxE, ffunE). Qed.
Lemma startE (x : st) f : start x f = (rscale (den (stY x)) (stY x f), rscale (den (stY x)) (stW x f),
   [ffun t => rscale (den (stY x)) (stH x f t)]).
Proof. by []. Qed.

Lemma iter_form (x y : st) : iter x = Ok y -> forall f,
  (stY y f, stW y f, stH y f)
  = iss_updates (wts1 (stY x) f) eps (demix_background X (stJ y) f) (stJ y f) (Xb f) (start x f).
Proof.
case: x => Y W H J [] /=; case: (if _ then _ else _) => [J1|//] /=; case: ifP => // _ [<-] f /=.
have -> : wts1 Y f = \matrix_(s, n) ((\matrix_(s, n) laplace em (\matrix_(f, n) Y f s n) f n) s n * gain eps Y s).
  by apply/matrixP => s n; rewrite wts1E [RHS]mxE.
rewrite startE !ffunE -!surjective_pairing; reflexivity.
Qed.

Lemma gain_le (Y : sig nS) s : eps <= sqrtC (gain eps Y s).
Proof.
have ge : eps <= gain eps Y s.
  rewrite /gain clamp_ge //; last exact: gtr0_real.
  apply: realM; last by rewrite realV realn.
  by apply: rpred_sum => f _; apply: rpred_sum => n _; rewrite mag_sqE realX // normr_real.
have g0 := lt_le_trans e0 ge.
have h : eps ^+ 2 <= sqrtC (gain eps Y s) ^+ 2.
  rewrite sqrtCK; apply: le_trans ge; rewrite expr2.
  by rewrite -{3}[eps]mulr1 ler_pmul2l.
by rewrite -(@ler_pexpn2r _ 2) // nnegrE ?(ltW e0) // sqrtC_ge0 ltW.
Qed.
Lemma denE (Y : sig nS) s : den Y s = sqrtC (gain eps Y s).
Proof. by rewrite /den clamp_id // gain_le. Qed.
Lemma den_gt0 (Y : sig nS) s : 0 < den Y s.
Proof. by rewrite denE (lt_le_trans e0) // gain_le. Qed.
Lemma den_sq (Y : sig nS) s : den Y s ^+ 2 = gain eps Y s.
Proof. by rewrite denE sqrtCK. Qed.

Lemma frame_norm_ge0 (Y : 'I_nF -> 'M[C]_(nS, nN)) s n : 0 <= frame_norm Y s n.
Proof. by rewrite sqrtC_ge0 sumr_ge0 // => f _; rewrite exprn_ge0. Qed.
Lemma wtsE (Y : sig nS) f s n : wts Y f s n = 1 / clamp (2%:R * frame_norm Y s n) em.
Proof.
rewrite /wts /laplace !mxE; congr (1 / clamp (_ * sqrtC _) _).
by apply: eq_bigr => g _; rewrite mag_sqE mxE.
Qed.
Lemma wts_gt0 (Y : sig nS) f s n : 0 < wts Y f s n.
Proof.
by rewrite wtsE divr_gt0 ?ltr01 // clamp_gt0 // ger0_real // mulr_ge0 ?ler0n // frame_norm_ge0.
Qed.
Lemma wts1_ge0 (Y : sig nS) f s n : 0 <= wts1 Y f s n.
Proof. by rewrite wts1E mulr_ge0 // ltW // ?wts_gt0 ?gain_gt0. Qed.

Lemma wpower_start (x : st) f s :
  wpower (wts1 (stY x) f s) ((start x f).1.1 s) = wpower (wts (stY x) f s) (stY x f s).
Proof.
apply: eq_bigr => n _; rewrite wts1E [(start x f).1.1 s n]mxE normrM normfV.
rewrite (gtr0_norm (den_gt0 _ _)) exprMn exprVn den_sq.
have := gain_gt0 (stY x) s e0; move: (gain _ _ _) => g /lt0r_neq0 gn.
by cfield; exact/eqP.
Qed.
Lemma wpower_scaled Y f s (Y' : 'M[C]_(nS, nN)) :
  wpower (wts Y f s) (scale_rows (den Y) Y' s) = wpower (wts1 Y f s) (Y' s).
Proof.
apply: eq_bigr => n _; rewrite wts1E [scale_rows _ _ _ _]mxE normrM.
by rewrite (gtr0_norm (den_gt0 _ _)) exprMn den_sq mulrA.
Qed.

Lemma det_scale (a : 'I_nS -> C) (W : 'M[C]_(nS, nC)) J :
  \det (full_demix (scale_rows a W) J) = (\prod_s a s) * \det (full_demix W J).
Proof.
have -> : full_demix (scale_rows a W) J = block_mx (diag_mx (\row_i a i)) 0 0 1%:M *m full_demix W J.
  rewrite /full_demix mul_block_col !mul0mx mul1mx addr0 add0r; congr (col_mx _ _).
  by rewrite mul_diag_mx; apply/matrixP => i j; rewrite !mxE.
by rewrite det_mulmx det_ublock det1 mulr1 det_diag; congr (_ * _); apply: eq_bigr => s _; rewrite mxE.
Qed.
Definition gprod (Y : sig nS) : C := \prod_s gain eps Y s.
Lemma gprod_gt0 Y : 0 < gprod Y.
Proof. by apply: prodr_gt0 => s _; apply: gain_gt0. Qed.
Lemma prod_den Y : `|\prod_s den Y s| ^+ 2 = gprod Y.
Proof.
rewrite ger0_norm; last by apply: prodr_ge0 => s _; rewrite ltW // den_gt0.
by rewrite -prodrXl; apply: eq_bigr => s _; rewrite den_sq.
Qed.
Lemma ddet_start (x : st) f J : ddet J (start x f) = `|\det (full_demix (stW x f) J)| ^+ 2 / gprod (stY x).
Proof.
rewrite /ddet -prod_den.
have -> : (start x f).1.2 = scale_rows (fun s => (den (stY x) s)^-1) (stW x f).
  by apply/matrixP => s c; rewrite !mxE mulrC.
rewrite det_scale normrM exprMn mulrC; congr (_ * _).
by rewrite prodfV normfV exprVn.
Qed.
Lemma ddet_scaled Y (W : 'M[C]_(nS, nC)) J :
  `|\det (full_demix (scale_rows (den Y) W) J)| ^+ 2 = gprod Y * `|\det (full_demix W J)| ^+ 2.
Proof. by rewrite det_scale normrM exprMn prod_den. Qed.

Section WithLog.
Variable lg : C -> C.
Hypothesis ll : log_like lg.
Hypothesis lm : log_mul lg.
Lemma fnorm_sq (Y : 'I_nF -> 'M[C]_(nS, nN)) s n : frame_norm Y s n ^+ 2 = \sum_f `|Y f s n| ^+ 2.
Proof. by rewrite sqrtCK. Qed.
Lemma sum_wpower (Y : sig nS) (Y' : 'I_nF -> 'M[C]_(nS, nN)) s :
  \sum_f wpower (wts Y f s) (Y' f s) = \sum_n frame_norm Y' s n ^+ 2 / clamp (2%:R * frame_norm Y s n) em.
Proof.
rewrite exchange_big; apply: eq_bigr => n _; rewrite fnorm_sq mulr_suml.
by apply: eq_bigr => f _; rewrite wtsE div1r mulrC.
Qed.
Lemma contrast_sum (Y : sig nS) (Y' : 'I_nF -> 'M[C]_(nS, nN)) s :
  \sum_n contrast em (frame_norm Y' s n) <= \sum_n contrast em (frame_norm Y s n)
    + (\sum_f wpower (wts Y f s) (Y' f s) - \sum_f wpower (wts Y f s) (Y f s)).
Proof.
rewrite !sum_wpower -sumrB -big_split /=; apply: ler_sum => n _.
by rewrite -mulrBl; apply: contrast_major => //; apply: frame_norm_ge0.
Qed.
Lemma iter_sur (x y : st) f : iter x = Ok y -> 0 < `|\det (full_demix (stW x f) (stJ y f))| ^+ 2 ->
  \sum_s wpower (wts1 (stY x) f s) (stY y f s) / nN%:R - lg (`|\det (full_demix (stW y f) (stJ y f))| ^+ 2)
  <= \sum_s wpower (wts (stY x) f s) (stY x f s) / nN%:R
     - lg (`|\det (full_demix (stW x f) (stJ y f))| ^+ 2 / gprod (stY x)).
Proof.
move=> h d0; have := iter_form h f.
set w := wts1 _ _; set S := start _ _ => E.
have dS : 0 < ddet (stJ y f) S by rewrite ddet_start divr_gt0 // gprod_gt0.
have := sweep_sur ll n0 e0 (fun s n => wts1_ge0 (stY x) f s n) (demix_background X (stJ y) f) (Xb f) e1 dS.
rewrite -/w -E /sur /surrogate /= => le; apply: le_trans le _.
rewrite -/(ddet (stJ y f) S) ddet_start ler_add2r; apply: ler_sum => s _.
by rewrite -wpower_start.
Qed.
Lemma iter_cost (x y : st) : iter x = Ok y ->
  (forall f, \det (full_demix (stW x f) (stJ y f)) != 0) ->
  laplace_cost lg em (fun f => scale_rows (den (stY x)) (stY y f))
    (fun f => full_demix (scale_rows (den (stY x)) (stW y f)) (stJ y f))
  <= laplace_cost lg em (stY x) (fun f => full_demix (stW x f) (stJ y f)).
Proof.
move=> h dn; rewrite /laplace_cost.
set D := fun f => `|\det (full_demix (stW x f) (stJ y f))| ^+ 2.
set D' := fun f => `|\det (full_demix (stW y f) (stJ y f))| ^+ 2.
set G := gprod (stY x); have G0 : 0 < G := gprod_gt0 _.
have Dp f : 0 < D f by rewrite exprn_gt0 // normr_gt0.
have Dp' f : 0 < D' f.
  have := iter_form h f => E; have wr s n : wts1 (stY x) f s n \is Num.real by rewrite ger0_real // wts1_ge0.
  have [k [k0 e]] := iss_updates_det (demix_background X (stJ y) f) (stJ y f) (Xb f) (start x f) wr e0.
  rewrite /D'; move: e; rewrite -E /= => ->; rewrite exprn_gt0 // normr_gt0 mulf_neq0 //; first by rewrite gt_eqF.
  have : 0 < ddet (stJ y f) (start x f) by rewrite ddet_start divr_gt0 ?gprod_gt0 // Dp.
  by rewrite /ddet; apply: contraTneq => /= ->; rewrite normr0 expr0n ltxx.
have E1 f : lg (D f / G) = lg (D f) - lg G.
  have e : D f = D f / G * G by rewrite divfK // gt_eqF.
  have l := @lm (D f / G) G (divr_gt0 (Dp f) G0) G0.
  by rewrite {2}e l addrK.
have hs : \sum_f (\sum_s wpower (wts1 (stY x) f s) (stY y f s) / nN%:R - lg (D' f))
   <= \sum_f (\sum_s wpower (wts (stY x) f s) (stY x f s) / nN%:R - (lg (D f) - lg G)).
  by apply: ler_sum => f _; rewrite -E1; apply: iter_sur h _; apply: Dp.
have -> : \sum_f lg (`|\det (full_demix (scale_rows (den (stY x)) (stW y f)) (stJ y f))| ^+ 2)
   = \sum_f (lg G + lg (D' f)).
  by apply: eq_bigr => f _; rewrite ddet_scaled -/G -/(D' f) lm.
have hc : \sum_s (\sum_n contrast em (frame_norm (fun f => scale_rows (den (stY x)) (stY y f)) s n)) / nN%:R
  <= \sum_s (\sum_n contrast em (frame_norm (stY x) s n)) / nN%:R
     + (\sum_f \sum_s wpower (wts1 (stY x) f s) (stY y f s) / nN%:R
        - \sum_f \sum_s wpower (wts (stY x) f s) (stY x f s) / nN%:R).
  rewrite [X in _ + (X - _)]exchange_big [X in _ + (_ - X)]exchange_big /= -sumrB -big_split /=.
  apply: ler_sum => s _; rewrite -!mulr_suml -mulrBl -mulrDl ler_pmul2r ?invr_gt0 ?ltr0n //.
  apply: le_trans (contrast_sum (stY x) _ s) _.
  rewrite ler_add2l ler_add2r le_eqVlt; apply/orP; left; apply/eqP.
  by apply: eq_bigr => f _; rewrite wpower_scaled.
rewrite !big_split /= !sumrN in hs *; rewrite !sumrB in hs.
set a := \sum_s _ in hc *; set b := \sum_s (\sum_n contrast em (frame_norm (stY x) s n)) / _ in hc *.
set c := \sum_f \sum_s _ in hc hs; set d := \sum_f \sum_s wpower (wts _ _ _) _ / _ in hc hs.
rewrite -subr_ge0 in hs; rewrite -subr_ge0 in hc; rewrite -subr_ge0.
have := addr_ge0 hs hc; congr (0 <= _); cring.
Qed.

(* ---- scale-invariant cost *)
Lemma lg_prod (I : finType) (F : I -> C) : (forall i, 0 < F i) -> lg (\prod_i F i) = \sum_i lg (F i).
Proof.
move=> h; have lg1 : lg 1 = 0.
  by have := lm (@ltr01 C) (@ltr01 C); rewrite mulr1 => e; apply: (addrI (lg 1)); rewrite addr0 -e.
suff [] : 0 < \prod_i F i /\ lg (\prod_i F i) = \sum_i lg (F i) by [].
apply: (big_ind2 (fun x a => 0 < x /\ lg x = a)) => [|x a y b [x0 <-] [y0 <-]|i _].
- by rewrite ltr01.
- by rewrite mulr_gt0 // lm.
- by [].
Qed.
(* Cauchy-Schwarz for positive weights *)
Lemma cs_weighted (I : finType) (r q : I -> C) :
  (forall i, 0 < r i) -> (forall i, 0 <= q i) ->
  (\sum_i q i) ^+ 2 <= (\sum_i q i ^+ 2 / r i) * (\sum_i r i).
Proof.
move=> r0 q0.
set R := \sum_i r i; set Q := \sum_i q i.
have Rr : 0 <= R by apply: sumr_ge0 => i _; apply: ltW.
have Qr : Q \is Num.real by rewrite ger0_real //; apply: sumr_ge0.
have h : 0 <= \sum_i (q i * R - Q * r i) ^+ 2 / r i.
  apply: sumr_ge0 => i _; rewrite divr_ge0 ?(ltW (r0 i)) // -realEsqr.
  apply: realB; apply: realM; rewrite ?(ger0_real (q0 _)) ?(gtr0_real (r0 _)) ?(ger0_real Rr) //.
have E : \sum_i (q i * R - Q * r i) ^+ 2 / r i = R * (R * (\sum_i q i ^+ 2 / r i) - Q ^+ 2).
  transitivity (\sum_i (R ^+ 2 * (q i ^+ 2 / r i) - 2%:R * (R * Q) * q i + Q ^+ 2 * r i)).
    apply: eq_bigr => i _; have rn := lt0r_neq0 (r0 i); move: (r i) (q i) rn => a b an.
    by cfield; exact/eqP.
  rewrite big_split /= sumrB -!mulr_sumr -/R -/Q; cring.
rewrite E in h; move: Rr; rewrite le_eqVlt => /orP [/eqP R0|Rp].
  have -> : Q = 0.
    apply: big1 => i _; have := r0 i.
    have : r i <= R by rewrite /R (bigD1 i) //= ler_addl sumr_ge0 // => j _; apply: ltW.
    by rewrite -R0 => a b; move: (le_lt_trans a b); rewrite ltxx.
  by rewrite expr0n /= -R0 mulr0.
by move: h; rewrite pmulr_rge0 // subr_ge0 mulrC.
Qed.
Lemma jensen (d : 'I_nF -> C) m : (0 < nF)%N -> 0 < m -> (forall f, 0 < d f) ->
  \sum_f d f <= nF%:R * m -> \sum_f lg (d f) <= nF%:R * lg m.
Proof.
move=> f0 mp dp le; have -> : nF%:R * lg m = \sum_(f < nF) lg m.
  by rewrite sumr_const card_ord mulr_natl.
rewrite -subr_le0 -sumrB.
apply: (@le_trans _ _ (\sum_(f < nF) (d f / m - 1))); first by apply: ler_sum => f _; apply: ll.
rewrite sumrB -mulr_suml sumr_const card_ord subr_le0 ler_pdivr_mulr //.
Qed.

Lemma iter_cost_si (x y : st) : (0 < nF)%N -> iter x = Ok y ->
  (forall f, \det (full_demix (stW x f) (stJ y f)) != 0) ->
  (forall s n, em <= 2%:R * frame_norm (stY x) s n) ->
  (forall s, 0 < \sum_n frame_norm (stY y) s n) ->
  (forall f (s : 'I_nS), eps <= var (wts1 (stY x) f)
     (foldl (step1 (wts1 (stY x) f) eps) (start x f) (take s (enum 'I_nS))) s) ->
  laplace_cost_si lg (stY y) (fun f => full_demix (stW y f) (stJ y f))
  <= laplace_cost_si lg (stY x) (fun f => full_demix (stW x f) (stJ y f)).
Proof.
move=> f0 h dn nc yp oc.
have sw f := sweep_si n0 e0 (fun s n => wts1_ge0 (stY x) f s n) (demix_background X (stJ y) f) (stJ y f) (Xb f) (oc f).
have [d hd] : exists d : 'I_nF -> {ffun 'I_nS -> C}, forall f,
  [/\ forall s, 0 < d f s <= wpower (wts (stY x) f s) (stY x f s) / nN%:R,
      forall s, wpower (wts1 (stY x) f s) (stY y f s) / nN%:R <= 1 &
      `|\det (full_demix (stW y f) (stJ y f))| ^+ 2
      = `|\det (full_demix (stW x f) (stJ y f))| ^+ 2 / gprod (stY x) / \prod_s d f s].
  have dd f : exists d : {ffun 'I_nS -> C}, [/\ forall s, 0 < d s <= wpower (wts (stY x) f s) (stY x f s) / nN%:R,
      forall s, wpower (wts1 (stY x) f s) (stY y f s) / nN%:R <= 1 &
      `|\det (full_demix (stW y f) (stJ y f))| ^+ 2
      = `|\det (full_demix (stW x f) (stJ y f))| ^+ 2 / gprod (stY x) / \prod_s d s].
    have [d [d1 d2 d3]] := sw f; move: d2 d3; rewrite -(iter_form h f) => d2 d3.
    exists [ffun s => d s]; split=> [s|s|].
    - by rewrite ffunE -wpower_start; exact: d1.
    - exact: d2.
    rewrite -ddet_start -[LHS]/(ddet (stJ y f) (stY y f, stW y f, stH y f)) d3.
    by congr (_ / _); apply: eq_bigr => s _; rewrite ffunE.
  exact: fin_all_exists dd.
have N0 : 0 < nN%:R :> C by rewrite ltr0n.
have F0 : 0 < nF%:R :> C by rewrite ltr0n.
have T0 : 0 < 2%:R :> C by rewrite ltr0n.
set r := frame_norm (stY x); set q := frame_norm (stY y) in yp *.
have rp s n : 0 < r s n.
  by have := lt_le_trans m0 (nc s n); rewrite pmulr_rgt0.
have cl s n : clamp (2%:R * r s n) em = 2%:R * r s n by rewrite clamp_id.
set g := gain eps (stY x); have gp s : 0 < g s := gain_gt0 (stY x) s e0.
pose R s := \sum_n r s n; pose Q s := \sum_n q s n.
have Rp s : 0 < R s.
  rewrite /R (bigD1 (Ordinal n0)) //= ltr_paddr // sumr_ge0 // => n _; exact: ltW.
pose m s := R s / (2%:R * nN%:R * nF%:R); pose A s := 2%:R * nF%:R * nN%:R * R s / g s.
have K0 : 0 < 2%:R * nN%:R * nF%:R :> C by rewrite !mulr_gt0.
have mp s : 0 < m s by rewrite divr_gt0.
have Ap s : 0 < A s by rewrite divr_gt0 // !mulr_gt0.
(* logarithms of the own variances *)
have h1 s : \sum_f lg (d f s) <= nF%:R * lg (m s).
  apply: jensen => // [f|]; first by have [/(_ s) /andP [-> _] _ _] := hd f.
  apply: (@le_trans _ _ (\sum_f wpower (wts (stY x) f s) (stY x f s) / nN%:R)).
    by apply: ler_sum => f _; have [/(_ s) /andP [_ ->] _ _] := hd f.
  rewrite -mulr_suml (sum_wpower (stY x) (stY x)) -/r.
  have -> : \sum_n r s n ^+ 2 / clamp (2%:R * r s n) em = R s / 2%:R.
    rewrite /R mulr_suml; apply: eq_bigr => n _; rewrite cl.
    move: (r s n) (2%:R : C) (lt0r_neq0 (rp s n)) (lt0r_neq0 T0) => a t an tn.
    by cfield; repeat apply: conj; exact/eqP.
  rewrite le_eqVlt; apply/orP; left; apply/eqP; rewrite /m.
  move: (R s) (nN%:R : C) (nF%:R : C) (2%:R : C) (lt0r_neq0 N0) (lt0r_neq0 F0) (lt0r_neq0 T0) => a b c t bn cn tn.
  by cfield; repeat apply: conj; exact/eqP.
(* the new norms *)
have h2 s : lg (Q s ^+ 2) <= lg (A s).
  apply: lg_mono => //; first by rewrite exprn_gt0 // yp.
  apply: le_trans (cs_weighted (rp s) (fun n => frame_norm_ge0 (stY y) s n)) _.
  rewrite /A -/q -/(R s) mulrAC ler_pmul2r //.
  have E : \sum_f wpower (wts1 (stY x) f s) (stY y f s) = g s / 2%:R * \sum_n q s n ^+ 2 / r s n.
    have -> : \sum_f wpower (wts1 (stY x) f s) (stY y f s) = g s * \sum_f wpower (wts (stY x) f s) (stY y f s).
      rewrite mulr_sumr; apply: eq_bigr => f _; rewrite mulr_sumr; apply: eq_bigr => n _.
      by rewrite wts1E -/g mulrA; congr (_ * _); rewrite mulrC.
    rewrite (sum_wpower (stY x) (stY y)) -mulrA; congr (_ * _).
    by rewrite mulr_sumr; apply: eq_bigr => n _; rewrite cl invfM mulrCA.
  have le : \sum_f wpower (wts1 (stY x) f s) (stY y f s) <= nF%:R * nN%:R.
    apply: (@le_trans _ _ (\sum_(f < nF) nN%:R)); last by rewrite sumr_const card_ord mulr_natl.
    apply: ler_sum => f _; have [_ /(_ s) hf _] := hd f.
    by rewrite -[X in _ <= X]mul1r -ler_pdivr_mulr.
  rewrite E in le; rewrite ler_pdivl_mulr //.
  have g2 : 0 < g s / 2%:R by rewrite divr_gt0.
  have -> : 2%:R * nF%:R * nN%:R = 2%:R * (nF%:R * nN%:R) :> C by rewrite mulrA.
  set S := \sum_n _ in le *.
  have -> : S * g s = 2%:R * (g s / 2%:R * S).
    move: {le E} S (g s) (2%:R : C) (lt0r_neq0 T0) => a b t tn; by cfield; exact/eqP.
  by rewrite ler_pmul2l.
have h3 s : lg (A s) + lg (m s) + lg (g s) = lg (R s ^+ 2).
  rewrite -(lm (Ap s) (mp s)) -(lm (mulr_gt0 (Ap s) (mp s)) (gp s)).
  have -> : A s * m s * g s = R s ^+ 2; last by [].
  rewrite /A /m.
  move: (R s) (nN%:R : C) (nF%:R : C) (2%:R : C) (g s) (lt0r_neq0 N0) (lt0r_neq0 F0) (lt0r_neq0 T0) (lt0r_neq0 (gp s)) => a b c t k bn cn tn kn.
  by cfield; repeat apply: conj; exact/eqP.
have h4 f : lg (`|\det (full_demix (stW y f) (stJ y f))| ^+ 2)
   = lg (`|\det (full_demix (stW x f) (stJ y f))| ^+ 2) - \sum_s lg (g s) - \sum_s lg (d f s).
  have dp s : 0 < d f s by have [/(_ s) /andP [-> _] _ _] := hd f.
  have [_ _ e] := hd f.
  have Dp : 0 < `|\det (full_demix (stW x f) (stJ y f))| ^+ 2 by rewrite exprn_gt0 // normr_gt0.
  move: e Dp; set D' := `|_| ^+ 2; set D := `|_| ^+ 2; set P := \prod_s _ => e Dp.
  have P0 : 0 < P by apply: prodr_gt0 => s _.
  have G0 := gprod_gt0 (stY x).
  have eD : D = D' * P * gprod (stY x) by rewrite e !divfK ?gt_eqF.
  have D0 : 0 < D' by rewrite e !divr_gt0.
  rewrite eD (lm (mulr_gt0 D0 P0) G0) (lm D0 P0).
  have -> : lg P = \sum_s lg (d f s) by apply: lg_prod.
  have -> : lg (gprod (stY x)) = \sum_s lg (g s) by apply: lg_prod.
  by rewrite addrK addrK.
rewrite /laplace_cost_si -/r -/q.
have -> : \sum_f lg (`|\det (full_demix (stW y f) (stJ y f))| ^+ 2)
  = \sum_f lg (`|\det (full_demix (stW x f) (stJ y f))| ^+ 2) - nF%:R * (\sum_s lg (g s)) - \sum_s \sum_f lg (d f s).
  rewrite (eq_bigr _ (fun f _ => h4 f)) !sumrB [X in _ = _ - X]exchange_big; congr (_ - _ - _).
  by rewrite [LHS]sumr_const card_ord mulr_natl.
have le : nF%:R * (\sum_s lg (Q s ^+ 2)) + nF%:R * (\sum_s lg (g s)) + \sum_s \sum_f lg (d f s)
   <= nF%:R * \sum_s lg (R s ^+ 2).
  rewrite !mulr_sumr -!big_split /=; apply: ler_sum => s _.
  rewrite -h3 -mulrDr [lg (A s) + _ + _]addrAC [X in _ <= X]mulrDr; apply: ler_add => //.
  by rewrite ler_pmul2l // ler_add2r.
have eQ : \sum_s lg ((\sum_n q s n) ^+ 2) = \sum_s lg (Q s ^+ 2) by [].
have eR : \sum_s lg ((\sum_n r s n) ^+ 2) = \sum_s lg (R s ^+ 2) by [].
rewrite eQ eR; move: le {eQ eR}.
move: (\sum_s lg (Q s ^+ 2)) (\sum_s lg (R s ^+ 2)) (\sum_s lg (g s)) (\sum_s \sum_f lg (d f s)) => a b c k le.
rewrite -subr_ge0 in le; rewrite -subr_ge0.
move: le; congr (0 <= _); cring.
Qed.
End WithLog.
End Iter.
