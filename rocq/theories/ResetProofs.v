From mathcomp Require Import all_ssreflect all_algebra.
From Verif Require Import CAlg Py Batch LinalgModel LinalgSpec LinalgProofs TissModel TissSpec TissProofs IvaModel WpeModel WpeProofs FiveModel ResetModel.
Set Implicit Arguments. Unset Strict Implicit. Unset Printing Implicit Defensive.
Import GRing.Theory Num.Theory Order.TTheory.

Section R.
Variables (St : Type) (r : St -> St).
Variables (In Out : Type) (call : In -> St -> result Out * St).
Hypothesis iso : forall x m m', r m = r m' -> call x m = call x m'.
Lemma run_flags h h' m : (forall m, r (r m) = r m) -> map fst h = map fst h' ->
  sep_run (Some r) call h m = sep_run (Some r) call h' m.
Proof.
move=> id; elim: h h' m => [|[x b] h IH] [|[x' b'] h'] m //= [<- e].
have E c : sep_forward (Some r) call c x m = call x m by rewrite /sep_forward; case: c => //; apply: iso.
by rewrite !E; case: (call x m) => o m'; rewrite (IH h').
Qed.
Lemma run_fresh h m m0 : (forall m, r m = r m0) ->
  sep_run (Some r) call h m = [seq (call x.1 m0).1 | x <- h].
Proof.
move=> id; elim: h m => [|[x b] h IH] m //=.
have -> : sep_forward (Some r) call b x m = call x m0 by apply: iso; case: b; rewrite /= !id.
by rewrite -(IH (call x m0).2); case: (call x m0).
Qed.
End R.

Section Flags.
Variables (St In Out : Type) (call : In -> St -> result Out * St).
Lemma run_true (r : St -> St) m0 (xs : seq In) m : (forall m, r m = m0) ->
  sep_run (Some r) call [seq (x, true) | x <- xs] m = [seq (call x m0).1 | x <- xs].
Proof.
move=> h; elim: xs m => [|x xs IH] m //=; rewrite /sep_forward /= h.
by rewrite -(IH (call x m0).2); case: (call x m0).
Qed.
Lemma run_cat_false rst (xs : seq In) x m :
  sep_run rst call ([seq (x, false) | x <- xs] ++ [:: (x, false)]) m =
  sep_run rst call [seq (x, false) | x <- xs] m ++ [:: (call x (foldl (fun s y => (call y s).2) m xs)).1].
Proof.
elim: xs m => [|y xs IH] m /=; first by rewrite /sep_forward; case: (call x m).
by rewrite /sep_forward; case: (call y m) => o m' /=; rewrite -IH.
Qed.
Lemma run_noreset fl (xs : seq In) m :
  sep_run None call [seq (x, fl) | x <- xs] m = sep_run None call [seq (x, false) | x <- xs] m.
Proof.
elim: xs m => [|x xs IH] m //=; rewrite /sep_forward /base_reset if_same.
by case: (call x m) => o m'; rewrite IH.
Qed.
End Flags.

Local Open Scope ring_scope.
Lemma tiss_iso (C : numClosedFieldType) (St : Type) (r : St -> St) nS nB nF nT dl nN
    model eps n_iter use_dmc pb onerr (X : sig C nF nN (nS + nB)) (m m' : St) :
  r m = r m' ->
  @tiss_call St (Some r) C nS nB nF nT dl nN model eps n_iter use_dmc pb onerr X m =
  @tiss_call St (Some r) C nS nB nF nT dl nN model eps n_iter use_dmc pb onerr X m'.
Proof. by rewrite /tiss_call /base_reset => ->. Qed.
Lemma ip_iso (C : numClosedFieldType) (St : Type) (r : St -> St) nS nB nF nN
    model eps n_iter pb onerr (X : sig C nF nN (nS + nB)) (m m' : St) :
  r m = r m' ->
  @ip_call St (Some r) C nS nB nF nN model eps n_iter pb onerr X m =
  @ip_call St (Some r) C nS nB nF nN model eps n_iter pb onerr X m'.
Proof. by rewrite /ip_call /base_reset => ->. Qed.
Lemma ip2_iso (C : numClosedFieldType) (St : Type) (r : St -> St) nF nN
    model eps n_iter mic (X : sig C nF nN 2) (m m' : St) :
  r m = r m' ->
  @ip2_call St (Some r) C nF nN model eps n_iter mic X m =
  @ip2_call St (Some r) C nF nN model eps n_iter mic X m'.
Proof. by rewrite /ip2_call /base_reset => ->. Qed.
Lemma five_iso (C : numClosedFieldType) (St : Type) (r : St -> St) k nF nN eighO
    model mic np n_iter onerr (X : sig C nF.+1 nN k.+1) (m m' : St) :
  r m = r m' ->
  @five_call St (Some r) C k nF nN eighO model mic np n_iter onerr X m =
  @five_call St (Some r) C k nF nN eighO model mic np n_iter onerr X m'.
Proof. by rewrite /five_call /base_reset => ->. Qed.
Section W.
Variable C : numClosedFieldType.
Definition w_model (m : bool) (Y : sig C 1 2 1) : ('I_1 -> 'rV[C]_2) * bool := (fun _ => const_mx m%:R, true).
Definition w_X : sig C 1 2 1 := [ffun _ => const_mx 1].
Lemma one11 (i : 'I_(1 * 1)) : i = mxvec_index (ord0 : 'I_1) (ord0 : 'I_1).
Proof.
have h (k : 'I_(1 * 1)) : nat_of_ord k = 0%N by have := ltn_ord k; rewrite [X in (_ < X)%N]mul1n ltnS leqn0 => /eqP.
by apply: ord_inj; rewrite !h.
Qed.
Lemma w_stack k n : stack (delayed 1 0 w_X ord0) k n = (n != ord0)%:R.
Proof.
rewrite (one11 k) stackE delayedE /ago /w_X.
rewrite (eq_bigr (fun=> 1)); last by move=> p _; rewrite ffunE mxE.
case: n => -[|[|//]] i; rewrite big_mkcond big_ord_recl big_ord1 /=; first by rewrite addr0.
by rewrite addr0.
Qed.
Lemma w_acm (m : bool) : acm (const_mx m%:R) (delayed 1 0 w_X ord0) = const_mx m%:R.
Proof.
apply/matrixP=> k l; rewrite !mxE big_ord_recl big_ord1 !w_stack !mxE /=.
by rewrite mulr0 mul0r add0r !mulr1 rmorph1 mulr1.
Qed.
Lemma w_xcv (m : bool) : xcv (const_mx m%:R) (delayed 1 0 w_X ord0) (w_X ord0) = const_mx m%:R.
Proof.
apply/matrixP=> k l; rewrite !mxE big_ord_recl big_ord1 !w_stack /w_X ffunE !mxE /=.
by rewrite mulr0 mul0r add0r !mulr1 rmorph1 mulr1.
Qed.
Lemma w_call (m : bool) onerr : exists Y,
  wpe_call 1 0 (Some w_model) (1 : C) 1 onerr w_X m = (Ok Y, true) /\ (Y ord0 ord0 (lift ord0 ord0) == 1) = ~~ m.
Proof.
rewrite /wpe_call /wpe_forward /= /wpe_one_iter /=.
have e0 : (0 : C) < 1 by exact: ltr01.
have w0 n : 0 <= (const_mx m%:R : 'rV[C]_2) 0 n by rewrite mxE ler0n.
have hp := acm_psd (delayed 1 0 w_X ord0) w0; rewrite w_acm in hp.
have hs := solve_loaded_psd (const_mx m%:R : 'M[C]_(1 * 1, 1)) (isT : (0 < 1 * 1)%N) hp e0.
set l := load_factor _ _ in hs; have l0 : 0 < l by exact: load_factor_gt0.
have hu : (const_mx m%:R : 'M[C]_(1 * 1)) + l *: 1%:M \in unitmx by apply: pd_unit; exact: pd_loaded.
set H := invmx _ *m _ in hs.
have hH : (const_mx m%:R + l *: 1%:M) *m H = const_mx m%:R by rewrite mulmxA mulmxV // mul1mx.
have h0 : (m%:R + l) * H ord0 ord0 = m%:R.
  move/matrixP/(_ ord0 ord0): hH; rewrite !mxE big_ord1 !mxE eqxx mulr1; exact.
rewrite (gather_ok _ (h := fun _ => H)); last by move=> f; rewrite (ord1 f) w_acm w_xcv.
eexists; split; first by [].
rewrite /derev ffunE mxE big_ord1 big_ord1 -(stackE (delayed 1 0 w_X ord0)) w_stack.
have -> : mxvec_index (0 : 'I_1) (0 : 'I_1) = ord0 by rewrite [RHS]one11.
rewrite /w_X !ffunE mxE /= mulr1.
rewrite -[X in _ == X]subr0 (inj_eq (addrI 1)) eqr_opp fmorph_eq0.
have hl : m%:R + l != 0 by apply: lt0r_neq0; rewrite ltr_paddl // ler0n.
rewrite -(inj_eq (mulfI hl)) mulr0 h0.
by case: (m); rewrite ?eqxx ?oner_eq0.
Qed.
End W.

Lemma wpe_refuted (C : numClosedFieldType) :
  exists (r : bool -> bool) model (X : sig C 1 2 1), [/\ forall m m', r m = r m',
    (wpe_call 1 0 (Some model) 1 1 id X (r false)).2 = true &
    (wpe_call 1 0 (Some model) 1 1 id X (r false)).1 <> (wpe_call 1 0 (Some model) 1 1 id X true).1].
Proof.
exists (fun=> false), (@w_model C), (@w_X C).
have [Y [e h]] := @w_call C false id; have [Y' [e' h']] := @w_call C true id.
by rewrite e e'; split=> // -[E]; rewrite E h' in h.
Qed.
