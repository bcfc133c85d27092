(* WPE on a batch of signals computes, for every element of the batch, what the model of one
   batch element (WpeModel.v) computes. *)
From Coq Require Import String Ascii ZArith.
From mathcomp Require Import all_ssreflect all_algebra.
From mathcomp Require Import zify.
From Verif Require TorchShape.
From Verif Require Import CAlg Py Batch LinalgModel TissModel WpeModel TensorModel TSpec TensorProofs TWpeModel.
Set Implicit Arguments. Unset Strict Implicit. Unset Printing Implicit Defensive.
Import GRing.Theory Num.Theory Order.TTheory.
Local Open Scope ring_scope.
Local Open Scope string_scope.
Arguments clip : simpl never.
Arguments TorchShape.bc2 : simpl never.
Arguments Nat.eqb : simpl never.

Section E.
Variable C : numClosedFieldType.
Local Notation tensor := (tensor C).
Implicit Types (M X Y W : tensor).

Ltac es := rewrite /= ?bc2nn /= ?bcastss /= ?bc2nn /= ?bcastss /=.

Lemma e_acm N F c T B W X Y : sh W = [:: N, F & B] -> sh X = [:: N, T, F, c & B] -> sh Y = [:: N, T, F, c & B] ->
  exists t, [/\ einsum [:: "fn"; "cftn"; "dfun"] "fctdu" [:: W; X; Y] = Ok t, sh t = [:: T, c, T, c, F & B] &
   forall b u d k e f, inr [:: T, c, T, c, F & B] [:: u, d, k, e, f & b] ->
     at_ t [:: u, d, k, e, f & b] = \sum_(n < N) at_ W [:: nat_of_ord n, f & b] * at_ X [:: nat_of_ord n, k, f, e & b] * at_ Y [:: nat_of_ord n, u, f, d & b]].
Proof.
move=> s1 s2 s3; rewrite /einsum /TorchShape.einsum; cbn [map]; rewrite s1 s2 s3; es.
eexists; split; [reflexivity|by []|].
move=> b u d k e f /and5P [h1 h2 h3 h4 /andP [h5 h6]] /=; rewrite take0 /= drop0 /=; apply: eq_bigr => n _.
by rewrite s1 s2 s3 !clip_id //= ?ltn_ord ?h1 ?h2 ?h3 ?h4 ?h5 ?h6.
Qed.
Lemma e_xcv N F c T B W X Y : sh W = [:: N, F & B] -> sh X = [:: N, T, F, c & B] -> sh Y = [:: N, F, c & B] ->
  exists t, [/\ einsum [:: "fn"; "cftn"; "sfn"] "fcts" [:: W; X; Y] = Ok t, sh t = [:: c, T, c, F & B] &
   forall b s k e f, inr [:: c, T, c, F & B] [:: s, k, e, f & b] ->
     at_ t [:: s, k, e, f & b] = \sum_(n < N) at_ W [:: nat_of_ord n, f & b] * at_ X [:: nat_of_ord n, k, f, e & b] * at_ Y [:: nat_of_ord n, f, s & b]].
Proof.
move=> s1 s2 s3; rewrite /einsum /TorchShape.einsum; cbn [map]; rewrite s1 s2 s3; es.
eexists; split; [reflexivity|by []|].
move=> b s k e f /and5P [h1 h2 h3 h4 h5] /=; rewrite take0 /= drop0 /=; apply: eq_bigr => n _.
by rewrite s1 s2 s3 !clip_id //= ?ltn_ord ?h1 ?h2 ?h3 ?h4 ?h5.
Qed.
Lemma e_derev N F c T B M X : sh M = [:: c, T, c, F & B] -> sh X = [:: N, T, F, c & B] ->
  exists t, [/\ einsum [:: "fcts"; "cftn"] "sfn" [:: M; X] = Ok t, sh t = [:: N, F, c & B] &
   forall b n f s, inr [:: N, F, c & B] [:: n, f, s & b] ->
     at_ t [:: n, f, s & b] = \sum_(k < T) \sum_(e < c) at_ M [:: s, nat_of_ord k, nat_of_ord e, f & b] * at_ X [:: n, nat_of_ord k, f, nat_of_ord e & b]].
Proof.
move=> s1 s2; rewrite /einsum /TorchShape.einsum; cbn [map]; rewrite s1 s2; es.
eexists; split; [reflexivity|by []|].
move=> b n f s /and4P [h1 h2 h3 h4] /=; rewrite take0 /= drop0 /=; apply: eq_bigr => k _; apply: eq_bigr => e _.
by rewrite s1 s2 !clip_id //= ?ltn_ord ?h1 ?h2 ?h3 ?h4.
Qed.
End E.

Section W.
Variable C : numClosedFieldType.
Local Notation tensor := (tensor C).
Variables (N F c T dl : nat) (B : seq nat) (X : tensor).
Hypothesis sX : sh X = [:: N, F, c & B].
Local Notation sig t b := (sig_at F N c t b).

Lemma t_xbar : exists Xb, [/\ (let* X_pad := pad_left (T + dl) X in let* X_hankel := hankel_view X_pad (T + dl + 1) in
    slice_last 1 (dl + 1) X_hankel)%py = Ok Xb, sh Xb = [:: N, T, F, c & B] &
  forall b (f : 'I_F) (t : 'I_T) (ch : 'I_c) (n : 'I_N), at_ Xb [:: nat_of_ord n, nat_of_ord t, nat_of_ord f, nat_of_ord ch & b] = delayed T dl (sig X b) f t ch n].
Proof.
rewrite /pad_left sX; cbn [TorchShape.pad_left bind]; rewrite /TorchShape.pad_left /=.
rewrite /hankel_view /= ltnNge (_ : (T + dl + 1 <= T + dl + N + 1)%N) /=; last lia.
rewrite /slice_last /=.
eexists; split; [reflexivity| |].
  by rewrite /=; congr [:: _, _ & _]; lia.
move=> b f t ch n /=; rewrite /delayed !ffunE !mxE /xpad; case: ltnP => // h.
rewrite /rowget.
have lt : (t + n - (T + dl) < N)%N by have := ltn_ord n; have := ltn_ord t; lia.
by rewrite (insubT (fun x => x < N)%N lt) mxE /=.
Qed.

Lemma t_weights eps : acts_as B (fun Y => t_default_weights Y eps) (@default_weights C c F N eps).
Proof.
move=> Y sY; rewrite /t_default_weights /tmean /tsum /TorchShape.reduce; cbn [sh tmap]; rewrite sY; cbn [TorchShape.size bind List.nth_error].
rewrite /TorchShape.size; cbn [List.nth_error bind tmap sh].
rewrite /tsum_keep /TorchShape.reduce_keep /TorchShape.size; cbn [List.nth_error bind tmap sh].
rewrite /TorchShape.del /TorchShape.set; cbn [List.firstn List.skipn List.app List.nth_error bind tmap sh].
rewrite /tdiv (@tzipE _ _ _ _ [:: N, F & B]); last by rewrite /= bc2n1 /= bc2nn /= bcastss.
eexists; split; [reflexivity|by []|].
move=> b f n hb; rewrite /default_weights !mxE; cbn [at_ tmap sh].
have h1 : inr [:: N, F & B] [:: nat_of_ord n, nat_of_ord f & b] by rewrite /= !ltn_ord.
have h2 : inr [:: 1, F & B]%N [:: 0%N, nat_of_ord f & b] by rewrite /= !ltn_ord.
rewrite (clip_id h1) (_ : clip [:: 1, F & B]%N [:: nat_of_ord n, nat_of_ord f & b] = [:: 0%N, nat_of_ord f & b]); last first.
  by rewrite -[RHS](clip_id h2) /clip.
have e : forall m : 'I_N, (\sum_(k < nth 0%N [:: N, F, c & B] 2) mag_sq (at_ Y (TorchShape.ins 2 k [:: nat_of_ord m, nat_of_ord f & b])) = \sum_c0 mag_sq (sig Y b f c0 m)).
  by move=> m /=; apply: eq_bigr => k _; rewrite ffunE mxE /TorchShape.ins /=.
rewrite e; congr (_ / _); apply: eq_bigr => m _; by rewrite -e.
Qed.

Variable Xb : tensor.
Hypothesis sXb : sh Xb = [:: N, T, F, c & B].
Hypothesis vXb : forall b (f : 'I_F) (t : 'I_T) (ch : 'I_c) (n : 'I_N), inr B b ->
  at_ Xb [:: nat_of_ord n, nat_of_ord t, nat_of_ord f, nat_of_ord ch & b] = delayed T dl (sig X b) f t ch n.
Variables (mo : tensor -> result tensor) (m : {ffun 'I_F -> 'M[C]_(c, N)} -> 'I_F -> 'rV[C]_N) (eps : C).
Hypothesis act : acts_as B mo m.
Hypothesis ne : exists b, inr B b.
Definition h_at (H : tensor) (b : seq nat) : {ffun 'I_F -> 'M[C]_(c * T, c)} :=
  [ffun f => \matrix_(k, s) at_ H [:: nat_of_ord s, (nat_of_ord k %% T)%N, (nat_of_ord k %/ T)%N, nat_of_ord f & b]].
Lemma h_atE H b f e k s : h_at H b f (mxvec_index e k) s = at_ H [:: nat_of_ord s, nat_of_ord k, nat_of_ord e, nat_of_ord f & b].
Proof. by rewrite ffunE mxE mxvec_mod mxvec_div. Qed.
Definition one_iter_after (w : tensor) : result tensor :=
  (let* acm := einsum [:: "fn"; "cftn"; "dfun"] "fctdu" [:: w; Xb; tmap conjC Xb] in
      let* xcv := einsum [:: "fn"; "cftn"; "sfn"] "fcts" [:: w; Xb; tmap conjC X] in
      let* acm := reshape [:: (c * T)%N, (c * T)%N, F & B] acm in
      let* xcv := reshape [:: c, (c * T)%N, F & B] xcv in
      let* H := solve_loaded acm xcv eps in
      reshape [:: c, T, c, F & B] H)%py.
Lemma t_one_iter Y w : sh w = [:: N, F & B] -> (forall b f n, inr B b -> at_ w [:: nat_of_ord n, nat_of_ord f & b] = m (sig Y b) f 0 n) ->
  lifts B [:: c, T, c, F & B] (one_iter_after w) (fun b => wpe_one_iter (m (sig Y b)) (sig X b) (delayed T dl (sig X b)) eps) h_at.
Proof.
move=> sw hw; rewrite /one_iter_after.
have [t1 [-> s1 h1]] := e_acm sw sXb (sXb : sh (tmap conjC Xb) = _).
have [t2 [-> s2 h2]] := e_xcv sw sXb (sX : sh (tmap conjC X) = _).
cbn [bind].
have n1 : TorchShape.numel (sh t1) = TorchShape.numel [:: (c * T)%N, (c * T)%N, F & B].
  by rewrite s1 !numel_cons; nia.
have n2 : TorchShape.numel (sh t2) = TorchShape.numel [:: c, (c * T)%N, F & B].
  by rewrite s2 !numel_cons; nia.
rewrite (reshapeE n1) (reshapeE n2); cbn [bind].
set A := mkT _ _; set bb := mkT _ _.
have [z|nz] := eqVneq (c * T)%N 0%N.
  rewrite (@solve_loaded_empty _ (F :: B)) /=; last by rewrite z.
  by have [b hb] := ne; exists b => //; rewrite /wpe_one_iter; move/eqP: z => ->.
have p0 : (0 < c * T)%N by rewrite lt0n.
have T0 : (0 < T)%N by move: p0; rewrite muln_gt0 => /andP [].
have := @solve_loaded_mat C (c * T) c (F :: B) A bb eps p0 erefl erefl.
move/(gather_lift 0 (fun i e => @solve_loaded_err _ _ _ _ _ _ e p0)).
have eqg : forall b, inr B b -> wpe_one_iter (m (sig Y b)) (sig X b) (delayed T dl (sig X b)) eps =
  gather 0 (fun f : 'I_F => LinalgModel.solve_loaded (mat (c * T) (c * T) A (nat_of_ord f :: b)) (mat (c * T) c bb (nat_of_ord f :: b)) eps).
  move=> b hb; rewrite /wpe_one_iter (negbTE nz); apply: eq_gather => f; congr LinalgModel.solve_loaded.
    apply/matrixP => k l; rewrite !mxE /A; cbn [at_]; rewrite s1.
    have lk := ltn_ord k; have ll := ltn_ord l.
    have -> : unflat [:: T, c, T, c, F & B] (flat [:: (c * T)%N, (c * T)%N, F & B] [:: nat_of_ord l, nat_of_ord k, nat_of_ord f & b]) =
       [:: (l %% T)%N, (l %/ T)%N, (k %% T)%N, (k %/ T)%N, nat_of_ord f & b].
      rewrite [flat _ _]/= (unflat_split [:: T, c, F & B] _ T0 ll) (unflat_split (F :: B) _ T0 lk).
      by rewrite -[(f + _)%N]/(flat (F :: B) (nat_of_ord f :: b)) unflatK //= ltn_ord.
    rewrite h1; last by rewrite /= !ltn_mod !ltn_divLR // T0 lk ll ltn_ord.
    case/mxvec_indexP: k lk => ch t lk; case/mxvec_indexP: l ll => d u ll.
    apply: eq_bigr => n _; rewrite hw // !mxvec_mod !mxvec_div /stack !mxE !mxvecE !mxE -!vXb //.
  apply/matrixP => k s; rewrite !mxE /bb; cbn [at_]; rewrite s2.
  have lk := ltn_ord k.
  have -> : unflat [:: c, T, c, F & B] (flat [:: c, (c * T)%N, F & B] [:: nat_of_ord s, nat_of_ord k, nat_of_ord f & b]) =
       [:: nat_of_ord s, (k %% T)%N, (k %/ T)%N, nat_of_ord f & b].
    have c0 : (0 < c)%N by exact: leq_ltn_trans (ltn_ord s).
    rewrite [flat _ _]/= [unflat (c :: _) _]/=; rewrite [(s + c * _)%N]addnC [(c * _)%N]mulnC modnMDl modn_small // divnMDl // divn_small // addn0.
    congr cons; rewrite -[LHS]/(unflat [:: T, c, F & B] _) (unflat_split (F :: B) _ T0 lk).
    by rewrite -[(f + _)%N]/(flat (F :: B) (nat_of_ord f :: b)) unflatK //= ltn_ord.
  rewrite h2; last by rewrite /= !ltn_mod !ltn_divLR // T0 lk !ltn_ord.
  case/mxvec_indexP: k lk => ch t lk.
  apply: eq_bigr => n _; rewrite hw // !mxvec_mod !mxvec_div /stack !mxE !mxvecE !mxE -!vXb // ffunE mxE //.
case: (solve_loaded A bb eps) => [H|e]; last by move=> [b hb ge]; exists b => //; rewrite eqg.
move=> [sH hH]; cbn [bind].
rewrite reshapeE; last by rewrite sH !numel_cons; nia.
split=> // b hb; rewrite eqg // hH //; congr Ok; apply/ffunP => f; rewrite !ffunE; apply/matrixP => k s; rewrite !mxE; cbn [at_].
case/mxvec_indexP: k => ch t; rewrite mxvec_mod mxvec_div sH; congr (at_ H _).
rewrite mxvec_indexE [flat _ _]/= [unflat (c :: _) _]/=.
have c0 : (0 < c)%N by exact: leq_ltn_trans (ltn_ord s).
rewrite [(s + c * _)%N]addnC [(c * _)%N]mulnC modnMDl modn_small // divnMDl // divn_small // addn0; congr cons.
rewrite -[RHS]/(unflat [:: (c * T)%N, F & B] (t + T * (ch + c * flat (F :: B) (nat_of_ord f :: b)))%N) unflat_merge // unflatK //=.
by rewrite ltn_ord.
Qed.

Lemma t_derev_at (H : tensor) : sh H = [:: c, T, c, F & B] -> exists Y, [/\ t_derev H X Xb = Ok Y, sh Y = [:: N, F, c & B] &
  forall b, inr B b -> sig Y b = derev (h_at H b) (sig X b) (delayed T dl (sig X b))].
Proof.
move=> sH; rewrite /t_derev; have [t [-> st ht]] := e_derev (sH : sh (tmap conjC H) = _) sXb; cbn [bind].
rewrite /tsub (@tzipE _ _ _ _ [:: N, F, c & B]); last by rewrite sX st bcastss.
eexists; split; [reflexivity|by []|].
move=> b hb; apply/ffunP => f; apply/matrixP => s n; rewrite sigE [in RHS]ffunE [in RHS]mxE sigE; cbn [at_].
have h : inr [:: N, F, c & B] [:: nat_of_ord n, nat_of_ord f, nat_of_ord s & b] by rewrite /= !ltn_ord.
rewrite sX st !(clip_id h) ht //; congr (_ - _); rewrite exchange_big; apply: eq_bigr => e _; apply: eq_bigr => k _.
by rewrite vXb // h_atE.
Qed.
End W.

Section Loop.
Variable C : numClosedFieldType.
Local Notation tensor := (tensor C).
Variables (N F c T dl : nat) (B : seq nat) (X : tensor).
Hypothesis sX : sh X = [:: N, F, c & B].
Local Notation sig t b := (sig_at F N c t b).
Local Notation msig := {ffun 'I_F -> 'M[C]_(c, N)}.
Variables (tm : option (tensor -> result tensor)) (om : option (msig -> 'I_F -> 'rV[C]_N)) (eps : C).
Hypothesis act : weights_as B tm om.
Hypothesis ne : exists b, inr B b.
Local Notation nm := (omap (fun m (_ : unit) Y => (m Y, tt)) om).
Lemma t_loop Xb n Y : sh Xb = [:: N, T, F, c & B] ->
  (forall b (f : 'I_F) (t : 'I_T) (ch : 'I_c) (n : 'I_N), inr B b ->
     at_ Xb [:: nat_of_ord n, nat_of_ord t, nat_of_ord f, nat_of_ord ch & b] = delayed T dl (sig X b) f t ch n) ->
  sh Y = [:: N, F, c & B] ->
  lifts B [:: N, F, c & B] (t_wpe_loop n tm X Xb Y eps)
   (fun b => rmap fst (wpe_loop T dl nm (sig X b) eps n (sig Y b) tt)) (fun t b => sig t b).
Proof.
move=> sXb vXb; elim: n Y => [|n IH] Y sY /=; first by split.
rewrite /t_wpe_one_iter sXb.
pose mo := if tm is Some mo then mo else fun Y => t_default_weights Y eps.
pose m := if om is Some m then m else @default_weights C c F N eps.
have am : acts_as B mo m by move: act; rewrite /weights_as /mo /m; case: tm om => [?|] [?|] // _; exact: t_weights.
have ew b : weights nm eps tt (sig Y b) = (m (sig Y b), tt) by rewrite /weights /m; case: om.
have [w [hw1 sw hw2]] := am Y sY.
have -> : (if tm is Some mo0 then mo0 Y else t_default_weights Y eps) = Ok w by rewrite -hw1 /mo; case: tm.
cbn [bind]; have := t_one_iter sX sXb vXb eps ne sw hw2; rewrite /one_iter_after.
set res := (bind _ _); case: res => [H|e]; cbn [bind]; last first.
  by move=> [b hb he]; exists b => //; rewrite ew he.
move=> [sH hH]; have [Y' [-> sY' hY']] := t_derev_at sX sXb vXb sH; cbn [bind].
have := IH Y' sY'; case: (t_wpe_loop _ _ _ _ _ _) => [Z|e].
  by move=> [sZ hZ]; split=> // b hb; rewrite ew hH //= -hY' // hZ.
by move=> [b hb he]; exists b => //; rewrite ew hH //= -hY' // he.
Qed.
Theorem wpe_batch n_iter :
  lifts B [:: N, F, c & B] (t_wpe_forward n_iter dl T tm eps X)
   (fun b => rmap fst (wpe_forward T dl nm (sig X b) eps n_iter tt)) (fun t b => sig t b).
Proof.
rewrite /t_wpe_forward sX; have [Xb [e sXb vXb]] := t_xbar T dl sX.
have -> : (let* X_pad := pad_left (T + dl) X in let* X_hankel := hankel_view X_pad (T + dl + 1) in
    let* X_bar := slice_last 1 (dl + 1) X_hankel in t_wpe_loop n_iter tm X X_bar X eps)%py = t_wpe_loop n_iter tm X Xb X eps.
  move: e; case: (pad_left _ _) => [xp|] //=; case: (hankel_view _ _) => [xh|] //=; by case: (slice_last _ _ _) => [xb|] //= [->].
apply: t_loop => // b f t ch k _; exact: vXb.
Qed.
End Loop.
