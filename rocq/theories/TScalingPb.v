(* projection_back on batches. *)
From Coq Require Import String Ascii ZArith.
From mathcomp Require Import all_ssreflect all_fingroup all_algebra.
From mathcomp Require Import zify.
From Verif Require TorchShape.
From Verif Require Import CAlg Py Batch LinalgModel ScalingModel ScalingBridge TensorModel TSpec TensorProofs TOpsModel TOpsProofs TScalingModel TScalingSpec TScalingProofs.
Set Implicit Arguments. Unset Strict Implicit. Unset Printing Implicit Defensive.
Import GRing.Theory Num.Theory Order.TTheory.
Local Open Scope ring_scope.
Arguments TorchShape.bc2 : simpl never.
Arguments Nat.eqb : simpl never.
Arguments clip : simpl never.

(* ---- indices of flattened batches *)
Lemma pb_flat_lt s i : inr s i -> (flat s i < TorchShape.numel s)%N.
Proof.
elim: s i => [|n s IH] [|x i] //; rewrite -[inr _ _]/((x < n) && inr s i)%N => /andP [h /IH hi]; rewrite -[flat _ _]/(x + n * flat s i)%N -[TorchShape.numel _]/(n * TorchShape.numel s)%N; nia.
Qed.
Lemma unflat_inr s x : (x < TorchShape.numel s)%N -> inr s (unflat s x).
Proof.
elim: s x => [|n s IH] x //; rewrite -[TorchShape.numel _]/(n * TorchShape.numel s)%N => h.
rewrite -[inr _ _]/((x %% n < n) && inr s (unflat s (x %/ n)))%N.
have n0 : (0 < n)%N by case: n h.
by rewrite ltn_mod n0 IH // ltn_divLR // mulnC.
Qed.
Lemma unflat_cons2 K J s j i x : (j < K)%N -> (i < J)%N -> unflat [:: K, J & s] (j + K * (i + J * (x + 0)))%N = [:: j, i & unflat s x].
Proof.
move=> hj hi; rewrite addn0 -[LHS]/[:: _, _ & unflat s _].
have K0 : (0 < K)%N by apply: leq_ltn_trans hj.
have J0 : (0 < J)%N by apply: leq_ltn_trans hi.
by rewrite addnC mulnC modnMDl divnMDl // (modn_small hj) (divn_small hj) addn0 addnC mulnC modnMDl divnMDl // (modn_small hi) (divn_small hi) addn0.
Qed.

Lemma fits_bcast_r R B : fits R B -> TorchShape.bcast B R = Ok B.
Proof.
elim: R B => [|n R IH] [|m B] //= /andP [h /IH ->]; rewrite /TorchShape.bc2 !eqbE.
by case/orP: h => /eqP ->; rewrite eqxx //=; case: eqP => [->|].
Qed.

Lemma fits_small R B : fits R B -> (0 < TorchShape.numel B)%N -> R <> B ->
  (List.length R == List.length B) && all (fun ab : nat * nat => (ab.1 <= ab.2)%N) (zip B R) = false.
Proof.
elim: B R => [|m B IH] [|n R] // /andP [h1 h2]; rewrite numel_cons muln_gt0 => /andP [m0 p0] ne /=.
rewrite /= ; case nm: (n == m).
  by rewrite eqSS (eqP nm) leqnn /= IH ?andbF // => e; apply: ne; rewrite (eqP nm) e.
rewrite nm /= in h1; rewrite (eqP h1) in nm *; have -> : (m <= 1)%N = false by move: nm m0 {ne}; case: m => [|[|]].
by rewrite andbF.
Qed.

Section T.
Variable C : numClosedFieldType.
Variable argsort : forall n, ('I_n -> C) -> 'I_n -> 'I_n.
Section Pb.
Variables (K F N : nat) (B : seq nat) (Y ref : tensor C).
Hypothesis sY : sh Y = [:: N, F, K & B].
Local Notation J := (minn K N).
Local Notation M := (TorchShape.numel (F :: B)).
Definition sel_at (b : seq nat) (x : nat) : nat :=
  if insub (N - J + x)%N is Some k then nat_of_ord (argsort (fun j : 'I_N => \sum_f \sum_c mag (spec_at K F N Y b tt c f 0 j)) k) else 0%N.
Lemma frames_at : 0%N <> K -> exists Yt I, [/\ sh Yt = [:: N, K, F & B], forall x y w i, at_ Yt [:: x, y, w & i] = at_ Y [:: x, w, y & i],
  ish I = J :: B, forall x b, inr B b -> (forall g g' i, g =1 g' -> @argsort N g i = argsort g' i) -> iat I (x :: b) = sel_at b x &
  forall ref, t_projection_back argsort Y ref = (
      let* Yn := slice_to 0 K Yt in let* Iy := i_unsq 1 I in let* Iy := i_unsq 1 Iy in
      let* Iy := i_bcast Iy Yn in
      let* rn := slice_to 0 K ref in let* Ir := i_unsq 1 I in let* Ir := i_bcast Ir rn in
      let* A := tgather Yt Iy in let* A := transpose 1 0 A in
      let* b := tgather ref Ir in let* b := unsq 0 b in
      let* A_flat := treshape_m1 [:: K; K] A in
      let* k := TorchShape.size 0 (sh b) in
      let* b_flat := treshape_m1 [:: k; K] b in
      let dload := tscale (10%:R ^- 5) (teye C K) in
      let* Al := tadd A_flat dload in let* c := solve Al b_flat in
      let* c := reshape [:: 1%N, K, F & B] c in
      let* o := tmul Yt c in transpose 2 1 o)%py].
Proof.
move=> K0; have [Yt [e1 s1 h1]] := transpose21 sY; rewrite /t_projection_back sY e1; cbn [bind].
have t1 (t : tensor C) a b r : sh t = [:: a, b & r] -> exists u, [/\ tsum 1 t = Ok u, sh u = a :: r & forall x i, at_ u (x :: i) = \sum_(k < b) at_ t [:: x, nat_of_ord k & i]].
  by move=> st; rewrite (@tsumE _ 1 _ b) ?st //; eexists; split; [reflexivity|by []|].
have [m1 [-> s2 h2]] := t1 (tmap (@mag C) Yt) _ _ _ s1; cbn [bind].
have [m2 [-> s3 h3]] := t1 _ _ _ _ s2; cbn [bind].
rewrite /t_argsort s3 /TorchShape.size; cbn [List.nth_error bind]; rewrite /i_last /TorchShape.size; cbn [ish List.nth_error bind].
rewrite (_ : (K == 0%N) = false); last by apply/eqP => k0; apply: K0.
eexists Yt, _; split; last (move=> r; reflexivity); [by []|by []|reflexivity|].
move=> x b hb hext; rewrite /sel_at; cbn [iat]; case: insub => // k; congr nat_of_ord; apply: hext => j.
rewrite h3; apply: eq_bigr => f _; rewrite h2; apply: eq_bigr => c _; by rewrite mxE; cbn [at_ tmap]; rewrite h1.
Qed.
Definition rest (Yt A b : tensor C) : result (tensor C) := (
      let* A_flat := treshape_m1 [:: K; K] A in
      let* b_flat := treshape_m1 [:: 1%N; K] b in
      let dload := tscale (10%:R ^- 5) (teye C K) in
      let* Al := tadd A_flat dload in let* c := solve Al b_flat in
      let* c := reshape [:: 1%N, K, F & B] c in
      let* o := tmul Yt c in transpose 2 1 o)%py.
Hypothesis ext : forall g g' i, g =1 g' -> @argsort N g i = argsort g' i.
Lemma slice_min (t : tensor C) n r : sh t = n :: r -> exists u, [/\ slice_to 0 K t = Ok u, sh u = minn K n :: r & forall i, at_ u i = at_ t i].
Proof.
move=> st; rewrite /slice_to /TorchShape.slice_to /TorchShape.slice /TorchShape.size st /=.
eexists; split; [reflexivity| |by []]; congr cons; cbn [sh]; lia.
Qed.
Lemma gather_ok2 (t : tensor C) (i : itensor) n m r : sh t = n :: r -> ish i = m :: r -> exists u,
  [/\ tgather t i = Ok u, sh u = m :: r & forall j, at_ u j = at_ t (iat i j :: behead j)].
Proof.
move=> st si; rewrite /tgather st si eqxx /=.
have -> : all (fun ab : nat * nat => (ab.1 <= ab.2)%N) (zip r r) by elim: r {st si} => //= a r ->; rewrite leqnn.
by eexists; split; [reflexivity|by []|].
Qed.
Lemma i_unsq1 (i : itensor) n r : ish i = n :: r -> exists u, [/\ i_unsq 1 i = Ok u, ish u = [:: n, 1%N & r] & forall x y j, iat u [:: x, y & j] = iat i (x :: j)].
Proof. by move=> si; rewrite /i_unsq si; eexists; split; [reflexivity|by []|]. Qed.
Lemma i_bc (i : itensor) (t : tensor C) s1 s2 s : ish i = s1 -> sh t = s2 -> TorchShape.bcast s1 s2 = Ok s ->
  exists u, [/\ i_bcast i t = Ok u, ish u = s & forall j, iat u j = iat i (clip s1 j)].
Proof. by move=> e1 e2 h; rewrite /i_bcast e1 e2 h; eexists; split; [reflexivity|by []|]. Qed.
Lemma clip_cons n s x i : (x < n)%N -> clip (n :: s) (x :: i) = x :: clip s i.
Proof. move=> h; rewrite -[LHS]/((if n == 1%N then 0%N else x) :: clip s i); congr cons; by case: eqP h => // -> ; case: x. Qed.
Lemma system_at : 0%N <> K -> sh ref = [:: N, F & B] -> exists Yt A b, [/\ sh Yt = [:: N, K, F & B] /\ (forall x y w i, at_ Yt [:: x, y, w & i] = at_ Y [:: x, w, y & i]),
  t_projection_back argsort Y ref = rest Yt A b, sh A = [:: K, J, F & B], sh b = [:: 1%N, J, F & B] &
  forall x f i, inr B i -> (f < F)%N -> (x < J)%N -> (forall k, (k < K)%N -> at_ A [:: k, x, f & i] = at_ Y [:: sel_at i x, f, k & i]) /\
    at_ b [:: 0%N, x, f & i] = at_ ref [:: sel_at i x, f & i]].
Proof.
move=> K0 sr; have [Yt [I [s1 h1 s2 h2 ->]]] := frames_at K0.
have [Yn [-> s3 _]] := slice_min s1; cbn [bind].
have [I1 [-> s4 h4]] := i_unsq1 s2; cbn [bind]; have [I2 [-> s5 h5]] := i_unsq1 s4; cbn [bind].
have [|I3 [-> s6 h6]] := @i_bc I2 Yn _ _ [:: J, K, F & B] s5 s3; first by rewrite /= bc2nn !bc21n /= bcastss.
cbn [bind]; have [rn [-> s7 _]] := slice_min sr; cbn [bind].
have [|I4 [-> s8 h8]] := @i_bc I1 rn _ _ [:: J, F & B] s4 s7; first by rewrite /= bc2nn !bc21n /= bcastss.
cbn [bind]; have [A [-> s9 h9]] := gather_ok2 s1 s6; cbn [bind]; have [At [-> s10 h10]] := transpose10 s9; cbn [bind].
have [b [-> s11 h11]] := gather_ok2 sr s8; cbn [bind]; have [b' [-> s12 h12]] := unsq0 b; rewrite s11 in s12; cbn [bind].
exists Yt, At, b'; split=> //; first by rewrite /rest s12; cbn [TorchShape.size List.nth_error bind]; case: (treshape_m1 _ At).
move=> x f i hi hf hx; split=> [k hk|].
  by rewrite h10 h9 h6 clip_cons // !clip1l (clip_id hi) h5 h4 h2 //; cbn [behead]; rewrite h1.
by rewrite h12 h11 h8 clip_cons // clip1l (clip_id hi) h4 h2.
Qed.
Lemma reshape2 (t : tensor C) a b s : (0 < a)%N -> (0 < b)%N -> sh t = [:: a, b & s] -> exists u, [/\ treshape_m1 [:: a; b] t = Ok u,
  sh u = [:: a; b; TorchShape.numel s] & forall x y m, (x < a)%N -> (y < b)%N -> at_ u [:: x; y; m] = at_ t [:: x, y & unflat s m]].
Proof.
move=> a0 b0 st; rewrite /treshape_m1 /TorchShape.reshape_m1 st.
have -> : TorchShape.numel [:: a; b] = (a * b)%N by rewrite !numel_cons /= muln1.
have -> : TorchShape.numel [:: a, b & s] = (TorchShape.numel s * (a * b))%N by rewrite !numel_cons mulnA mulnC.
have ab : (a * b)%N <> 0%N by nia.
have -> : Nat.eqb (a * b) 0 = false by apply/PeanoNat.Nat.eqb_neq.
rewrite (PeanoNat.Nat.mod_mul _ _ ab) (PeanoNat.Nat.div_mul _ _ ab).
eexists; split; [reflexivity|by []|] => x y m hx hy; cbn [at_]; congr (at_ t _).
by rewrite -(@unflat_cons2 a b s x y m hx hy) /= muln0.
Qed.
Lemma rest_at Yt A b : (0 < K)%N -> (K <= N)%N -> sh Yt = [:: N, K, F & B] -> (forall x y w i, at_ Yt [:: x, y, w & i] = at_ Y [:: x, w, y & i]) ->
  sh A = [:: K, K, F & B] -> sh b = [:: 1%N, K, F & B] ->
  match rest Yt A b with
  | Ok o => sh o = [:: N, F, K & B] /\ forall i (f : 'I_F), inr B i -> exists2 x : 'cV_K, torch_solve (mat K K A (nat_of_ord f :: i) + (10%:R ^- 5) *: 1%:M) (mat K 1 b (nat_of_ord f :: i)) = Ok x &
      forall (c : 'I_K) (n : 'I_N), at_ o [:: nat_of_ord n, nat_of_ord f, nat_of_ord c & i] = at_ Y [:: nat_of_ord n, nat_of_ord f, nat_of_ord c & i] * x c 0
  | Err e => exists i (f : 'I_F), inr B i /\ torch_solve (mat K K A (nat_of_ord f :: i) + (10%:R ^- 5) *: 1%:M) (mat K 1 b (nat_of_ord f :: i)) = Err e
  end.
Proof.
move=> K0 hKN s1 h1 sA sb; rewrite /rest.
have [Af [-> s2 h2]] := reshape2 K0 K0 sA; cbn [bind]; have [bf [-> s3 h3]] := reshape2 (ltn0Sn 0) K0 sb; cbn [bind]; cbv zeta.
have [|Al [e4 s4 h4]] := @zip_bc C +%R Af (tscale (10%:R ^- 5) (teye C K)) _ [:: K; K] [:: K; K; M] s2 erefl; first by rewrite /= !bc2nn.
rewrite /tadd e4; cbn [bind].
have hA x : (x < M)%N -> mat K K Al [:: x] = mat K K A (unflat (F :: B) x) + (10%:R ^- 5) *: 1%:M.
  move=> hx; apply/matrixP => r c; rewrite 2!mxE [in RHS]mxE [in RHS]mxE [in RHS]mxE h4.
  rewrite !clip_cons ?ltn_ord // -[clip [::] _]/([::] : seq nat) h2 ?ltn_ord //; congr (_ + _); cbn [at_ tscale tmap teye].
  by rewrite eq_sym.
have hb x : (x < M)%N -> mat K 1 bf [:: x] = mat K 1 b (unflat (F :: B) x).
  by move=> hx; apply/matrixP => r c; rewrite ord1 !mxE h3 ?ltn_ord.
have := solve_mat s4 s3; rewrite /lifts; case: (solve Al bf) => [c|e]; cbn [bind]; last first.
  case=> -[|x [|]] //=; rewrite ?andbF // andbT => hx.
  rewrite hA // hb //; have := @unflat_inr (F :: B) x hx; rewrite -[unflat _ _]/(_ :: unflat B (x %/ F)) -[inr _ _]/(_ && _) => /andP [hf hi] e1.
  by exists (unflat B (x %/ F)), (Ordinal hf).
case=> s5 h5.
have ne : TorchShape.numel (sh c) = TorchShape.numel [:: 1%N, K, F & B] by rewrite s5 !numel_cons; cbn [TorchShape.numel]; rewrite !muln1.
rewrite (reshapeE ne); cbn [bind].
set c' := mkT _ _.
have [|o [e6 s6 h6]] := @zip_bc C *%R Yt c' _ _ [:: N, K, F & B] s1 (erefl : sh c' = [:: 1%N, K, F & B]); first by rewrite /= bc2n1 !bc2nn /= bcastss.
rewrite /tmul e6; cbn [bind]; have [o' [-> s7 h7]] := transpose21 s6; split=> // i f hi.
have i1 : inr (F :: B) (nat_of_ord f :: i) by rewrite /= ltn_ord.
have hx := pb_flat_lt i1; have ix : inr [:: M] [:: flat (F :: B) (nat_of_ord f :: i)] by rewrite -[inr _ _]/(_ && true) hx.
move: (h5 _ ix); rewrite hA // hb // (unflatK i1) => ->.
exists (mat K 1 c [:: flat (F :: B) (nat_of_ord f :: i)]) => // k n; rewrite mxE h7 h6 clip_cons ?ltn_ord // clip1l.
have i2 : inr [:: K, F & B] [:: nat_of_ord k, nat_of_ord f & i] by rewrite /= !ltn_ord.
rewrite (clip_id i2) h1; congr (_ * _); rewrite /c'; cbn [at_]; congr (at_ c _); rewrite s5.
have i3 : inr [:: 1%N; K; M] [:: 0%N; nat_of_ord k; flat (F :: B) (nat_of_ord f :: i)] by rewrite -[inr _ _]/[&& true, _, _ & true] hx ltn_ord.
rewrite -(unflatK i3); congr unflat; rewrite -[LHS]/(0 + 1 * (nat_of_ord k + K * flat (F :: B) (nat_of_ord f :: i)))%N.
by rewrite -[RHS]/(0 + 1 * (nat_of_ord k + K * (flat (F :: B) (nat_of_ord f :: i) + M * 0)))%N muln0 addn0.
Qed.
Lemma rest_few Yt A b : (N < K)%N -> (0 < M)%N -> sh A = [:: K, N, F & B] -> sh b = [:: 1%N, N, F & B] ->
  exists e, rest Yt A b = Err e /\ (e = RuntimeError \/ ((K %| N * M)%N /\ e = LinAlgError)).
Proof.
move=> hNK M0 sA sb; rewrite /rest /treshape_m1 /TorchShape.reshape_m1 sA sb.
have K0 : K <> 0%N by lia.
have -> : TorchShape.numel [:: K; K] = (K * K)%N by rewrite !numel_cons /= muln1.
have -> : TorchShape.numel [:: 1%N; K] = K by rewrite !numel_cons /= muln1 mul1n.
have -> : TorchShape.numel [:: K, N, F & B] = (K * (N * M))%N by rewrite !numel_cons.
have -> : TorchShape.numel [:: 1%N, N, F & B] = (N * M)%N by rewrite !numel_cons mul1n.
rewrite (PeanoNat.Nat.mul_mod_distr_l _ _ _ K0 K0).
have -> : Nat.eqb (K * K) 0 = false by apply/PeanoNat.Nat.eqb_neq; nia.
have -> : Nat.eqb K 0 = false by apply/PeanoNat.Nat.eqb_neq.
case E: (Nat.eqb _ 0); last by exists RuntimeError; split=> //; left.
have e0 : Nat.modulo (N * M) K = 0%N by move/PeanoNat.Nat.eqb_eq: E; nia.
have hd : (K %| N * M)%N.
  by apply/dvdnP; exists (Nat.div (N * M) K); have := PeanoNat.Nat.div_mod (N * M) K K0; rewrite e0; nia.
rewrite e0 PeanoNat.Nat.eqb_refl (PeanoNat.Nat.div_mul_cancel_l _ _ _ K0 K0); cbn [bind]; cbv zeta.
set Q := Nat.div _ _.
set Af := mkT ([:: K; K] ++ [:: Q]) _; set bf := mkT ([:: 1%N; K] ++ [:: Q]) _.
have [|Al [e4 s4 h4]] := @zip_bc C +%R Af (tscale (10%:R ^- 5) (teye C K)) [:: K; K; Q] [:: K; K] [:: K; K; Q] erefl erefl; first by rewrite /= !bc2nn.
rewrite /tadd e4; cbn [bind].
have := solve_mat s4 (erefl : sh bf = [:: 1%N; K; Q]); rewrite /lifts; case: (solve Al bf) => [c [sc _]|e [i _]]; cbn [bind].
  exists RuntimeError; split; last by left.
  rewrite /reshape /TorchShape.reshape sc.
  have -> // : Nat.eqb (TorchShape.numel [:: 1%N; K; Q]) (TorchShape.numel [:: 1%N, K, F & B]) = false.
  apply/PeanoNat.Nat.eqb_neq; have := PeanoNat.Nat.div_mod (N * M) K K0; rewrite e0 -/Q.
  rewrite -[TorchShape.numel [:: 1%N; _; _]]/(1 * (K * (Q * 1)))%N -[TorchShape.numel [:: 1%N, _ & _]]/(1 * (K * M))%N; nia.
by rewrite /torch_solve; case: ifP => // _ [<-]; exists LinAlgError; split=> //; right.
Qed.
Lemma pb_few_frames : sh ref = [:: N, F & B] -> (N < K)%N -> (0 < M)%N ->
  exists e, t_projection_back argsort Y ref = Err e /\ (e = RuntimeError \/ ((K %| N * M)%N /\ e = LinAlgError)).
Proof.
move=> sr hNK M0; have K0 : 0%N <> K by lia.
have [Yt [A [b [_ -> sA sb _]]]] := system_at K0 sr.
have eJ : J = N by rewrite minnE; lia.
by rewrite eJ in sA sb; exact: rest_few.
Qed.
(* broadcasting of the reference is refused *)
Lemma pb_broadcast R : (0 < K)%N -> (0 < TorchShape.numel B)%N -> sh ref = [:: N, F & R] -> fits R B -> R <> B -> t_projection_back argsort Y ref = Err RuntimeError.
Proof.
move=> K0 B0 sr hR ne; have K1 : 0%N <> K by lia.
have [Yt [I [s1 h1 s2 h2 ->]]] := frames_at K1.
have [Yn [-> s3 _]] := slice_min s1; cbn [bind].
have [I1 [-> s4 h4]] := i_unsq1 s2; cbn [bind]; have [I2 [-> s5 h5]] := i_unsq1 s4; cbn [bind].
have [|I3 [-> s6 h6]] := @i_bc I2 Yn _ _ [:: J, K, F & B] s5 s3; first by rewrite /= bc2nn !bc21n /= bcastss.
cbn [bind]; have [rn [-> s7 _]] := slice_min sr; cbn [bind].
have bR : TorchShape.bcast B R = Ok B by rewrite fits_bcast_r.
have [|I4 [-> s8 h8]] := @i_bc I1 rn _ _ [:: J, F & B] s4 s7; first by rewrite /= bc2nn !bc21n /= bR.
cbn [bind]; have [A [-> s9 h9]] := gather_ok2 s1 s6; cbn [bind]; have [At [-> s10 h10]] := transpose10 s9; cbn [bind].
rewrite /tgather sr s8 /= !eqSS leqnn andTb; by rewrite fits_small.
Qed.

(* every element *)
Variable perm : ('I_N -> C) -> {perm 'I_N}.
Hypothesis hp : orders (@argsort N) perm.
Lemma sel_last b (h : (K <= N)%N) (x : 'I_K) : sel_at b x = last_frames h (perm (frame_mag (spec_at K F N Y b) tt)) x.
Proof.
rewrite /sel_at; have e : (N - J + x)%N = cast_ord (subnK h) (rshift (N - K) x) by rewrite /= minnE; lia.
by rewrite e valK; congr nat_of_ord; apply: hp.
Qed.
Lemma pb_batch : sh ref = [:: N, F & B] -> (0 < K)%N -> (K <= N)%N ->
  scaled B (t_projection_back argsort Y ref) (fun b => projection_back perm (spec_at K F N Y b) (ref_at F N ref b)).
Proof.
move=> sr K0 h; have K1 : 0%N <> K by lia.
have [Yt [A [b [[s1 h1] -> sA sb hv]]]] := system_at K1 sr.
have eJ : J = K by rewrite minnE; lia.
rewrite eJ in sA sb hv; have := rest_at K0 h s1 h1 sA sb.
have hA i (f : 'I_F) : inr B i -> mat K K A (nat_of_ord f :: i) = pb_system (spec_at K F N Y i) (last_frames h (perm (frame_mag (spec_at K F N Y i) tt))) tt f.
  move=> hi; apply/matrixP => x k; rewrite !mxE; have [hx _] := hv x f i hi (ltn_ord f) (ltn_ord x); by rewrite hx // sel_last.
have hb i (f : 'I_F) : inr B i -> mat K 1 b (nat_of_ord f :: i) = \col_j ref_at F N ref i tt f 0 (last_frames h (perm (frame_mag (spec_at K F N Y i) tt)) j).
  move=> hi; apply/matrixP => x k; rewrite ord1 !mxE; have [_ hx] := hv x f i hi (ltn_ord f) (ltn_ord x); by rewrite hx // sel_last.
rewrite /scaled; case: (rest _ _ _) => [o [so ho]|e [i [f [hi he]]]].
  split=> // i hi; rewrite (pb_open _ _ _ h); cbv zeta.
  pose X (f : 'I_F) := if torch_solve (mat K K A (nat_of_ord f :: i) + (10%:R ^- 5) *: 1%:M) (mat K 1 b (nat_of_ord f :: i)) is Ok x then x else 0.
  rewrite (@gather_ok _ _ _ _ (fun bf : unit * 'I_F => X bf.2)); last first.
    by case=> -[] f; rewrite /X; have [x ex _] := ho i f hi; rewrite ex -hA // -hb.
  eexists; [reflexivity|] => c f n; rewrite !mxE ffunE /X; by have [x -> hx] := ho i f hi; rewrite hx.
exists i => //; rewrite (pb_open _ _ _ h); cbv zeta.
rewrite hA // hb // in he; move: he; rewrite {1}/torch_solve; case: ifP => // hu [<-].
set g := (X in gather _ X).
have gE : g (tt, f) = Err LinAlgError by rewrite /g /torch_solve hu.
have [[[] f'] [e' [-> ge]]] := gather_err 0 gE; congr Err.
by move: ge; rewrite /g /torch_solve; case: ifP => // _ [].
Qed.
End Pb.
End T.
