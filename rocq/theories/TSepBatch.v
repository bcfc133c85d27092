(* T_ISS on a batch against its elements alone; success; microphones without a source. *)
From Coq Require Import String Ascii ZArith.
From mathcomp Require Import all_ssreflect all_algebra.
From mathcomp Require Import zify.
From Verif Require TorchShape.
From Verif Require Import CAlg Py Batch LinalgModel TissModel TissProofs2 TensorModel TOpsModel TSpec TSepSpec TensorProofs TEinsum TOpsProofs TWpeProofs TBatch TTissModel TTissProofs TTissBatch TTissRun TTissForward SrcModel TSrcModel TSrcProofs.
Set Implicit Arguments. Unset Strict Implicit. Unset Printing Implicit Defensive.
Import GRing.Theory Num.Theory Order.TTheory.
Local Open Scope ring_scope.
Arguments clip : simpl never.
Arguments TorchShape.bc2 : simpl never.
Arguments Nat.eqb : simpl never.

Section Sep.
Variable C : numClosedFieldType.
Local Notation tensor := (tensor C).
(* from the triple of results to one of its tensors *)
Lemma gives_proj (A U V : Type) (ok : A -> Prop) r s (res : result A) (g : seq nat -> result U) (rd : A -> seq nat -> U)
    (p : A -> tensor) (q : U -> V) (rv : tensor -> seq nat -> V) :
  gives ok r res g rd -> (forall a, ok a -> sh (p a) = s) -> (forall a b, q (rd a b) = rv (p a) b) ->
  lifts r s (rmap p res) (fun b => rmap q (g b)) rv.
Proof.
rewrite /gives; case: res => [a [oa ha]|e [b hb he]] h1 h2; last by exists b => //; rewrite he.
by split=> [|b hb]; [exact: h1|rewrite ha //= h2].
Qed.
Variables (nS nB F T dl N : nat) (B : seq nat).
Local Notation nC := (nS + nB)%N.
Variables (St St1 St2 : Type) (tm : St -> tensor -> result (tensor * St)) (tm1 : St2 -> tensor -> result (tensor * St2))
  (m : St1 -> sig C F N nS -> sig C F N nS * St1) (inv : St -> Prop) (inv1 : St2 -> Prop) (rs : St -> seq nat -> St1) (rs1 : St2 -> seq nat -> St1).
Hypothesis hm : source_as B tm m inv rs.
Hypothesis hm1 : source_as [::] tm1 m inv1 rs1.
Hypothesis N0 : (0 < N)%N.
Variables (X : tensor) (eps : C).
Hypothesis sX : sh X = [:: N, F, nC & B].
Variables (m0 : St) (m1 : seq nat -> St2).
Hypothesis i0 : inv m0.
Hypothesis i1 : forall b, inr B b -> inv1 (m1 b) /\ rs1 (m1 b) [::] = rs m0 b.
Variables (n_iter : nat) (n_src : option nat) (use_dmc : bool).
Hypothesis hn : n_src_is nS nB n_src.

Lemma pb_is_alone pb (ref : option 'I_nC) : pb_is B pb ref -> pb_is [::] pb ref.
Proof. by rewrite /pb_is; case: pb ref => [z|] [r|] // [h _]; split; [|left]. Qed.
Lemma tiss_one pb (ref : option 'I_nC) b : pb_is [::] pb ref -> inr B b ->
  gives (okR nS nB F N [::]) [::] (t_tiss_forward tm1 n_iter T dl n_src use_dmc pb eps (m1 b) (alone X b))
    (fun _ => rmap fst (forward T dl m (sig_at F N nC X b) eps n_iter use_dmc ref (rs m0 b))) (rdR nS nB F N).
Proof.
move=> hp hb; have [ib rb] := i1 hb.
have h := forward_at T dl hm1 N0 eps (alone_sh b sX) n_iter use_dmc ib hn hp.
move: h; move: (forward T dl m) (t_tiss_forward _ _ _ _ _ _ _ _ _ _) => fw res.
by apply: eq_gives => -[|//] _; rewrite alone_sig rb.
Qed.
Lemma tiss_alone_with nX nR (p : tensor * tensor * option tensor -> tensor) q pb (ref : option (ordinal nC)) : pb_is B pb ref ->
  (forall B' a, okR nS nB F N B' a -> sh (p a) = [:: nX, F, nR & B']) ->
  (forall a b, q (rdR nS nB F N a b) = sig_at F nX nR (p a) b) ->
  separately nX F nR B (rmap p (t_tiss_forward tm n_iter T dl n_src use_dmc pb eps m0 X))
    (fun b => rmap p (t_tiss_forward tm1 n_iter T dl n_src use_dmc pb eps (m1 b) (alone X b))).
Proof.
move=> hp hs hq; apply: separately_of.
  apply: (gives_proj (forward_at T dl hm N0 eps sX n_iter use_dmc i0 hn hp)) hq; exact: hs.
move=> b hb; apply: (gives_proj (tiss_one (pb_is_alone hp) hb)) hq; exact: hs.
Qed.
Lemma tiss_alone pb (ref : option (ordinal nC)) : pb_is B pb ref ->
  separately N F nS B (rmap (fun r => r.1.1) (t_tiss_forward tm n_iter T dl n_src use_dmc pb eps m0 X))
    (fun b => rmap (fun r => r.1.1) (t_tiss_forward tm1 n_iter T dl n_src use_dmc pb eps (m1 b) (alone X b))).
Proof. by move=> hp; apply: (tiss_alone_with (q := fun x => x.1.1) hp) => // B' a []. Qed.
Lemma tiss_alone_W pb (ref : option (ordinal nC)) : pb_is B pb ref ->
  separately nC F nS B (rmap (fun r => r.1.2) (t_tiss_forward tm n_iter T dl n_src use_dmc pb eps m0 X))
    (fun b => rmap (fun r => r.1.2) (t_tiss_forward tm1 n_iter T dl n_src use_dmc pb eps (m1 b) (alone X b))).
Proof. by move=> hp; apply: (tiss_alone_with (q := fun x => x.1.2) hp) => // B' a []. Qed.
Lemma tiss_total pb (ref : option (ordinal nC)) : 0 < eps -> pb_is B pb ref ->
  exists2 r, t_tiss_forward tm n_iter T dl n_src use_dmc pb eps m0 X = Ok r & okR nS nB F N B r.
Proof.
move=> e0 hp; have := forward_at T dl hm N0 eps sX n_iter use_dmc i0 hn hp; rewrite /gives.
case: (t_tiss_forward _ _ _ _ _ _ _ _ _ _) => [r [ok _]|e [b hb]]; first by exists r.
by have [r ->] := @forward_ok C nS nB F T dl N _ m (sig_at F N nC X b) eps e0 N0 n_iter use_dmc ref (rs m0 b).
Qed.
(* projection back as a last step *)
Lemma tiss_pb z : (0 < n_iter)%N -> t_tiss_forward tm n_iter T dl n_src use_dmc (Some z) eps m0 X =
  (let* (YW, J) := t_tiss_forward tm n_iter T dl n_src use_dmc None eps m0 X in
   let* a := t_projection_back_weights YW.2 J z in let* Y := tmul a YW.1 in Ok (Y, YW.2, J))%py.
Proof.
move=> n0; rewrite /t_tiss_forward n0 sX.
case: ifP => // _; cbv zeta; case: (pad_left _ _) => [xp|//]; cbn [bind]; case: (hankel_view _ _) => [xh|//]; cbn [bind].
case: (slice_last _ _ _) => [xb|//]; cbn [bind]; case: (if _ then _ else _) => [Cs|//]; cbn [bind].
case: (unsq _ _) => [ey|//]; cbn [bind]; case: (assign_all _ _) => [W|//]; cbn [bind].
case: (if Cs is Some _ then _ else _) => [J|//]; cbn [bind]; case: (t_demix_derev _ _ _ _) => [Y|//]; cbn [bind].
case: (t_iterate _ _ _) => [[[[[Y1 W1] H1] J1] m2]|//]; cbn [bind].
case: (if use_dmc then _ else _) => [Y2|//]; cbn [bind fst snd].
by case: (t_projection_back_weights _ _ _).
Qed.
Lemma pbw_far (W J : tensor) z : sh W = [:: nC, F, nS & B] -> sh J = [:: nS, F, nB & B] -> (0 < nB)%N ->
  Z.le (Z.of_nat nS) z -> Z.lt z (Z.of_nat nC) -> B <> [::] -> t_projection_back_weights W (Some J) z = Err RuntimeError.
Proof.
move=> sW sJ b0 le lt ne; rewrite /t_projection_back_weights {1}sW.
rewrite (_ : (nS < nC)%N); last by rewrite -{1}(addn0 nS) ltn_add2l.
have [W1 [-> sW1 hW1]] := slice_to0 sW; cbn [bind]; have [W2 [-> sW2 hW2]] := slice_from0 sW; cbn [bind].
have [D [-> sD hD]] := e_sfk sW2 sJ; cbn [bind].
have [D1 [e sD1 hD1]] := tzip_same +%R sD sW1; rewrite /tadd e; cbn [bind].
have -> : Z.ltb z (Z.of_nat nS) = false by apply/Z.ltb_spec0; lia.
rewrite (@pickE _ 2 _ J nB) ?sJ //; last by rewrite /TorchShape.valid; lia.
cbn [bind]; rewrite /permute_213; cbn [sh]; by case: (B) ne.
Qed.
Lemma tiss_far_mic z : 0 < eps -> (0 < n_iter)%N -> B <> [::] -> Z.le (Z.of_nat nS) z -> Z.lt z (Z.of_nat nC) ->
  t_tiss_forward tm n_iter T dl n_src use_dmc (Some z) eps m0 X = Err RuntimeError.
Proof.
move=> e0 n0 ne le lt; rewrite tiss_pb //.
have [[[Y W] J] -> [sY sW jJ]] := @tiss_total None None e0 I; cbn [bind fst snd] in sY, sW, jJ |- *.
have b0 : (0 < nB)%N by lia.
case: J jJ => [J [_ sJ]|b1]; last by exfalso; move: b0; rewrite (b1 : nB = 0%N).
by rewrite pbw_far.
Qed.
End Sep.

(* ---- NMF: an element alone with the draws that it has in the batch *)
Section NmfAlone.
Variable C : numClosedFieldType.
Variables (K F N nS : nat) (B : seq nat).
Definition draws_of (t : tensor C) (b : seq nat) : tensor C :=
  mkT [:: nth 0%N (sh t) 0; nth 0%N (sh t) 1; nS] (fun i => at_ t [:: nth 0%N i 0; nth 0%N i 1; flat (nS :: B) (nth 0%N i 2 :: b)]).
Lemma nmf_start eps (u v : tensor C) : sh u = [:: K; F; TorchShape.numel (nS :: B)] -> sh v = [:: K; N; TorchShape.numel (nS :: B)] ->
  nmf_inv F N nS K eps B (NFresh u v) /\ forall b, inr B b ->
   nmf_inv F N nS K eps [::] (NFresh (draws_of u b) (draws_of v b)) /\
   nmf_rs F N nS K [::] (NFresh (draws_of u b) (draws_of v b)) [::] = nmf_rs F N nS K B (NFresh u v) b.
Proof.
move=> su sv; split=> // b hb; split; first by split; rewrite numel_cons [TorchShape.numel [::]]/= muln1 /draws_of ?su ?sv.
apply/ffunP => s; rewrite !ffunE; cbv zeta; rewrite (_ : flat [:: nS] [:: nat_of_ord s] = s); last by rewrite -[LHS]/(s + nS * 0)%N muln0 addn0.
congr nmf_init; apply/matrixP => x k; by rewrite !matE.
Qed.
End NmfAlone.
Definition tones (C : numClosedFieldType) k f b : tensor C := mkT [:: k; f; b] (fun i => (nth 0%N i 0 + nth 0%N i 1).+1%:R).
Lemma tiss_nmf_value (C : numClosedFieldType) nS nB F T dl N K B (X u v : tensor C) eps1 eps n_iter n_src use_dmc pb (ref : option 'I_(nS + nB)) b n f s :
  (0 < F)%N -> (0 < N)%N -> sh X = [:: N, F, nS + nB & B]%N -> sh u = [:: K; F; TorchShape.numel (nS :: B)] -> sh v = [:: K; N; TorchShape.numel (nS :: B)] ->
  n_src_is nS nB n_src -> 0 < eps -> pb_is B pb ref -> inr B b -> (n < N)%N -> (f < F)%N -> (s < nS)%N -> exists Y Y1, [/\
  t_tiss_forward (t_nmf eps1) n_iter T dl n_src use_dmc pb eps (NFresh u v) X = Ok Y,
  t_tiss_forward (t_nmf eps1) n_iter T dl n_src use_dmc pb eps (NFresh (draws_of nS B u b) (draws_of nS B v b)) (alone X b) = Ok Y1 &
  at_ Y1.1.1 [:: n; f; s]%N = at_ Y.1.1 [:: n, f, s & b]%N].
Proof.
move=> F0 N0 sX su sv hn e0 hp hb hn1 hf hs; have [i0 i1] := nmf_start eps1 su sv.
have [Y e _] := tiss_total T dl (@nmf_as C F N nS K eps1 B F0 N0) N0 sX i0 n_iter use_dmc hn e0 hp.
have := tiss_alone T dl (@nmf_as C F N nS K eps1 B F0 N0) (@nmf_as C F N nS K eps1 [::] F0 N0) N0 eps sX i0 i1 n_iter use_dmc hn hp.
rewrite e => -[_ /(_ b hb) [Y1 [+ _ h]]].
case e1: (t_tiss_forward _ _ _ _ _ _ _ _ _ (alone X b)) => [r|] // [er]; exists Y, r; split=> //.
by rewrite er; apply: h.
Qed.
