(* The scaling functions on a batch against each recording alone; documented layouts. *)
From Coq Require Import String Ascii ZArith.
From mathcomp Require Import all_ssreflect all_fingroup all_algebra.
From mathcomp Require Import zify.
From Verif Require TorchShape.
From Verif Require Import CAlg Py Batch LinalgModel ScalingModel TensorModel TSpec TensorProofs TOpsModel TOpsProofs TScalingModel TScalingSpec TScalingProofs TScalingLoop TScalingRun TScalingPb.
Set Implicit Arguments. Unset Strict Implicit. Unset Printing Implicit Defensive.
Import GRing.Theory Num.Theory Order.TTheory.
Local Open Scope ring_scope.
Arguments TorchShape.bc2 : simpl never.
Arguments Nat.eqb : simpl never.
Arguments clip : simpl never.

Section T.
Variable C : numClosedFieldType.
Section Sep.
Variables (K F N : nat) (B R : seq nat) (Y ref : tensor C).
Hypothesis sY : sh Y = [:: N, F, K & B].
Hypothesis sr : sh ref = [:: N, F & R].
Hypothesis hR : fits R B.
Lemma s1 b : sh (alone Y b) = [:: N; F; K]. Proof. by rewrite /alone sY /= take0. Qed.
Lemma s2 b : sh (ref_alone ref b) = [:: N; F]. Proof. by rewrite /ref_alone sr /= take0. Qed.
Lemma l2_sep : separately N F K B (t_md_l2 Y ref) (fun b => t_md_l2 (alone Y b) (ref_alone ref (bc_elem R b))).
Proof.
have [o e [so ho]] := l2_batch sY sr hR; rewrite e; split=> // b hb.
have [o1 e1 [so1 ho1]] := l2_batch (s1 b) (s2 (bc_elem R b)) (erefl : fits [::] [::]).
exists o1; split=> // n f s hn hf hs.
rewrite -[n]/(nat_of_ord (Ordinal hn)) -[f]/(nat_of_ord (Ordinal hf)) -[s]/(nat_of_ord (Ordinal hs)).
by rewrite ho // ho1.
Qed.
Lemma phase_sep : separately N F K B (t_md_phase Y ref) (fun b => t_md_phase (alone Y b) (ref_alone ref (bc_elem R b))).
Proof.
have [o e [so ho]] := phase_batch sY sr hR; rewrite e; split=> // b hb.
have [o1 e1 [so1 ho1]] := phase_batch (s1 b) (s2 (bc_elem R b)) (erefl : fits [::] [::]).
exists o1; split=> // n f s hn hf hs.
rewrite -[n]/(nat_of_ord (Ordinal hn)) -[f]/(nat_of_ord (Ordinal hf)) -[s]/(nat_of_ord (Ordinal hs)).
by rewrite ho // ho1.
Qed.
(* the iterative one: all elements make the same number of steps *)
Variable pw : C -> C -> C.
Hypothesis pw_ge0 : forall x y, 0 <= x -> 0 <= pw x y.
Variable St : Type.
Lemma md_sep p q rtol n (st : St) : good_exponents p q -> exists k o, [/\ (minn 2 n <= k <= n)%N, rtol <= 0 -> k = n,
  t_minimum_distortion pw None (Some p) q rtol Y ref n st = Ok (o, st) &
  separately N F K B (Ok o) (fun b => let* r := t_minimum_distortion pw None (Some p) q 0 (alone Y b) (ref_alone ref (bc_elem R b)) k st in Ok r.1)%py].
Proof.
move=> hg; have [k [o [e so hk hr ho]]] := md_batch pw_ge0 sY sr hR rtol n st hg.
exists k, o; split=> //; split=> // b hb.
have [k1 [o1 [e1 so1 hk1 hr1 ho1]]] := md_batch pw_ge0 (s1 b) (s2 (bc_elem R b)) (erefl : fits [::] [::]) 0 k st hg.
rewrite (hr1 (lexx 0)) in ho1; rewrite e1; cbn [bind fst]; exists o1; split=> // x f s hn hf hs.
rewrite -[x]/(nat_of_ord (Ordinal hn)) -[f]/(nat_of_ord (Ordinal hf)) -[s]/(nat_of_ord (Ordinal hs)).
have [out h1 h2] := ho b hb; have [out1 h3 h4] := ho1 [::] isT.
move: h3; rewrite -[minimum_distortion _ _ _ _ _ _ _]/(minimum_distortion pw (spec_at K F N Y b) (ref_at F N ref (bc_elem R b)) (Some p) q 0 k) h1 => -[e'].
by rewrite h2 h4 e'.
Qed.
End Sep.

Section SepPb.
Variables (K F N : nat) (B : seq nat) (Y ref : tensor C).
Hypothesis sY : sh Y = [:: N, F, K & B].
Hypothesis sr : sh ref = [:: N, F & B].
Variable argsort : forall n, ('I_n -> C) -> 'I_n -> 'I_n.
Variable perm : ('I_N -> C) -> {perm 'I_N}.
Hypothesis hp : orders (@argsort N) perm.
Lemma order_ext g g' (i : 'I_N) : g =1 g' -> argsort g i = argsort g' i.
Proof. by move=> h; rewrite (hp h) (hp (frefl g')). Qed.
Lemma pb_all : (0 < K)%N -> (K <= N)%N -> scaled B (t_projection_back argsort Y ref) (fun b => projection_back perm (spec_at K F N Y b) (ref_at F N ref b)).
Proof. by move=> K0 h; apply: pb_batch => //; exact: order_ext. Qed.
End SepPb.
Lemma pb_sep K F N B (Y ref : tensor C) argsort perm : sh Y = [:: N, F, K & B] -> sh ref = [:: N, F & B] -> orders (argsort N) perm -> (0 < K)%N -> (K <= N)%N ->
  separately N F K B (t_projection_back argsort Y ref) (fun b => t_projection_back argsort (alone Y b) (ref_alone ref b)).
Proof.
move=> sY sr hp K0 h; have := pb_all sY sr hp K0 h.
have hone b : scaled [::] (t_projection_back argsort (alone Y b) (ref_alone ref b)) (fun _ => projection_back perm (spec_at K F N Y b) (ref_at F N ref b)).
  have := pb_all (s1 sY b) (s2 sr b) hp K0 h; rewrite /scaled; case: (t_projection_back _ _ _) => [o [so ho]|e [i hi he]].
    by split=> // -[|x i] // _; exact: (ho [::] isT).
  by exists [::] => //; case: i hi he.
rewrite /scaled; case: (t_projection_back _ Y ref) => [o [so ho]|e [b hb he]].
  split=> // b hb; have [out h1 h2] := ho b hb; have := hone b; rewrite /scaled; case: (t_projection_back _ _ _) => [o1 [so1 ho1]|e [_ _]]; last by rewrite h1.
  exists o1; split=> // n f s hn hf hs; have [out1] := ho1 [::] isT; rewrite h1 => -[<-] h4.
  rewrite -[n]/(nat_of_ord (Ordinal hn)) -[f]/(nat_of_ord (Ordinal hf)) -[s]/(nat_of_ord (Ordinal hs)).
  by rewrite h2 h4.
exists b => //; have := hone b; rewrite /scaled; case: (t_projection_back _ _ _) => [o1 [so1 /(_ [::] isT) [out]]|e' [_ _]]; rewrite he // => -[->].
by [].
Qed.

(* ---- the layout in the documentation of minimum_distortion *)
Lemma bc2_bad a b : a <> 1%N -> b <> 1%N -> a <> b -> TorchShape.bc2 a b = Err RuntimeError.
Proof. by move=> h1 h2 h3; rewrite /TorchShape.bc2 !eqbE; case: eqP => // _; case: eqP => // _; case: eqP. Qed.
Lemma doc_layout pw St (m : option (St -> tensor C -> result (tensor C * St))) p q rtol K F N (Y ref : tensor C) n st :
  sh Y = [:: N; K; F] -> sh ref = [:: F; N] -> N <> F -> N <> 1%N -> F <> 1%N ->
  t_minimum_distortion pw m p q rtol Y ref n.+1 st = Err RuntimeError.
Proof.
move=> sY sr nf n1 f1; rewrite /t_minimum_distortion; case: ifP => _.
  rewrite /t_md_l2; have [r [-> s3 _]] := unsq2 sr; cbn [bind]; rewrite /tmul /tzip s3 sY; cbn [TorchShape.bcast].
  by rewrite bc2_bad // => e; apply: nf.
rewrite sY /=; have [Yt [-> s3 _]] := transpose21 sY; cbn [bind]; rewrite /t_error; have [r [-> s4 _]] := unsq1 sr; cbn [bind]; rewrite s3.
set c0 := mkT _ _; have [c1 [-> s5 _]] := unsq0 c0; cbn [bind].
have [|cY [e6 s6 _]] := @zip_bc C *%R c1 Yt _ _ [:: N; F; K] s5 s3; first by rewrite /= bc21n !bc2nn.
rewrite /tmul e6; cbn [bind]; rewrite /tsub /tzip s4 s6; cbn [TorchShape.bcast].
by rewrite bc2_bad // => e; apply: nf.
Qed.
Lemma doc_layout2 pw St (m : option (St -> tensor C -> result (tensor C * St))) p q rtol K F N (Y ref : tensor C) n st :
  sh Y = [:: N; K; F] -> sh ref = [:: N; F] -> K <> F -> K <> 1%N -> F <> 1%N ->
  t_minimum_distortion pw m p q rtol Y ref n.+1 st = Err RuntimeError.
Proof.
move=> sY sr nf n1 f1; rewrite /t_minimum_distortion; case: ifP => _.
  rewrite /t_md_l2; have [r [-> s3 _]] := unsq2 sr; cbn [bind]; rewrite /tmul /tzip s3 sY; cbn [TorchShape.bcast].
  by rewrite bc2nn /= bc2_bad // => e; apply: nf.
rewrite sY /=; have [Yt [-> s3 _]] := transpose21 sY; cbn [bind]; rewrite /t_error; have [r [-> s4 _]] := unsq1 sr; cbn [bind]; rewrite s3.
set c0 := mkT _ _; have [c1 [-> s5 _]] := unsq0 c0; cbn [bind].
have [|cY [e6 s6 _]] := @zip_bc C *%R c1 Yt _ _ [:: N; F; K] s5 s3; first by rewrite /= bc21n !bc2nn.
rewrite /tmul e6; cbn [bind]; rewrite /tsub /tzip s4 s6; cbn [TorchShape.bcast].
by rewrite bc2nn /= bc21n /= bc2_bad // => e; apply: nf.
Qed.
Lemma doc_layouts pw St (m : option (St -> tensor C -> result (tensor C * St))) p q rtol K F N (Y ref : tensor C) n st :
  sh Y = [:: N; K; F] -> N <> 1%N -> F <> 1%N -> K <> 1%N -> N <> F -> K <> F ->
  sh ref = [:: F; N] \/ sh ref = [:: N; F] -> t_minimum_distortion pw m p q rtol Y ref n.+1 st = Err RuntimeError.
Proof. by move=> sY n1 f1 k1 nf kf [sr|sr]; [exact: (doc_layout _ _ _ _ _ _ _ sY sr)|exact: (doc_layout2 _ _ _ _ _ _ _ sY sr)]. Qed.
End T.
