(* minimum_distortion_l2 and minimum_distortion_l2_phase on batches. *)
From Coq Require Import String Ascii ZArith.
From mathcomp Require Import all_ssreflect all_algebra.
From mathcomp Require Import zify.
From Verif Require TorchShape ScalingModel.
From Verif Require Import CAlg Py Batch LinalgModel TensorModel TSpec TensorProofs TOpsModel TScalingModel TScalingSpec.
Set Implicit Arguments. Unset Strict Implicit. Unset Printing Implicit Defensive.
Import GRing.Theory Num.Theory Order.TTheory.
Local Open Scope ring_scope.
Arguments TorchShape.bc2 : simpl never.
Arguments Nat.eqb : simpl never.

Lemma cl n x : (x < n)%N -> (if n == 1%N then 0%N else x) = x.
Proof. by case: eqP => // ->; case: x. Qed.
Lemma clip1l s x i : clip (1%N :: s) (x :: i) = 0%N :: clip s i. Proof. by []. Qed.
Lemma fits_bcast R B : fits R B -> TorchShape.bcast R B = Ok B.
Proof.
elim: R B => [|n R IH] [|m B] //= /andP [h /IH ->]; case/orP: h => /eqP ->; by rewrite ?bc2nn ?bc21n.
Qed.
Lemma clip_fits R b : clip R b = bc_elem R b.
Proof. by elim: R b => [|n R IH] [|x b] //=; rewrite IH. Qed.
Lemma fits_refl B : fits B B. Proof. by elim: B => //= n B ->; rewrite eqxx. Qed.
Lemma bc_elem_id B b : inr B b -> bc_elem B b = b.
Proof. by rewrite -clip_fits; exact: clip_id. Qed.

Section T.
Variable C : numClosedFieldType.
Implicit Types (t u v : tensor C).
Lemma zip_bc f t u s1 s2 s : sh t = s1 -> sh u = s2 -> TorchShape.bcast s1 s2 = Ok s ->
  exists v, [/\ tzip f t u = Ok v, sh v = s & forall i, at_ v i = f (at_ t (clip s1 i)) (at_ u (clip s2 i))].
Proof. by move=> e1 e2 h; eexists; split; [apply: tzipE; rewrite e1 e2; exact: h|by []|rewrite /= e1 e2]. Qed.
Lemma tsum0 t n r : sh t = n :: r -> exists u, [/\ tsum 0 t = Ok u, sh u = r & forall i, at_ u i = \sum_(k < n) at_ t (nat_of_ord k :: i)].
Proof. by move=> st; rewrite (@tsumE _ _ _ n) ?st //; eexists; split; [reflexivity|by []|]. Qed.
Lemma tmean0 t n r : sh t = n :: r -> exists u, [/\ tmean 0 t = Ok u, sh u = r & forall i, at_ u i = (\sum_(k < n) at_ t (nat_of_ord k :: i)) / n%:R].
Proof. by move=> st; rewrite /tmean; have [u [-> su hu]] := tsum0 st; rewrite st; eexists; split; [reflexivity|by []|] => i /=; rewrite hu. Qed.
Lemma unsq0 t : exists u, [/\ unsq 0 t = Ok u, sh u = 1%N :: sh t & forall x i, at_ u (x :: i) = at_ t i].
Proof. by rewrite unsqE //; eexists; split; [reflexivity|by []|]. Qed.
Lemma unsq1 t n r : sh t = n :: r -> exists u, [/\ unsq 1 t = Ok u, sh u = [:: n, 1 & r]%N & forall x y i, at_ u [:: x, y & i] = at_ t (x :: i)].
Proof. by move=> st; rewrite unsqE ?st //; eexists; split; [reflexivity|by []|]. Qed.
Lemma unsq2 t n m r : sh t = [:: n, m & r] ->
  exists u, [/\ unsq 2 t = Ok u, sh u = [:: n, m, 1 & r]%N & forall x y z i, at_ u [:: x, y, z & i] = at_ t [:: x, y & i]].
Proof. by move=> st; rewrite unsqE ?st //; eexists; split; [reflexivity|by []|]. Qed.

Section Run.
Variables (K F N : nat) (B R : seq nat) (Y ref : tensor C).
Hypothesis sY : sh Y = [:: N, F, K & B].
Hypothesis sr : sh ref = [:: N, F & R].
Hypothesis hR : fits R B.
Let bR := fits_bcast hR.
Local Notation Yb b := (spec_at K F N Y b).
Local Notation rb b := (ref_at F N ref (bc_elem R b)).

Lemma l2_batch : exists2 o, t_md_l2 Y ref = Ok o & scales B o (fun b => ScalingModel.minimum_distortion_l2 (Yb b) (rb b)).
Proof.
rewrite /t_md_l2; have [r [-> s1 h1]] := unsq2 sr; cbn [bind].
have [|pr [e2 s2 h2]] := @zip_bc *%R (tmap conjC r) Y _ _ [:: N, F, K & B] s1 sY; first by rewrite /= !bc2nn bc21n /= bR.
rewrite /tmul e2; cbn [bind]; have [num [-> s3 h3]] := tsum0 s2; cbn [bind].
rewrite {1}/TorchShape.size {1}sY; cbn [List.nth_error bind].
have [dn [-> s4 h4]] := @tmean0 (tmap (@mag_sq C) Y) _ _ sY; cbn [bind].
set nm := tmap _ num.
have [|c [-> s5 h5]] := @zip_bc (fun x d => re_im_div x (clamp d (@t_eps_mdp C))) nm dn _ _ [:: F, K & B] s3 s4; first exact: bcastss.
cbn [bind]; have [c1 [-> s6 h6]] := unsq0 c; cbn [bind].
have [|o [-> s7 h7]] := @zip_bc *%R Y (tmap conjC c1) _ _ [:: N, F, K & B] sY (s6 : sh (tmap conjC c1) = _).
  by rewrite s5 /= bc2n1 !bc2nn /= bcastss.
exists o => //; split=> // b x f n hb.
have i2 : inr [:: F, K & B] [:: nat_of_ord f, nat_of_ord x & b] by rewrite /= !ltn_ord.
have i3 : inr [:: N, F, K & B] [:: nat_of_ord n, nat_of_ord f, nat_of_ord x & b] by rewrite /= !ltn_ord.
rewrite h7 (clip_id i3) mxE; congr (_ * _); first by rewrite mxE.
cbn [at_ tmap]; congr (_^*); rewrite s5 clip1l (clip_id i2) h6 h5 (clip_id i2).
rewrite /nm /re_im_div; cbn [at_ tmap]; rewrite h4 h3.
have eN : \sum_(k < N) at_ pr (nat_of_ord k :: [:: nat_of_ord f, nat_of_ord x & b]) = \sum_k (rb b tt f 0 k)^* * Yb b tt x f 0 k.
  apply: eq_bigr => k _; rewrite h2.
  have -> : clip [:: N, F, 1%N & R] [:: nat_of_ord k, nat_of_ord f, nat_of_ord x & b] = [:: nat_of_ord k, nat_of_ord f, 0%N & bc_elem R b].
    by rewrite -clip_fits /= !clip1.
  cbn [at_ tmap]; rewrite h1 !mxE clip_id //=; by rewrite !ltn_ord.
have eD : \sum_(k < N) at_ (tmap (@mag_sq C) Y) (nat_of_ord k :: [:: nat_of_ord f, nat_of_ord x & b]) = \sum_k mag_sq (Yb b tt x f 0 k).
  by apply: eq_bigr => k _; cbn [at_ tmap]; rewrite mxE.
by rewrite eN eD.
Qed.

Lemma phase_batch : exists2 o, t_md_phase Y ref = Ok o & scales B o (fun b => ScalingModel.minimum_distortion_l2_phase (Yb b) (rb b)).
Proof.
rewrite /t_md_phase; have [Yt [-> s0 h0]] := transpose21 sY; cbn [bind].
have [r [-> s1 h1]] := unsq1 sr; cbn [bind].
have [|pr [e2 s2 h2]] := @zip_bc *%R (tmap conjC r) Yt _ _ [:: N, K, F & B] s1 s0; first by rewrite /= !bc2nn bc21n /= bR.
rewrite /tmul e2; cbn [bind]; have [num [-> s3 h3]] := tmean0 s2; cbn [bind].
set c := tmap _ num; have [c1 [-> s6 h6]] := unsq0 c; cbn [bind].
have [|o [-> s7 h7]] := @zip_bc *%R Yt (tmap conjC c1) _ _ [:: N, K, F & B] s0 (s6 : sh (tmap conjC c1) = _).
  by rewrite /c /= s3 bc2n1 !bc2nn /= bcastss.
cbn [bind]; have [o' [-> s8 h8]] := transpose21 s7; exists o' => //; split=> // b x f n hb.
have i2 : inr [:: K, F & B] [:: nat_of_ord x, nat_of_ord f & b] by rewrite /= !ltn_ord.
have i3 : inr [:: N, K, F & B] [:: nat_of_ord n, nat_of_ord x, nat_of_ord f & b] by rewrite /= !ltn_ord.
rewrite h8 h7 (clip_id i3) h0 mxE; congr (_ * _); first by rewrite mxE.
cbn [at_ tmap]; congr (_^*); rewrite (s3 : sh c = _) clip1l (clip_id i2) h6.
rewrite /c /re_im_div; cbn [at_ tmap]; rewrite h3.
have eN : \sum_(k < N) at_ pr (nat_of_ord k :: [:: nat_of_ord x, nat_of_ord f & b]) = \sum_k (rb b tt f 0 k)^* * Yb b tt x f 0 k.
  apply: eq_bigr => k _; rewrite h2.
  have -> : clip [:: N, 1%N, F & R] [:: nat_of_ord k, nat_of_ord x, nat_of_ord f & b] = [:: nat_of_ord k, 0%N, nat_of_ord f & bc_elem R b].
    by rewrite -clip_fits /= !clip1.
  cbn [at_ tmap]; rewrite h1 !mxE clip_id ?h0 //=; by rewrite !ltn_ord.
by rewrite eN.
Qed.
End Run.
End T.
