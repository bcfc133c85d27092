(* The actual roots exp(-2 pi i / n) and the Hann window over the complex numbers: they meet the
   hypotheses of C43 and C45. *)
From Coq Require Import Reals Lra Psatz Lia.
From mathcomp Require Import all_ssreflect all_algebra complex zify.
From Verif Require Import RField RLog Py FftSpec StftModel StftSpec.
Set Implicit Arguments. Unset Strict Implicit. Unset Printing Implicit Defensive.
Import GRing.Theory Num.Theory Order.TTheory.
Local Open Scope ring_scope.

Definition angle (n k : nat) : R := Rdiv (Rmult (Rmult 2 PI) (INR k)) (INR n).
(* exp(-2 pi i / n) *)
Definition expi (n : nat) : CR := Complex (cos (angle n 1)) (Ropp (sin (angle n 1))).
(* scipy.signal.get_window("hann", n), which is periodic *)
Definition hann (n : nat) (j : nat) : CR := (Rdiv (Rminus 1 (cos (angle n j))) 2)%:C%C.

Lemma angleS n k : (0 < n)%N -> angle n k.+1 = Rplus (angle n 1) (angle n k).
Proof.
move=> n0; rewrite /angle S_INR; have h : INR n <> 0%R by apply: not_0_INR; lia.
by rewrite [INR 1]/=; field.
Qed.
Lemma expi_pow n k : (0 < n)%N -> expi n ^+ k = Complex (cos (angle n k)) (Ropp (sin (angle n k))) :> CR.
Proof.
move=> n0; elim: k => [|k IH].
  have -> : angle n 0 = R0 by rewrite /angle /= /Rdiv Rmult_0_r Rmult_0_l.
  by rewrite expr0 cos_0 sin_0 Ropp_0.
rewrite exprS IH angleS // /expi cos_plus sin_plus.
set a := cos _; set b := sin _; set c := cos _; set d := sin _.
rewrite [LHS]/GRing.mul /=; congr Complex; rewrite /GRing.add /GRing.opp /GRing.mul /=; ring.
Qed.
Lemma cos_lt1 x : Rlt 0 x -> Rlt x (Rmult 2 PI) -> Rlt (cos x) 1.
Proof.
move=> x0 x1; have -> : x = Rmult 2 (Rdiv x 2) by field.
have := sin_gt_0 (Rdiv x 2) ltac:(lra) ltac:(lra); rewrite cos_2a_sin; nra.
Qed.
Lemma expi_roots : unit_roots expi.
Proof.
move=> n n0; rewrite /primitive_root_of_unity n0 /=; apply/forallP => i; apply/eqP.
rewrite unity_rootE expi_pow //; have nR : Rlt 0 (INR n) by apply: lt_0_INR; lia.
apply/eqP/eqP => [[h _]|e].
- apply/eqP; rewrite eqn_leq ltn_ord /= leqNgt; apply/negP => lt.
  have : Rlt (cos (angle n i.+1)) 1; last by rewrite h => /Rlt_irrefl.
  have P := PI_RGT_0; have iR : Rlt 0 (INR i.+1) by apply: lt_0_INR; lia.
  have iN : Rlt (INR i.+1) (INR n) by apply: lt_INR; lia.
  apply: cos_lt1; rewrite /angle; first by apply: Rdiv_lt_0_compat; [nra|].
  by apply: (Rmult_lt_reg_r (INR n)) => //; rewrite /Rdiv Rmult_assoc Rinv_l; [nra|lra].
- have -> : angle n i.+1 = Rmult 2 PI by rewrite e /angle; field; lra.
  by rewrite cos_2PI sin_2PI Ropp_0.
Qed.

Lemma hann_big n j : (0 < n)%N -> (n <= 6 * j)%N -> (6 * j <= 5 * n)%N -> 4%:R^-1 <= hann n j :> CR.
Proof.
move=> n0 h1 h2; have nR : Rlt 0 (INR n) by apply: lt_0_INR; lia.
set x := Rdiv (Rmult PI (INR j)) (INR n).
have E : angle n j = Rmult 2 x by rewrite /angle /x; field; lra.
have P := PI_RGT_0.
have e6 : INR 6 = IZR 6 by rewrite /=; lra.
have e5 : INR 5 = IZR 5 by rewrite /=; lra.
have H1 : Rle (INR n) (Rmult 6 (INR j)) by rewrite -e6 -mult_INR; apply: le_INR; lia.
have H2 : Rle (Rmult 6 (INR j)) (Rmult 5 (INR n)) by rewrite -e6 -e5 -!mult_INR; apply: le_INR; lia.
have x1 : Rle (Rdiv PI 6) x.
  apply: (Rmult_le_reg_r (INR n)) => //; rewrite /x {2}/Rdiv Rmult_assoc Rinv_l ?Rmult_1_r; [nra|lra].
have x2 : Rle x (Rminus PI (Rdiv PI 6)).
  apply: (Rmult_le_reg_r (INR n)) => //; rewrite /x {1}/Rdiv Rmult_assoc Rinv_l ?Rmult_1_r; [nra|lra].
have s : Rle (Rdiv 1 2) (sin x).
  rewrite -sin_PI6; case: (Rle_lt_dec x (Rdiv PI 2)) => h.
    by apply: sin_incr_1; lra.
  by rewrite -(sin_PI_x x); apply: sin_incr_1; lra.
have G : Rle 1 (Rmult 4 (Rdiv (Rminus 1 (cos (angle n j))) 2)) by rewrite E cos_2a_sin; nra.
rewrite /hann; move: G; set r := Rdiv _ 2 => G.
rewrite -[_^-1]mul1r ler_pdivr_mulr ?ltr0n //.
have -> : r%:C%C * 4%:R = (r *+ 4)%:C%C :> CR by rewrite mulr_natr rmorphMn.
have -> : 1 = (1%:C)%C :> CR by [].
rewrite lecR; apply/RlebP.
by rewrite !mulrS mulr0n /GRing.add /= -[GRing.one _]/R1 -[GRing.zero _]/R0; lra.
Qed.
Lemma hann_good n hop : (0 < hop)%N -> (2 * hop <= n)%N -> good_window n hop (hann n).
Proof.
move=> h0 hn; split; first by move=> j; rewrite /hann complex_real.
split=> //; exists (n %/ 2 - hop %/ 2)%N; split; [lia|lia|lia|].
move=> j /andP [j1 j2].
have h : 4%:R^-1 <= hann n j :> CR by apply: hann_big; lia.
apply: (@lt_le_trans _ _ (4%:R^-1 ^+ 2)); last by rewrite ler_pexpn2r // nnegrE ?invr_ge0 ?ler0n // (le_trans _ h) ?invr_ge0 ?ler0n.
by rewrite exprVn ltf_pinv ?posrE ?exprn_gt0 ?ltr0n // -!natrX ltr_nat.
Qed.
