(* The real power on R[i] meets pow_like: non-vacuity of the hypothesis of C38. *)
From Coq Require Import Reals Lra Psatz.
From mathcomp Require Import all_ssreflect all_algebra complex.
From Verif Require Import RField RLog PowSpec.
Set Implicit Arguments. Unset Strict Implicit. Unset Printing Implicit Defensive.
Import GRing.Theory Num.Theory Order.TTheory.
Local Open Scope ring_scope.

(* torch.pow for a non-negative base *)
Local Open Scope R_scope.
Definition rpow (x t : R) : R := if Req_EM_T x 0 then (if Req_EM_T t 0 then 1 else 0) else Rpower x t.
Local Close Scope R_scope.
Definition powC (x t : CR) : CR := (rpow (complex.Re x) (complex.Re t))%:C%C.

Local Open Scope R_scope.
Lemma rpow_pos x t : 0 < x -> rpow x t = Rpower x t.
Proof. by move=> h; rewrite /rpow; case: (Req_EM_T x 0) => [e|//]; lra. Qed.
Lemma rpow_zero t : 0 < t -> rpow 0 t = 0.
Proof. by move=> h; rewrite /rpow; destruct (Req_EM_T 0 0) as [z|z]; [destruct (Req_EM_T t 0) as [e|e]; [lra|done]|lra]. Qed.
Lemma Rpower_gt0 x t : 0 < Rpower x t. Proof. exact: exp_pos. Qed.
Lemma split0 x : 0 <= x -> x = 0 \/ 0 < x. Proof. lra. Qed.
Lemma rpow_ge0 x t : 0 <= x -> 0 < t -> 0 <= rpow x t.
Proof. move=> /split0 [->|h] t0; first by rewrite rpow_zero //; lra. by rewrite rpow_pos //; apply: Rlt_le; exact: Rpower_gt0. Qed.
Lemma rpow_nneg x t : 0 <= rpow x t.
Proof.
rewrite /rpow; destruct (Req_EM_T x 0) as [z|z]; first by destruct (Req_EM_T t 0) as [e|e]; cbn; lra.
exact: Rlt_le (exp_pos _).
Qed.
Lemma rpow1 x : 0 <= x -> rpow x 1 = x.
Proof. by move=> /split0 [->|h]; [rewrite rpow_zero //; lra|rewrite rpow_pos // Rpower_1]. Qed.
Lemma rpowD x s t : 0 <= x -> 0 < s -> 0 < t -> rpow x (s + t) = rpow x s * rpow x t.
Proof. by move=> /split0 [->|h] s0 t0; [rewrite !rpow_zero //; lra|rewrite !rpow_pos // Rpower_plus]. Qed.
Lemma rpowM x y t : 0 <= x -> 0 <= y -> 0 < t -> rpow (x * y) t = rpow x t * rpow y t.
Proof.
move=> /split0 [->|hx] /split0 [->|hy] t0; rewrite ?Rmult_0_l ?Rmult_0_r ?rpow_zero //; try lra.
by rewrite !rpow_pos ?Rpower_mult_distr //; apply: Rmult_lt_0_compat.
Qed.
Lemma rpowK x t : 0 <= x -> 0 < t -> rpow (rpow x t) (/ t) = x.
Proof.
move=> /split0 [->|h] t0; have ti := Rinv_0_lt_compat _ t0; first by rewrite !rpow_zero.
rewrite (rpow_pos _ h) rpow_pos; last exact: Rpower_gt0.
by rewrite Rpower_mult Rinv_r ?Rpower_1 //; lra.
Qed.
Lemma rpow_mono x y t : 0 <= x -> x < y -> 0 < t -> rpow x t < rpow y t.
Proof.
move=> /split0 [->|h] xy t0; first by rewrite rpow_zero // rpow_pos //; exact: Rpower_gt0.
rewrite !rpow_pos //; try lra. by apply: Rlt_Rpower_l; lra.
Qed.
Lemma rpow_bern x t : 0 <= x -> 0 < t -> t < 1 -> rpow x t <= 1 + t * (x - 1).
Proof.
move=> /split0 [->|h] t0 t1; first by rewrite rpow_zero //; lra.
rewrite rpow_pos // /Rpower; set L := ln x; have xE : x = exp L by rewrite exp_ln.
have e0 := exp_pos (t * L).
have h1 : exp (t * L) * (1 + (L - t * L)) <= x.
  have E : x = exp (t * L) * exp (L - t * L) by rewrite -exp_plus {1}xE; congr exp; ring.
  rewrite E; apply: Rmult_le_compat_l; [lra|exact: exp_ineq1_le].
have h2 : exp (t * L) * (1 + (- (t * L))) <= 1.
  have E : 1 = exp (t * L) * exp (- (t * L)) by rewrite -exp_plus Rplus_opp_r exp_0.
  rewrite [X in _ <= X]E; apply: Rmult_le_compat_l; [lra|exact: exp_ineq1_le].
have := Rmult_le_compat_l t _ _ (Rlt_le _ _ t0) h1.
have := Rmult_le_compat_l (1 - t) _ _ (ltac:(lra) : 0 <= 1 - t) h2; nra.
Qed.
Local Close Scope R_scope.

Lemma ge0C (z : CR) : 0 <= z -> exists2 x : R, Rle R0 x & z = (x%:C)%C.
Proof. case: z => x y; rewrite lecE /= => /andP [/eqP -> /RlebP h]; by exists x. Qed.
Lemma gt0C (z : CR) : 0 < z -> exists2 x : R, Rlt R0 x & z = (x%:C)%C.
Proof. case: z => x y; rewrite ltcE /= => /andP [/eqP -> /RltbP h]; by exists x. Qed.
Lemma ltC (x y : R) : ((x%:C)%C < (y%:C)%C :> CR) <-> Rlt x y.
Proof. by rewrite ltcR; split=> /RltbP. Qed.
Lemma invC (t : R) : Rlt R0 t -> ((t%:C)%C : CR)^-1 = ((Rinv t)%:C)%C.
Proof.
move=> t0; rewrite -fmorphV /=; congr (_%:C)%C; rewrite /GRing.inv /= /Rinvx; case: eqP => // e.
by move: t0; rewrite e => /Rlt_irrefl.
Qed.
Lemma powC_like : pow_like powC.
Proof.
split; first by move=> _ _ /ge0C [x x0 ->] /gt0C [t t0 ->]; rewrite lecR; apply/RlebP; exact: rpow_ge0.
split; first by move=> _ /ge0C [x x0 ->]; rewrite /powC /= rpow1.
split; first by move=> _ _ _ /ge0C [x x0 ->] /gt0C [s s0 ->] /gt0C [t t0 ->]; rewrite -rmorphD /powC /= -rmorphM; congr (_%:C)%C; exact: rpowD.
split; first by move=> _ _ _ /ge0C [x x0 ->] /ge0C [y y0 ->] /gt0C [t t0 ->]; rewrite -rmorphM /powC /= -rmorphM; congr (_%:C)%C; exact: rpowM.
split; first by move=> _ _ /ge0C [x x0 ->] /gt0C [t t0 ->]; rewrite (invC t0) /powC /=; congr (_%:C)%C; exact: rpowK.
split.
  move=> _ y _ /ge0C [x x0 ->] xy /gt0C [t t0 ->]; have : 0 <= y by apply: le_trans (ltW xy); rewrite lecR; apply/RlebP.
  by case/ge0C => v _ e; move: xy; rewrite e => /ltC xy; rewrite /powC /=; apply/ltC; exact: rpow_mono.
move=> _ t' /ge0C [x x0 ->] /andP [/gt0C [t t0 ->]]; rewrite -[1]/((R1%:C)%C : CR) => /ltC t1.
rewrite -rmorphB -rmorphM -rmorphD /powC /= lecR; apply/RlebP; exact: rpow_bern.
Qed.
Lemma powC_ge0 x t : 0 <= x -> 0 <= powC x t.
Proof. case/ge0C => v v0 ->; rewrite lecR; apply/RlebP; exact: rpow_nneg. Qed.
Print Assumptions powC_like.
