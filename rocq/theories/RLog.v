(* A logarithm on R[i] meeting log_like: non-vacuity of the hypothesis of C19, C41. *)
From Coq Require Import Reals Lra Psatz.
From mathcomp Require Import all_ssreflect all_algebra complex.
From Verif Require Import RField SrcSpec.
Set Implicit Arguments. Unset Strict Implicit. Unset Printing Implicit Defensive.
Import GRing.Theory Num.Theory Order.TTheory.
Local Open Scope ring_scope.

Definition CR : numClosedFieldType := [numClosedFieldType of R[i]].
Definition lnC (z : CR) : CR := (ln (complex.Re z))%:C%C.

Lemma ln_ineq (x y : R) : Rlt R0 x -> Rlt R0 y -> Rle (Rminus (ln y) (ln x)) (Rminus (Rdiv y x) R1).
Proof.
move=> x0 y0.
have h := exp_ineq1_le (Rminus (ln y) (ln x)).
have E : exp (Rminus (ln y) (ln x)) = Rdiv y x by rewrite exp_plus exp_Ropp !exp_ln.
by move: h; rewrite E; lra.
Qed.
Lemma lnC_log_like : log_like lnC.
Proof.
move=> [x xi] [y yi]; rewrite !ltcE /= => /andP [/eqP -> hx] /andP [/eqP -> hy].
have [x0 y0] : (Rlt R0 x) /\ (Rlt R0 y) by split; apply/RltbP.
have -> : (y +i* 0)%C / (x +i* 0)%C - 1 = ((y / x - 1)%R)%:C%C :> CR.
  have -> : (y +i* 0)%C / (x +i* 0)%C = ((y / x)%R)%:C%C :> CR by rewrite rmorphM /= fmorphV.
  by rewrite [RHS]rmorphB rmorph1.
rewrite /lnC /= -rmorphB lecR; apply/RlebP.
have := ln_ineq x0 y0.
rewrite /GRing.inv /= /Rinvx; case: eqP => [x1|_].
  by move: x0; rewrite x1 => /Rlt_irrefl.
by [].
Qed.
Print Assumptions lnC_log_like.
