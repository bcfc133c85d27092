(* The power iterations start from the first microphone. *)
From mathcomp Require Import all_ssreflect all_algebra all_fingroup.
From Verif Require Import CAlg Py Batch LinalgModel LinalgProofs TissModel BeamModel LinalgBridge PermSpec PermProofs.
Set Implicit Arguments. Unset Strict Implicit. Unset Printing Implicit Defensive.
Import GroupScope GRing.Theory Num.Theory Order.TTheory.
Local Open Scope ring_scope.
Local Open Scope py_scope.
Section R.
Variable C : numClosedFieldType.
Variable eighO : forall n, eigh_oracle C n.
Definition Rt2 : 'M[C]_2 := \matrix_(i, j) (if i == j then 2%:R else 1).
Lemma steer ref : compute_mvdr_rtf_eigh eighO Rt2 1%:M ref (Some 1%N) = Ok (\col_i (Rt2 i 0 / Rt2 ref 0)).
Proof.
rewrite /compute_mvdr_rtf_eigh /rtf_vector /solve_loaded /=.
set l := load_factor _ _; have l0 : 0 < l by apply: load_factor_gt0; rewrite invr_gt0 exprn_gt0 // ltr0n.
have l1 : 0 < 1 + l by rewrite addr_gt0 ?ltr01.
rewrite scalemx1 -rmorphD /= torch_solveE; last by rewrite unitmxE det_scalar unitfE expf_neq0 // lt0r_neq0.
rewrite /= invmx_scalar mul1mx mul_scalar_mx; congr Ok; apply/matrixP=> i j; rewrite !mxE.
have q : (1 + l)^-1 != 0 by rewrite invr_eq0 lt0r_neq0.
by rewrite invfM mulrACA mulVf // mul1r mulrC.
Qed.
Lemma rtf_order : exists (Rt Rn : 'M[C]_2) (p : 'S_2) ref d d',
  [/\ compute_mvdr_rtf_eigh eighO Rt Rn (p ref) (Some 1%N) = Ok d,
      compute_mvdr_rtf_eigh eighO (\matrix_(i, j) Rt (p i) (p j)) (\matrix_(i, j) Rn (p i) (p j)) ref (Some 1%N) = Ok d' &
      exists i, d' i 0 != d (p i) 0].
Proof.
exists Rt2, 1%:M, (tperm 0 1), 1; eexists; eexists; split.
- exact: steer.
- have -> : \matrix_(i, j) Rt2 (tperm 0 1 i) (tperm 0 1 j) = Rt2.
    by apply/matrixP=> i j; rewrite !mxE (inj_eq (@perm_inj _ _)).
  have -> : \matrix_(i, j) (1%:M : 'M[C]_2) (tperm 0 1 i) (tperm 0 1 j) = 1%:M.
    by apply/matrixP=> i j; rewrite !mxE (inj_eq (@perm_inj _ _)).
  exact: steer.
exists 0; rewrite tpermL tpermR !mxE /= divr1 div1r -(inj_eq (mulIf (_ : 2%:R != 0))) ?pnatr_eq0 //.
by rewrite mulVf ?pnatr_eq0 // -natrM -[1]/(1%:R) eqr_nat.
Qed.
End R.
