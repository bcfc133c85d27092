(* C38: the mixed norm.  See DESIGN.md and properties.jsonl. *)
From mathcomp Require Import all_ssreflect all_algebra complex.
From Verif Require Import CAlg Py ScalingModel PowSpec ScalingMixSpec ScalingMixProofs RField RLog RPow.
Set Implicit Arguments. Unset Strict Implicit. Unset Printing Implicit Defensive.
Import GRing.Theory Num.Theory.
Local Open Scope ring_scope.

(* p < q < 2: that an update does not increase the error is false (by far more than the
   smoothing by 1e-5); the weights are computed from the q-th powers of the errors in place of
   the errors *)
Theorem c38_mixed_refuted (C : numClosedFieldType) (pw : C -> C -> C) rtol : pow_like pw ->
  exists (Y : spec C unit_finType 1 1 4) (ref : refs C unit_finType 1 4) out,
    minimum_distortion pw Y ref (Some 1) (Some (3%:R / 2%:R)) rtol 1 = Ok out /\
    mixed_error pw 1 (3%:R / 2%:R) (ref tt) (Y tt 0) + 1000%:R^-1 <= mixed_error pw 1 (3%:R / 2%:R) (ref tt) (out tt 0).
Proof. move=> h; have [o ho] := mixed_witness h rtol; by exists (@Ym C), (@rm C), o. Qed.
Print Assumptions c38_mixed_refuted.
Example c38_mixed_example : pow_like powC /\
  exists (Y : spec CR unit_finType 1 1 4) (ref : refs CR unit_finType 1 4) out,
    minimum_distortion powC Y ref (Some 1) (Some (3%:R / 2%:R)) 0 1 = Ok out.
Proof. split; first exact: powC_like. by have [o [ho _]] := mixed_witness powC_like 0; exists (@Ym CR), (@rm CR), o. Qed.
