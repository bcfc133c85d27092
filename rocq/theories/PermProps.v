(* C67: the order of the microphones. *)
From mathcomp Require Import all_ssreflect all_algebra all_fingroup.
From Verif Require Import CAlg Py Batch LinalgModel TissModel BeamModel WpeModel PermSpec PermProofs PermBridge.
Set Implicit Arguments. Unset Strict Implicit. Unset Printing Implicit Defensive.
Import GRing.Theory Num.Theory Order.TTheory.
Local Open Scope ring_scope.

(* the reference is microphone ref of the new array, that is p ref of the old one *)
Theorem c67_mwf (C : numClosedFieldType) k nS nF nN (model : mask_model C nS nF nN) (X : sig C nF nN k.+1)
    (p : 'S_k.+1) ref eps ti :
  mwf_forward (reorder p X) model ref eps ti = mwf_forward X model (p ref) eps ti.
Proof. exact (mwf_fwd_prv p model X ref eps ti). Qed.
Print Assumptions c67_mwf.
Theorem c67_mvdr_scm (C : numClosedFieldType) (eighO : forall n, eigh_oracle C n) k nS nF nN
    (model : mask_model C nS nF nN) (X : sig C nF nN k.+1) (p : 'S_k.+1) ref eps pw mt mn :
  model (ref_channel X (p ref)) = [:: mt; mn] ->
  mvdr_forward eighO (reorder p X) model ref eps Scm pw = mvdr_forward eighO X model (p ref) eps Scm pw.
Proof. exact (@mvdr_scm_prv C eighO k p nS nF nN model X ref eps pw mt mn). Qed.
Print Assumptions c67_mvdr_scm.
(* WPE returns its channels in the order of the microphones; with a model, when the
   model does not depend on the order *)
Theorem c67_wpe (C : numClosedFieldType) nC nF nT dl nN (X : sig C nF nN nC) (p : 'S_nC) (St : Type)
    (model : option (St -> sig C nF nN nC -> ('I_nF -> 'rV[C]_nN) * St)) eps n m :
  (forall mo, model = Some mo -> symmetric_model mo) ->
  wpe_forward nT dl model (reorder p X) eps n m =
  rmap (fun r => (reorder p r.1, r.2)) (wpe_forward nT dl model X eps n m).
Proof. exact (fun h => @wpe_prv C nC nF nT dl nN p X eps St model h n X m). Qed.
Print Assumptions c67_wpe.
(* the steering vector found by power iterations depends on the order: they start from
   the first column *)
Theorem c67_rtf_refuted (C : numClosedFieldType) (eighO : forall n, eigh_oracle C n) :
  exists (Rt Rn : 'M[C]_2) (p : 'S_2) ref d d',
  [/\ compute_mvdr_rtf_eigh eighO Rt Rn (p ref) (Some 1%N) = Ok d,
      compute_mvdr_rtf_eigh eighO (\matrix_(i, j) Rt (p i) (p j)) (\matrix_(i, j) Rn (p i) (p j)) ref (Some 1%N) = Ok d' &
      exists i, d' i 0 != d (p i) 0].
Proof. exact (rtf_order eighO). Qed.
Print Assumptions c67_rtf_refuted.

(* two microphones exchanged *)
Example c67_example (C : numClosedFieldType) (X : sig C 1 1 2) f n : reorder (tperm 0 1) X f 0 n = X f 1 n.
Proof. by rewrite ffunE mxE tpermL. Qed.
Example c67_default (C : numClosedFieldType) (X : sig C 1 4 2) eps n :
  wpe_forward 1 0 None (reorder (tperm 0 1) X) eps n tt =
  rmap (fun r => (reorder (tperm 0 1) r.1, r.2)) (wpe_forward 1 0 None X eps n tt).
Proof. by apply: c67_wpe. Qed.
