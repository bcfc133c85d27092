(* torchiva/beamformer.py on whole tensors (any batch dimensions), statement by statement.
   ref_mic may be negative.  The generalized eigenvalue decomposition is applied to each
   matrix of the batch (LinalgModel.geigh). *)
From Coq Require Import String ZArith.
From mathcomp Require Import all_ssreflect all_algebra.
From Verif Require TorchShape.
From Verif Require Import CAlg Py LinalgModel BeamModel TensorModel TOpsModel TEighModel.
Set Implicit Arguments. Unset Strict Implicit. Unset Printing Implicit Defensive.
Import GRing.Theory Num.Theory.
Local Open Scope ring_scope.
Local Open Scope py_scope.
Local Open Scope string_scope.

Section TBeam.
Variable C : numClosedFieldType.
Variable eighO : forall n, eigh_oracle C n.     (* torch.linalg.eigh *)
Local Notation tensor := (tensor C).

(* eigenvectors of eigh(A, B), linalg.py:272-312 *)
Definition t_eigvec (A B : tensor) : result tensor := let* (_, eigvec) := t_eigh eighO A (Some B) in Ok eigvec.
(* masks[..., i, :, :] and beamformer.py:261-264, 286-289, 390-393, 489-492 *)
Definition t_cov (masks X : tensor) (i : Z) : result tensor :=
  let* mask := select 2 i masks in einsum [:: "sfn"; "cfn"; "dfn"] "sfcd" [:: mask; X; tmap conjC X].
(* beamformer.py:27-63 with ref_mic given *)
Definition t_mwf_bf (R_tgt R_noise : tensor) (ref_mic : Z) : result tensor :=
  let* A := tadd R_tgt R_noise in let* b := select 0 ref_mic R_tgt in solve_loaded A b (10%:R ^- 6).
(* torch.nn.functional.normalize(v, dim=-1) *)
Definition t_normalize (v : tensor) : result tensor :=
  let* s := tsum_keep 0 (tmap (fun x => `|x| ^+ 2) v) in
  tdiv v (tmap (fun x => clamp (sqrtC x) (10%:R ^- 12)) s).
(* beamformer.py:66-109 *)
Fixpoint t_power (n : nat) (Phi v : tensor) : result tensor :=
  if n is n'.+1 then
    let* v := einsum [:: "cd"; "d"] "c" [:: Phi; v] in
    let* v := t_normalize v in t_power n' Phi v
  else Ok v.
Definition t_mvdr_rtf (R_tgt R_noise : tensor) (ref_mic : Z) (power_iterations : option nat) : result tensor :=
  let* v := match power_iterations with
            | None => let* eigvec := t_eigvec R_tgt R_noise in select 0 (Zneg xH) eigvec
            | Some p =>
                let* Phi := solve_loaded R_noise R_tgt (10%:R ^- 5) in
                let* v := select 0 Z0 Phi in t_power (p - 1) Phi v
            end in
  let* sv := einsum [:: "cd"; "d"] "c" [:: R_noise; v] in
  let* scale := pick 0 ref_mic sv in
  tdiv sv scale.
(* beamformer.py:112-122 *)
Definition t_mvdr_bf (R_noise sv : tensor) (eps : C) : result tensor :=
  let* a := solve_loaded R_noise sv eps in
  let* denom := einsum [:: "c"; "c"] "" [:: tmap conjC sv; a] in
  let denom := tmap (fun x => clamp ('Re x) eps) denom in
  let* d := unsq 0 denom in tdiv a d.
(* beamformer.py:125-136 *)
Definition t_mvdr_bf2 (R_tgt R_noise : tensor) (ref_mic : Z) : result tensor :=
  let* num := solve R_noise R_tgt in
  let* dg := diagonal num in let* denom := tsum 0 dg in
  let* d := unsq 0 denom in let* d := unsq 0 d in
  let* w := tdiv num d in select 0 ref_mic w.
(* beamformer.py:139-158 *)
Definition t_gev_bf (R_tgt R_noise : tensor) (ref_mic : Z) : result tensor :=
  let* eigvec := t_eigvec R_tgt R_noise in
  let* n := TorchShape.size 0 (sh eigvec) in
  let* rhs := select 0 (Zneg xH) (teye C n) in let* rhs := unsq 0 rhs in
  let* Vh := hermite eigvec in
  let* steering_vector := solve Vh rhs in
  let* scale := select 1 ref_mic steering_vector in let* scale := transpose 2 1 scale in
  let* v := select 0 (Zneg xH) eigvec in let* v := transpose 2 1 v in
  tmul (tmap conjC v) scale.
Section Forward.
Variable mask_model : tensor -> result tensor.
(* beamformer.py:235-306 *)
Definition t_mvdr_forward (ty : mvdr_type) (ref_mic : Z) (eps : C) (n_power_iter : option nat) (X : tensor) : result tensor :=
  let* x := select 2 ref_mic X in
  let* masks := mask_model x in
  let* n_masks := TorchShape.size 2 (sh masks) in
  let* bf :=
    (if n_masks == 2%N then
       let* R_tgt := t_cov masks X Z0 in let* R_noise := t_cov masks X (Z.of_nat 1) in
       match ty with
       | Rtf => let* rtf := t_mvdr_rtf R_tgt R_noise ref_mic n_power_iter in t_mvdr_bf R_noise rtf eps
       | Scm => t_mvdr_bf2 R_tgt R_noise ref_mic
       | OtherType => raise UnboundLocalError
       end
     else if n_masks == 3%N then
       let* R_tgt := t_cov masks X Z0 in let* R_noise := t_cov masks X (Z.of_nat 1) in let* R_noise_2 := t_cov masks X (Z.of_nat 2) in
       let* rtf := t_mvdr_rtf R_tgt R_noise_2 ref_mic n_power_iter in t_mvdr_bf R_noise rtf eps
     else raise UnboundLocalError) in
  einsum [:: "cfn"; "sfc"] "sfn" [:: X; tmap conjC bf].
(* beamformer.py:367-418 *)
Definition t_mwf_forward (time_invariant : bool) (ref_mic : Z) (X : tensor) : result tensor :=
  let* x := select 2 ref_mic X in
  let* masks := mask_model x in
  let* R_tgt := t_cov masks X Z0 in let* R_noise := t_cov masks X (Z.of_nat 1) in
  if time_invariant then
    let* bf := t_mwf_bf R_tgt R_noise ref_mic in
    einsum [:: "cfn"; "sfc"] "sfn" [:: X; tmap conjC bf]
  else
    let* n_masks := TorchShape.size 2 (sh masks) in
    if n_masks != 4%N then raise AssertionError else
    let vary R i := let* V := select 2 i masks in
                    let* R := unsq 2 R in let* V := unsq 0 V in let* V := unsq 0 V in tmul R V in
    let* R_tgt := vary R_tgt (Z.of_nat 2) in let* R_noise := vary R_noise (Z.of_nat 3) in
    let* bf := t_mwf_bf R_tgt R_noise ref_mic in
    einsum [:: "cfn"; "sfnc"] "sfn" [:: X; tmap conjC bf].
(* beamformer.py:468-500 *)
Definition t_gev_forward (ref_mic : Z) (X : tensor) : result tensor :=
  let* x := select 2 ref_mic X in
  let* masks := mask_model x in
  let* R_tgt := t_cov masks X Z0 in let* R_noise := t_cov masks X (Z.of_nat 1) in
  let* gev_bf := t_gev_bf R_tgt R_noise ref_mic in
  let* Xt := transpose 2 1 X in
  let* Y := bmm gev_bf Xt in
  transpose 2 1 Y.
End Forward.
End TBeam.
