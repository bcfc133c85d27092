(* Property C73: batches in FIVE.  On whole tensors, FIVE computes for every element of a batch what
   it computes for that element alone, and what the model of one batch element computes. *)
From Coq Require Import String Ascii ZArith.
From mathcomp Require Import all_ssreflect all_algebra all_field.
From Verif Require TorchShape.
From Verif Require Import CAlg Py Batch LinalgModel TissModel LinalgProofs SrcModel FiveModel.
From Verif Require Import TensorModel TOpsModel TSpec TSepSpec TensorProofs TBatch TTissModel TSrcModel TFiveModel TFiveSpec TSrc2Proofs TSepBatch TFiveBatch.
Set Implicit Arguments. Unset Strict Implicit. Unset Printing Implicit Defensive.
Import GRing.Theory Num.Theory Order.TTheory.
Local Open Scope ring_scope.

(* ---- a batch against its elements alone.  tm and tm1 are the source model on the batch and on a
   single signal, m0 and m1 b their states at the start; z may be negative *)
Theorem c73_five_alone (C : numClosedFieldType) (eighO : forall n, eigh_oracle C n) k F N B (St St1 St2 : Type)
    (tm : St -> tensor C -> result (tensor C * St)) (tm1 : St2 -> tensor C -> result (tensor C * St2))
    (m : St1 -> 'M[C]_(F, N) -> 'M[C]_(F, N) * St1) inv inv1 rs rs1 (X : tensor C) z (mic : 'I_k.+1) m0 (m1 : seq nat -> St2)
    n_iter n_power_iter :
  extractor_as B tm m inv rs -> extractor_as [::] tm1 m inv1 rs1 -> sh X = [:: N, F.+1, k.+1 & B] -> (0 < TorchShape.numel B)%N ->
  mic_of z mic -> inv m0 -> (forall b, inr B b -> inv1 (m1 b) /\ rs1 (m1 b) [::] = rs m0 b) ->
  separately N F.+1 1 B (t_five_forward eighO tm n_iter (Some z) n_power_iter m0 X)
    (fun b => t_five_forward eighO tm1 n_iter (Some z) n_power_iter (m1 b) (alone X b)).
Proof. move=> h h1 sX ne hz i0 i1; exact (five_alone eighO h h1 sX ne hz i0 n_iter n_power_iter i1). Qed.
Print Assumptions c73_five_alone.

(* ---- every element of the result is what the model of one batch element, about which C26-C28,
   C62 and C63 speak, computes; an exception is the exception of an element *)
Theorem c73_five_model (C : numClosedFieldType) (eighO : forall n, eigh_oracle C n) k F N B (St St1 : Type)
    (tm : St -> tensor C -> result (tensor C * St)) (m : St1 -> 'M[C]_(F, N) -> 'M[C]_(F, N) * St1) inv rs (X : tensor C) z (mic : 'I_k.+1) m0
    n_iter n_power_iter :
  extractor_as B tm m inv rs -> sh X = [:: N, F.+1, k.+1 & B] -> (0 < TorchShape.numel B)%N -> mic_of z mic -> inv m0 ->
  lifts B [:: N, F.+1, 1 & B]%N (t_five_forward eighO tm n_iter (Some z) n_power_iter m0 X)
    (fun b => rmap (fun r => one_source r.1) (five_forward eighO m (sig_at F.+1 N k.+1 X b) mic n_power_iter n_iter (rs m0 b)))
    (sig_at F.+1 N 1).
Proof. move=> h sX ne hz i0; exact (five_lifts eighO h sX ne hz i0 n_iter n_power_iter). Qed.
Print Assumptions c73_five_model.

(* ---- with the eigendecomposition there is no exception *)
Theorem c73_five_total (C : numClosedFieldType) (eighO : forall n, eigh_oracle C n) k F N B (St St1 : Type)
    (tm : St -> tensor C -> result (tensor C * St)) (m : St1 -> 'M[C]_(F, N) -> 'M[C]_(F, N) * St1) inv rs (X : tensor C) z (mic : 'I_k.+1) m0 n_iter :
  extractor_as B tm m inv rs -> sh X = [:: N, F.+1, k.+1 & B] -> (0 < TorchShape.numel B)%N -> mic_of z mic -> inv m0 ->
  exists2 Y, t_five_forward eighO tm n_iter (Some z) None m0 X = Ok Y & sh Y = [:: N, F.+1, 1 & B]%N.
Proof. move=> h sX ne hz i0; exact (five_total eighO h sX ne hz i0 n_iter erefl). Qed.
Print Assumptions c73_five_total.

(* ---- with the NMF model: a batch, against each element alone with the draws it has in the batch *)
Theorem c73_five_nmf (C : numClosedFieldType) (eighO : forall n, eigh_oracle C n) k F N K B (X u v : tensor C) eps z (mic : 'I_k.+1) n_iter n_power_iter :
  (0 < F)%N -> (0 < N)%N -> sh X = [:: N, F.+1, k.+1 & B] -> (0 < TorchShape.numel B)%N -> mic_of z mic ->
  sh u = [:: K; F; TorchShape.numel B] -> sh v = [:: K; N; TorchShape.numel B] ->
  separately N F.+1 1 B (t_five_forward eighO (t_nmf eps) n_iter (Some z) n_power_iter (NFresh u v) X)
   (fun b => t_five_forward eighO (t_nmf eps) n_iter (Some z) n_power_iter (NFresh (draw_of B u b) (draw_of B v b)) (alone X b)).
Proof.
move=> F0 N0 sX ne hz su sv; have [i0 i1] := nmf_start2 eps su sv.
exact (five_alone eighO (@nmf_as2 C F N B K eps F0 N0) (@nmf_as2 C F N [::] K eps F0 N0) sX ne hz i0 n_iter n_power_iter i1).
Qed.
Print Assumptions c73_five_nmf.

(* ---- exceptions: too few power iterations, a microphone that does not exist, too few axes *)
Theorem c73_five_few_power_iterations (C : numClosedFieldType) (eighO : forall n, eigh_oracle C n) k F N B (St St1 : Type)
    (tm : St -> tensor C -> result (tensor C * St)) (m : St1 -> 'M[C]_(F, N) -> 'M[C]_(F, N) * St1) inv rs (X : tensor C) z (mic : 'I_k.+1) m0 n_iter p :
  extractor_as B tm m inv rs -> sh X = [:: N, F.+1, k.+1 & B] -> (0 < TorchShape.numel B)%N -> mic_of z mic -> inv m0 ->
  (forall s Z f j, 0 <= (m s Z).1 f j) -> (p <= 1)%N -> (0 < n_iter)%N ->
  t_five_forward eighO tm n_iter (Some z) (Some p) m0 X = Err UnboundLocalError.
Proof. move=> h sX ne hz i0 m0' p1 n0; exact (five_few eighO h sX ne hz i0 m0' (pw := Some p) p1 n0). Qed.
Print Assumptions c73_five_few_power_iterations.
Theorem c73_five_mic (C : numClosedFieldType) (eighO : forall n, eigh_oracle C n) (St : Type) (tm : St -> tensor C -> result (tensor C * St))
    n_iter z n_power_iter m0 (X : tensor C) N F k B :
  sh X = [:: N, F.+1, k.+1 & B] -> (Z.lt z (Z.opp (Z.of_nat k.+1)) \/ Z.le (Z.of_nat k.+1) z) ->
  t_five_forward eighO tm n_iter (Some z) n_power_iter m0 X = Err IndexError.
Proof. exact: five_bad_mic. Qed.
Print Assumptions c73_five_mic.
Theorem c73_five_axes (C : numClosedFieldType) (eighO : forall n, eigh_oracle C n) (St : Type) (tm : St -> tensor C -> result (tensor C * St))
    n_iter pb n_power_iter m0 (X : tensor C) : (size (sh X) < 3)%N -> t_five_forward eighO tm n_iter pb n_power_iter m0 X = Err ValueError.
Proof. exact: five_axes. Qed.
Print Assumptions c73_five_axes.

(* ---- examples: a batch of shape (3, 2) of two-microphone signals with five frequencies *)
Example c73_example_total (C : numClosedFieldType) (eighO : forall n, eigh_oracle C n) : exists2 Y,
  t_five_forward eighO (stateless (t_laplace (1 : C))) 7 (Some (Zneg xH)) None tt (ramp C) = Ok Y & sh Y = [:: 4; 5; 1; 2; 3]%N.
Proof.
exact (@c73_five_total C eighO 1 4 4 [:: 2; 3]%N _ _ _ _ _ _ (ramp C) (Zneg xH) (@Ordinal 2 1 isT) tt 7 (@laplace_as2 C 4 4 [:: 2; 3]%N 1) erefl isT erefl I).
Qed.
Example c73_example_gauss (C : numClosedFieldType) (eighO : forall n, eigh_oracle C n) : exists2 Y,
  t_five_forward eighO (stateless (t_gauss (1 : C))) 7 (Some Z0) None tt (ramp C) = Ok Y & sh Y = [:: 4; 5; 1; 2; 3]%N.
Proof.
exact (@c73_five_total C eighO 1 4 4 [:: 2; 3]%N _ _ _ _ _ _ (ramp C) Z0 (@Ordinal 2 0 isT) tt 7 (@gauss_as2 C 4 4 [:: 2; 3]%N 1) erefl isT erefl I).
Qed.
Example c73_example_alone (C : numClosedFieldType) (eighO : forall n, eigh_oracle C n) :
  separately 4 5 1 [:: 2; 3]%N (t_five_forward eighO (stateless (t_laplace (1 : C))) 2 (Some Z0) (Some 3%N) tt (ramp C))
   (fun b => t_five_forward eighO (stateless (t_laplace (1 : C))) 2 (Some Z0) (Some 3%N) tt (alone (ramp C) b)).
Proof.
exact (@c73_five_alone C eighO 1 4 4 [:: 2; 3]%N _ _ _ _ _ _ _ _ _ _ (ramp C) Z0 (@Ordinal 2 0 isT) tt (fun _ => tt) 2 (Some 3%N)
  (@laplace_as2 C 4 4 [:: 2; 3]%N 1) (@laplace_as2 C 4 4 [::] 1) erefl isT erefl I (fun _ _ => conj I erefl)).
Qed.
Example c73_example_nmf (C : numClosedFieldType) (eighO : forall n, eigh_oracle C n) : let u := tones C 3 4 6 in let v := tones C 3 4 6 in
  separately 4 5 1 [:: 2; 3]%N (t_five_forward eighO (t_nmf (1 : C)) 2 (Some Z0) None (NFresh u v) (ramp C))
   (fun b => t_five_forward eighO (t_nmf (1 : C)) 2 (Some Z0) None (NFresh (draw_of [:: 2; 3]%N u b) (draw_of [:: 2; 3]%N v b)) (alone (ramp C) b)).
Proof.
exact (@c73_five_nmf C eighO 1 4 4 3 [:: 2; 3]%N (ramp C) (tones C 3 4 6) (tones C 3 4 6) 1 Z0 (@Ordinal 2 0 isT) 2 None isT isT erefl isT erefl erefl erefl).
Qed.
Example c73_example_few (C : numClosedFieldType) (eighO : forall n, eigh_oracle C n) :
  t_five_forward eighO (stateless (t_laplace (1 : C))) 2 (Some Z0) (Some 1%N) tt (ramp C) = Err UnboundLocalError.
Proof.
apply (@c73_five_few_power_iterations C eighO 1 4 4 [:: 2; 3]%N _ _ _ _ _ _ (ramp C) Z0 (@Ordinal 2 0 isT) tt 2 1 (@laplace_as2 C 4 4 [:: 2; 3]%N 1) erefl isT erefl I).
- by move=> s Z f j; rewrite /= mxE divr_ge0 ?ler01 // ltW // clamp_gt0 ?ltr01 // ger0_real // mulr_ge0 ?ler0n // sqrtC_ge0 sumr_ge0 // => i _; rewrite mag_sqE exprn_ge0.
- by [].
- by [].
Qed.
Example c73_example_mic (C : numClosedFieldType) (eighO : forall n, eigh_oracle C n) :
  t_five_forward eighO (stateless (t_laplace (1 : C))) 2 (Some (Zpos (xO xH))) None tt (ramp C) = Err IndexError.
Proof.
have h : Z.le (Z.of_nat 2) (Zpos (xO xH)) by [].
exact (@c73_five_mic C eighO _ _ 2 (Zpos (xO xH)) None tt (ramp C) 4 4 1 [:: 2; 3]%N erefl (or_intror h)).
Qed.
Example c73_example_axes (C : numClosedFieldType) (eighO : forall n, eigh_oracle C n) :
  t_five_forward eighO (stateless (t_laplace (1 : C))) 2 (Some Z0) None tt (mkT [:: 4; 5]%N (fun _ => 1)) = Err ValueError.
Proof. exact (@c73_five_axes C eighO _ _ 2 (Some Z0) None tt (mkT [:: 4; 5]%N (fun _ => 1)) isT). Qed.
