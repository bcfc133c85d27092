(* Property C71: batches in AuxIVA_IP.  On whole tensors, with the einsum strings, slices,
   concatenations and broadcasts of the code, AuxIVA_IP computes for every element of a batch what
   it computes for that element alone, and what the model of one batch element computes. *)
From Coq Require Import String Ascii ZArith.
From mathcomp Require Import all_ssreflect all_algebra all_field.
From Verif Require TorchShape.
From Verif Require Import CAlg Py Batch LinalgModel TissModel SrcModel PhaseSpec IvaModel.
From Verif Require Import TensorModel TOpsModel TSpec TSepSpec TensorProofs TBatch TTissModel TSrcModel TIpModel TSrcProofs TSepBatch TIpRun TIpBatch.
Set Implicit Arguments. Unset Strict Implicit. Unset Printing Implicit Defensive.
Import GRing.Theory Num.Theory Order.TTheory.
Local Open Scope ring_scope.

(* ---- a batch against its elements alone.  tm and tm1 are the source model on the batch and on a
   single signal, m0 and m1 b their states at the start *)
Theorem c71_ip_alone (C : numClosedFieldType) nS nB F N B (St St1 St2 : Type)
    (tm : St -> tensor C -> result (tensor C * St)) (tm1 : St2 -> tensor C -> result (tensor C * St2))
    (m : St1 -> sig C F N nS -> sig C F N nS * St1) inv inv1 rs rs1 (X : tensor C) eps m0 (m1 : seq nat -> St2)
    n_iter pb (ref : option 'I_(nS + nB)) :
  source_as B tm m inv rs -> source_as [::] tm1 m inv1 rs1 -> sh X = [:: N, F, nS + nB & B]%N ->
  inv m0 -> (forall b, inr B b -> inv1 (m1 b) /\ rs1 (m1 b) [::] = rs m0 b) -> pb_near pb ref ->
  separately N F nS B (t_ip_forward tm n_iter (Some nS) pb eps m0 X)
    (fun b => t_ip_forward tm1 n_iter (Some nS) pb eps (m1 b) (alone X b)).
Proof. move=> h h1 sX i0 i1 hp; exact: (ip_alone h h1 eps sX i0 i1 n_iter hp). Qed.
Print Assumptions c71_ip_alone.

(* ---- the model of one batch element, about which the other properties speak, describes every
   element of a batch *)
Theorem c71_ip_model (C : numClosedFieldType) nS nB F N B (St St1 : Type)
    (tm : St -> tensor C -> result (tensor C * St)) (m : St1 -> sig C F N nS -> sig C F N nS * St1) inv rs (X : tensor C) eps m0
    n_iter pb (ref : option 'I_(nS + nB)) :
  source_as B tm m inv rs -> sh X = [:: N, F, nS + nB & B]%N -> inv m0 -> pb_near pb ref ->
  lifts B [:: N, F, nS & B] (t_ip_forward tm n_iter (Some nS) pb eps m0 X)
    (fun b => rmap fst (ip_forward m (sig_at F N (nS + nB) X b) eps n_iter ref (rs m0 b))) (sig_at F N nS).
Proof. move=> h sX i0 hp; exact: (ip_forward_at h eps sX n_iter i0 hp). Qed.
Print Assumptions c71_ip_model.

(* ---- success on every batch *)
Theorem c71_ip_total (C : numClosedFieldType) nS nB F N B (St St1 : Type)
    (tm : St -> tensor C -> result (tensor C * St)) (m : St1 -> sig C F N nS -> sig C F N nS * St1) inv rs (X : tensor C) eps m0
    n_iter pb (ref : option 'I_(nS + nB)) :
  source_as B tm m inv rs -> sh X = [:: N, F, nS + nB & B]%N -> inv m0 -> 0 < eps -> pb_near pb ref ->
  exists2 Y, t_ip_forward tm n_iter (Some nS) pb eps m0 X = Ok Y & sh Y = [:: N, F, nS & B].
Proof. move=> h sX i0 e0 hp; exact: (ip_total h sX i0 n_iter e0 hp). Qed.
Print Assumptions c71_ip_total.

(* ---- with the NMF model: a batch, against each element alone with the draws it has in the batch *)
Theorem c71_ip_nmf (C : numClosedFieldType) nS nB F N K B (X u v : tensor C) eps1 eps
    n_iter pb (ref : option 'I_(nS + nB)) : (0 < F)%N -> (0 < N)%N ->
  sh X = [:: N, F, nS + nB & B]%N -> sh u = [:: K; F; TorchShape.numel (nS :: B)] -> sh v = [:: K; N; TorchShape.numel (nS :: B)] ->
  pb_near pb ref ->
  separately N F nS B (t_ip_forward (t_nmf eps1) n_iter (Some nS) pb eps (NFresh u v) X)
   (fun b => t_ip_forward (t_nmf eps1) n_iter (Some nS) pb eps (NFresh (draws_of nS B u b) (draws_of nS B v b)) (alone X b)).
Proof.
move=> F0 N0 sX su sv hp; have [i0 i1] := nmf_start eps1 su sv.
exact: (ip_alone (@nmf_as C F N nS K eps1 B F0 N0) (@nmf_as C F N nS K eps1 [::] F0 N0) eps sX i0 i1 n_iter hp).
Qed.
Print Assumptions c71_ip_nmf.

(* ---- without n_src the call fails *)
Theorem c71_ip_no_n_src (C : numClosedFieldType) (St : Type) (tm : St -> tensor C -> result (tensor C * St)) n_iter pb eps m0
    (X : tensor C) N F nC B : sh X = [:: N, F, nC & B] ->
  t_ip_forward tm n_iter None pb eps m0 X = Err TypeError.
Proof. by move=> sX; rewrite /t_ip_forward sX. Qed.
Print Assumptions c71_ip_no_n_src.

(* ---- microphones without a source: with more microphones than sources, a proj_back_mic from
   n_src on gives a tensor with the axes (batch, frequencies, batch, sources, frequencies, frames),
   in which every slice along the additional axes holds the right signals *)
Theorem c71_ip_far_mic (C : numClosedFieldType) nS nB F N B (St St1 : Type)
    (tm : St -> tensor C -> result (tensor C * St)) (m : St1 -> sig C F N nS -> sig C F N nS * St1) inv rs (X : tensor C) eps m0
    n_iter (ref : 'I_(nS + nB)) :
  source_as B tm m inv rs -> sh X = [:: N, F, nS + nB & B]%N -> inv m0 -> 0 < eps -> (nS <= ref)%N ->
  exists Y, [/\ t_ip_forward tm n_iter (Some nS) (Some (Z.of_nat ref)) eps m0 X = Ok Y, sh Y = [:: N, F, nS & B ++ F :: B] &
  forall b i, inr B b -> inr (F :: B) i ->
    exists2 y, rmap fst (ip_forward m (sig_at F N (nS + nB) X b) eps n_iter (Some ref) (rs m0 b)) = Ok y & sig_at F N nS Y (b ++ i) = y].
Proof. move=> h sX i0 e0 ge; exact: (ip_far h sX i0 n_iter e0 ge). Qed.
Print Assumptions c71_ip_far_mic.
(* hence "the result has the shape (batch, n_src, n_freq, n_frames), for every microphone" is
   false, even for a single signal *)
Theorem c71_every_mic_refuted : ~ (forall (C : numClosedFieldType) (eps : C) (X Y : tensor C) (ref : 'I_(1 + 1)) B,
  0 < eps -> sh X = [:: 1, 1, 2 & B]%N ->
  t_ip_forward (stateless (t_laplace eps)) 1 (Some 1%N) (Some (Z.of_nat ref)) eps tt X = Ok Y -> sh Y = [:: 1, 1, 1 & B]%N).
Proof.
move=> h.
have [Y [e sY _]] := @c71_ip_far_mic algCnumClosedField 1 1 1 1 [::] _ _ _ _ _ _ (mkT [:: 1; 1; 2]%N (fun _ => 1)) 1 tt 1
  (@Ordinal 2 1 isT) (@laplace_as algCnumClosedField 1 1 1 [::] 1) erefl I ltr01 isT.
by have := h algCnumClosedField 1 (mkT [:: 1; 1; 2]%N (fun _ => 1)) Y (@Ordinal 2 1 isT) [::] ltr01 erefl e; rewrite sY.
Qed.
Print Assumptions c71_every_mic_refuted.

(* ---- examples: a batch of shape (3, 2) of two-microphone signals; one source and the second
   microphone as background *)
Example c71_example_total (C : numClosedFieldType) : exists2 Y,
  t_ip_forward (stateless (t_laplace (1 : C))) 7 (Some 1%N) (Some Z0) 1 tt (ramp C) = Ok Y & sh Y = [:: 4; 5; 1; 2; 3]%N.
Proof.
exact (@c71_ip_total C 1 1 5 4 [:: 2; 3]%N _ _ _ _ _ _ (ramp C) 1 tt 7 (Some Z0) (Some (@Ordinal 2 0 isT))
  (@laplace_as C 5 4 1 [:: 2; 3]%N 1) erefl I ltr01 (conj erefl isT)).
Qed.
(* the last microphone, counted from the end, as reference, two sources, NMF with three components *)
Example c71_example_nmf (C : numClosedFieldType) : let u := tones C 3 5 12 in let v := tones C 3 4 12 in
  separately 4 5 2 [:: 2; 3]%N (t_ip_forward (t_nmf (1 : C)) 2 (Some 2%N) (Some (Zneg xH)) 1 (NFresh u v) (ramp C))
   (fun b => t_ip_forward (t_nmf (1 : C)) 2 (Some 2%N) (Some (Zneg xH)) 1 (NFresh (draws_of 2 [:: 2; 3]%N u b) (draws_of 2 [:: 2; 3]%N v b))
      (alone (ramp C) b)).
Proof.
exact (@c71_ip_nmf C 2 0 5 4 3 [:: 2; 3]%N (ramp C) (tones C 3 5 12) (tones C 3 4 12) 1 1 2 (Some (Zneg xH)) (Some (@Ordinal 2 1 isT))
  isT isT erefl erefl erefl (conj erefl isT)).
Qed.
(* the second microphone, which has no source: six times five copies *)
Example c71_example_far (C : numClosedFieldType) : exists2 Y,
  t_ip_forward (stateless (t_laplace (1 : C))) 7 (Some 1%N) (Some (Z.of_nat 1)) 1 tt (ramp C) = Ok Y & sh Y = [:: 4; 5; 1; 2; 3; 5; 2; 3]%N.
Proof.
have [Y [e s _]] := @c71_ip_far_mic C 1 1 5 4 [:: 2; 3]%N _ _ _ _ _ _ (ramp C) 1 tt 7 (@Ordinal 2 1 isT)
  (@laplace_as C 5 4 1 [:: 2; 3]%N 1) erefl I ltr01 isT.
by exists Y.
Qed.
Example c71_example_no_n_src (C : numClosedFieldType) :
  t_ip_forward (stateless (t_laplace (1 : C))) 7 None (Some Z0) 1 tt (ramp C) = Err TypeError.
Proof. exact (@c71_ip_no_n_src C _ _ 7 (Some Z0) 1 tt (ramp C) 4 5 2 [:: 2; 3]%N erefl). Qed.
