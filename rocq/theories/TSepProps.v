(* Property C70: batches in the separation algorithms.  T_ISS on whole tensors, with the einsum
   strings, slices, in-place updates and broadcasts of the code and with the source models of
   models/classic.py, computes for every element of a batch what it computes for that element
   alone, and what the model of one batch element computes. *)
From Coq Require Import String Ascii ZArith.
From mathcomp Require Import all_ssreflect all_algebra all_field.
From Verif Require TorchShape.
From Verif Require Import CAlg Py Batch LinalgModel TissModel SrcModel PhaseSpec.
From Verif Require Import TensorModel TOpsModel TSpec TSepSpec TensorProofs TBatch TTissModel TSrcModel TTissForward TSrcProofs TSepBatch.
Set Implicit Arguments. Unset Strict Implicit. Unset Printing Implicit Defensive.
Import GRing.Theory Num.Theory Order.TTheory.
Local Open Scope ring_scope.

(* ---- a batch against its elements alone: output and self.W.  tm and tm1 are the source model on
   the batch and on a single signal, m0 and m1 b their states at the start *)
Theorem c70_tiss_alone (C : numClosedFieldType) nS nB F n_taps n_delay N B (St St1 St2 : Type)
    (tm : St -> tensor C -> result (tensor C * St)) (tm1 : St2 -> tensor C -> result (tensor C * St2))
    (m : St1 -> sig C F N nS -> sig C F N nS * St1) inv inv1 rs rs1 (X : tensor C) eps m0 (m1 : seq nat -> St2)
    n_iter n_src use_dmc pb (ref : option 'I_(nS + nB)) :
  source_as B tm m inv rs -> source_as [::] tm1 m inv1 rs1 -> (0 < N)%N -> sh X = [:: N, F, nS + nB & B]%N ->
  inv m0 -> (forall b, inr B b -> inv1 (m1 b) /\ rs1 (m1 b) [::] = rs m0 b) ->
  n_src_is nS nB n_src -> pb_is B pb ref ->
  let batch := t_tiss_forward tm n_iter n_taps n_delay n_src use_dmc pb eps m0 X in
  let one b := t_tiss_forward tm1 n_iter n_taps n_delay n_src use_dmc pb eps (m1 b) (alone X b) in
  separately N F nS B (rmap (fun r => r.1.1) batch) (fun b => rmap (fun r => r.1.1) (one b)) /\
  separately (nS + nB) F nS B (rmap (fun r => r.1.2) batch) (fun b => rmap (fun r => r.1.2) (one b)).
Proof.
move=> h h1 N0 sX i0 i1 hn hp /=; split.
- exact: (tiss_alone n_taps n_delay h h1 N0 eps sX i0 i1 n_iter use_dmc hn hp).
- exact: (tiss_alone_W n_taps n_delay h h1 N0 eps sX i0 i1 n_iter use_dmc hn hp).
Qed.
Print Assumptions c70_tiss_alone.

(* ---- the model of one batch element, about which the other properties speak, describes every
   element of a batch: output, self.W and self.J *)
Theorem c70_tiss_model (C : numClosedFieldType) nS nB F n_taps n_delay N B (St St1 : Type)
    (tm : St -> tensor C -> result (tensor C * St)) (m : St1 -> sig C F N nS -> sig C F N nS * St1) inv rs (X : tensor C) eps m0
    n_iter n_src use_dmc pb (ref : option 'I_(nS + nB)) :
  source_as B tm m inv rs -> (0 < N)%N -> sh X = [:: N, F, nS + nB & B]%N -> inv m0 -> n_src_is nS nB n_src -> pb_is B pb ref ->
  gives (okR nS nB F N B) B (t_tiss_forward tm n_iter n_taps n_delay n_src use_dmc pb eps m0 X)
    (fun b => rmap fst (forward n_taps n_delay m (sig_at F N (nS + nB) X b) eps n_iter use_dmc ref (rs m0 b))) (rdR nS nB F N).
Proof. move=> h N0 sX i0 hn hp; exact: (forward_at n_taps n_delay h N0 eps sX n_iter use_dmc i0 hn hp). Qed.
Print Assumptions c70_tiss_model.

(* ---- success on every batch *)
Theorem c70_tiss_total (C : numClosedFieldType) nS nB F n_taps n_delay N B (St St1 : Type)
    (tm : St -> tensor C -> result (tensor C * St)) (m : St1 -> sig C F N nS -> sig C F N nS * St1) inv rs (X : tensor C) eps m0
    n_iter n_src use_dmc pb (ref : option 'I_(nS + nB)) :
  source_as B tm m inv rs -> (0 < N)%N -> sh X = [:: N, F, nS + nB & B]%N -> inv m0 -> n_src_is nS nB n_src -> 0 < eps -> pb_is B pb ref ->
  exists2 r, t_tiss_forward tm n_iter n_taps n_delay n_src use_dmc pb eps m0 X = Ok r & okR nS nB F N B r.
Proof. move=> h N0 sX i0 hn e0 hp; exact: (tiss_total n_taps n_delay h N0 sX i0 n_iter use_dmc hn e0 hp). Qed.
Print Assumptions c70_tiss_total.

(* ---- the source models act on the elements, and on the sources, separately *)
Theorem c70_laplace (C : numClosedFieldType) F N nS B (eps : C) :
  source_as B (stateless (t_laplace eps)) (per_source (c := nS) (@laplace C F N eps)) (fun _ => True) (fun _ _ => tt).
Proof. exact: laplace_as. Qed.
Print Assumptions c70_laplace.
Theorem c70_gauss (C : numClosedFieldType) F N nS B (eps : C) :
  source_as B (stateless (t_gauss eps)) (per_source (c := nS) (@gauss C F N eps)) (fun _ => True) (fun _ _ => tt).
Proof. exact: gauss_as. Qed.
Print Assumptions c70_gauss.
(* NMF keeps its factors between the calls: the object holds those of all sources of all elements
   in one tensor *)
Theorem c70_nmf (C : numClosedFieldType) F N nS K B (eps : C) : (0 < F)%N -> (0 < N)%N ->
  source_as B (t_nmf eps) (@nmf_each C F N nS K eps) (nmf_inv F N nS K eps B) (nmf_rs F N nS K B).
Proof. exact: nmf_as. Qed.
Print Assumptions c70_nmf.

(* ---- T_ISS with NMF: a batch, against each element alone with the draws it has in the batch *)
Theorem c70_tiss_nmf (C : numClosedFieldType) nS nB F n_taps n_delay N K B (X u v : tensor C) eps1 eps
    n_iter n_src use_dmc pb (ref : option 'I_(nS + nB)) : (0 < F)%N -> (0 < N)%N ->
  sh X = [:: N, F, nS + nB & B]%N -> sh u = [:: K; F; TorchShape.numel (nS :: B)] -> sh v = [:: K; N; TorchShape.numel (nS :: B)] ->
  n_src_is nS nB n_src -> pb_is B pb ref ->
  separately N F nS B (rmap (fun r => r.1.1) (t_tiss_forward (t_nmf eps1) n_iter n_taps n_delay n_src use_dmc pb eps (NFresh u v) X))
   (fun b => rmap (fun r => r.1.1) (t_tiss_forward (t_nmf eps1) n_iter n_taps n_delay n_src use_dmc pb eps
                                    (NFresh (draws_of nS B u b) (draws_of nS B v b)) (alone X b))).
Proof.
move=> F0 N0 sX su sv hn hp; have [i0 i1] := nmf_start eps1 su sv.
exact: (tiss_alone n_taps n_delay (@nmf_as C F N nS K eps1 B F0 N0) (@nmf_as C F N nS K eps1 [::] F0 N0) N0 eps sX i0 i1 n_iter use_dmc hn hp).
Qed.
Print Assumptions c70_tiss_nmf.

(* ---- microphones without a source: with more microphones than sources, a proj_back_mic from
   n_src on works on a single signal but raises RuntimeError on every batch *)
Theorem c70_tiss_far_mic (C : numClosedFieldType) nS nB F n_taps n_delay N B (St St1 St2 : Type)
    (tm : St -> tensor C -> result (tensor C * St)) (tm1 : St2 -> tensor C -> result (tensor C * St2))
    (m : St1 -> sig C F N nS -> sig C F N nS * St1) inv inv1 rs rs1 (X : tensor C) eps m0 (m1 : seq nat -> St2)
    n_iter n_src use_dmc (ref : 'I_(nS + nB)) :
  source_as B tm m inv rs -> source_as [::] tm1 m inv1 rs1 -> (0 < N)%N -> sh X = [:: N, F, nS + nB & B]%N ->
  inv m0 -> (forall b, inr B b -> inv1 (m1 b) /\ rs1 (m1 b) [::] = rs m0 b) ->
  n_src_is nS nB n_src -> 0 < eps -> (0 < n_iter)%N -> (nS <= ref)%N -> B <> [::] ->
  t_tiss_forward tm n_iter n_taps n_delay n_src use_dmc (Some (Z.of_nat ref)) eps m0 X = Err RuntimeError /\
  forall b, inr B b -> exists2 r,
    t_tiss_forward tm1 n_iter n_taps n_delay n_src use_dmc (Some (Z.of_nat ref)) eps (m1 b) (alone X b) = Ok r & okR nS nB F N [::] r.
Proof.
move=> h h1 N0 sX i0 i1 hn e0 n0 le ne; split.
- apply: (tiss_far_mic n_taps n_delay h N0 sX i0 use_dmc hn e0 n0 ne).
  + by apply: inj_le; apply/ssrnat.leP.
  + by apply: inj_lt; apply/ssrnat.ltP.
- move=> b hb; have [ib _] := i1 b hb.
  apply: (tiss_total n_taps n_delay h1 N0 (alone_sh b sX) ib n_iter use_dmc hn e0 (pb := Some (Z.of_nat ref)) (ref := Some ref)).
  by split; [rewrite /names_mic; case: (nat_of_ord ref)|left].
Qed.
Print Assumptions c70_tiss_far_mic.
(* hence "a batch gives the results of its elements, for every microphone" is false *)
Theorem c70_every_mic_refuted : ~ (forall (C : numClosedFieldType) (eps : C) (X : tensor C) (ref : 'I_(1 + 1)) B b,
  0 < eps -> sh X = [:: 1, 1, 2 & B]%N -> inr B b ->
  separately 1 1 1 B (rmap (fun r => r.1.1) (t_tiss_forward (stateless (t_laplace eps)) 1 0 0 (Some 1%N) false (Some (Z.of_nat ref)) eps tt X))
    (fun b => rmap (fun r => r.1.1) (t_tiss_forward (stateless (t_laplace eps)) 1 0 0 (Some 1%N) false (Some (Z.of_nat ref)) eps tt (alone X b)))).
Proof.
move=> h; have := h algCnumClosedField 1 (mkT [:: 1; 1; 2; 1]%N (fun _ => 1)) (@Ordinal 2 1 isT) [:: 1%N] [:: 0%N] ltr01 erefl isT.
have la B := @laplace_as algCnumClosedField 1 1 1 B 1.
have [//|e1 e2] := @c70_tiss_far_mic _ 1 1 1 0 0 1 [:: 1%N] _ _ _ _ _ _ _ _ _ _ (mkT [:: 1; 1; 2; 1]%N (fun _ => 1)) 1 tt (fun _ => tt) 1 (Some 1%N) false
  (@Ordinal 2 1 isT) (la _) (la _) isT erefl I (fun _ _ => conj I erefl) erefl ltr01 isT isT.
rewrite e1 => -[b hb]; have [r -> _] := e2 b hb; by [].
Qed.
Print Assumptions c70_every_mic_refuted.

(* ---- examples: a batch of shape (3, 2) of two-microphone signals; one source and the second
   microphone as background, Laplace model, projection back on the first microphone *)
Example c70_example_total (C : numClosedFieldType) : exists2 r,
  t_tiss_forward (stateless (t_laplace (1 : C))) 7 3 1 (Some 1%N) false (Some Z0) 1 tt (ramp C) = Ok r &
  sh r.1.1 = [:: 4; 5; 1; 2; 3]%N /\ exists2 J, r.2 = Some J & sh J = [:: 1; 5; 1; 2; 3]%N.
Proof.
have [|r e [s1 _ hJ]] := @c70_tiss_total C 1 1 5 3 1 4 [:: 2; 3]%N _ _ _ _ _ _ (ramp C) 1 tt 7 (Some 1%N) false (Some Z0) (Some (@Ordinal 2 0 isT))
  (@laplace_as C 5 4 1 [:: 2; 3]%N 1) isT erefl I erefl ltr01; first by split; [|right].
exists r; [exact: e|split; first exact: s1]; case: (r.2) hJ => [J [_ sJ]|]; [by exists J|by []].
Qed.
(* two sources, no background, microphone -1, NMF with three components *)
Example c70_example_nmf (C : numClosedFieldType) : let u := tones C 3 5 12 in let v := tones C 3 4 12 in exists Y Y1, [/\
  t_tiss_forward (t_nmf (1 : C)) 2 1 1 None true (Some (Zneg xH)) 1 (NFresh u v) (ramp C) = Ok Y,
  t_tiss_forward (t_nmf (1 : C)) 2 1 1 None true (Some (Zneg xH)) 1 (NFresh (draws_of 2 [:: 2; 3]%N u [:: 1; 2]%N) (draws_of 2 [:: 2; 3]%N v [:: 1; 2]%N))
     (alone (ramp C) [:: 1; 2]%N) = Ok Y1 &
  at_ Y1.1.1 [:: 3; 4; 1]%N = at_ Y.1.1 [:: 3; 4; 1; 1; 2]%N].
Proof.
have e1 : (0 < 1 :> C) := ltr01.
have hp : @pb_is 2 0 [:: 2; 3]%N (Some (Zneg xH)) (Some (@Ordinal 2 1 isT)) by split; [|right].
exact (@tiss_nmf_value C 2 0 5 1 1 4 3 [:: 2; 3]%N (ramp C) (tones C 3 5 12) (tones C 3 4 12) 1 1 2 None true _ _ [:: 1; 2]%N 3 4 1
  isT isT erefl erefl erefl erefl e1 hp isT isT isT isT).
Qed.
