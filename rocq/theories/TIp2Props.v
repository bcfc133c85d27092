(* Property C72: batches in AuxIVA_IP2 and in the linear algebra for two channels.  On whole
   tensors, AuxIVA_IP2 computes for every element of a batch what it computes for that element
   alone, and what the model of one batch element computes; eigh, eigh_2x2 and inv_2x2 treat every
   matrix of a batch separately. *)
From Coq Require Import String Ascii ZArith.
From mathcomp Require Import all_ssreflect all_algebra all_field.
From Verif Require TorchShape.
From Verif Require Import CAlg Py Batch LinalgModel TissModel SrcModel PhaseSpec IvaModel.
From Verif Require Import TensorModel TOpsModel TSpec TSepSpec TensorProofs TBatch TTissModel TSrcModel TEighModel TIp2Model TEighProofs TSrcProofs TSepBatch TIp2Batch.
Set Implicit Arguments. Unset Strict Implicit. Unset Printing Implicit Defensive.
Import GRing.Theory Num.Theory Order.TTheory.
Local Open Scope ring_scope.

(* ---- a batch against its elements alone.  tm and tm1 are the source model on the batch and on a
   single signal, m0 and m1 b their states at the start *)
Theorem c72_ip2_alone (C : numClosedFieldType) F N B (St St1 St2 : Type)
    (tm : St -> tensor C -> result (tensor C * St)) (tm1 : St2 -> tensor C -> result (tensor C * St2))
    (m : St1 -> sig C F N 2 -> sig C F N 2 * St1) inv inv1 rs rs1 (X : tensor C) eps m0 (m1 : seq nat -> St2)
    n_iter (mic : option 'I_2) :
  source_as B tm m inv rs -> source_as [::] tm1 m inv1 rs1 -> sh X = [:: N, F, 2 & B]%N ->
  inv m0 -> (forall b, inr B b -> inv1 (m1 b) /\ rs1 (m1 b) [::] = rs m0 b) ->
  separately N F 2 B (t_ip2_forward tm n_iter (omap (fun k : 'I_2 => Z.of_nat k) mic) eps m0 X)
    (fun b => t_ip2_forward tm1 n_iter (omap (fun k : 'I_2 => Z.of_nat k) mic) eps (m1 b) (alone X b)).
Proof. move=> h h1 sX i0 i1; exact (ip2_alone h h1 eps sX i0 i1 n_iter mic). Qed.
Print Assumptions c72_ip2_alone.

(* ---- no exception for two channels, and every element of the result is what the model of one
   batch element, about which the other properties speak, computes *)
Theorem c72_ip2_model (C : numClosedFieldType) F N B (St St1 : Type)
    (tm : St -> tensor C -> result (tensor C * St)) (m : St1 -> sig C F N 2 -> sig C F N 2 * St1) inv rs (X : tensor C) eps m0
    n_iter (mic : option 'I_2) :
  source_as B tm m inv rs -> sh X = [:: N, F, 2 & B]%N -> inv m0 ->
  exists Y, [/\ t_ip2_forward tm n_iter (omap (fun k : 'I_2 => Z.of_nat k) mic) eps m0 X = Ok Y, sh Y = [:: N, F, 2 & B]%N &
    forall b, inr B b -> sig_at F N 2 Y b = (ip2_forward m (sig_at F N 2 X b) eps n_iter mic (rs m0 b)).1].
Proof. move=> h sX i0; exact (ip2_forward_at h eps sX n_iter mic i0). Qed.
Print Assumptions c72_ip2_model.

(* ---- with the NMF model: a batch, against each element alone with the draws it has in the batch *)
Theorem c72_ip2_nmf (C : numClosedFieldType) F N K B (X u v : tensor C) eps1 eps n_iter (mic : option 'I_2) : (0 < F)%N -> (0 < N)%N ->
  sh X = [:: N, F, 2 & B]%N -> sh u = [:: K; F; TorchShape.numel (2%N :: B)] -> sh v = [:: K; N; TorchShape.numel (2%N :: B)] ->
  separately N F 2 B (t_ip2_forward (t_nmf eps1) n_iter (omap (fun k : 'I_2 => Z.of_nat k) mic) eps (NFresh u v) X)
   (fun b => t_ip2_forward (t_nmf eps1) n_iter (omap (fun k : 'I_2 => Z.of_nat k) mic) eps (NFresh (draws_of 2 B u b) (draws_of 2 B v b)) (alone X b)).
Proof.
move=> F0 N0 sX su sv; have [i0 i1] := nmf_start eps1 su sv.
exact (ip2_alone (@nmf_as C F N 2 K eps1 B F0 N0) (@nmf_as C F N 2 K eps1 [::] F0 N0) eps sX i0 i1 n_iter mic).
Qed.
Print Assumptions c72_ip2_nmf.

(* ---- what is rejected: other numbers of channels, microphones outside [0, 2) (negative ones
   included, unlike in the other methods), tensors with fewer than three axes *)
Theorem c72_ip2_channels (C : numClosedFieldType) (St : Type) (tm : St -> tensor C -> result (tensor C * St)) n_iter pb eps m0
    (X : tensor C) N F nC B : sh X = [:: N, F, nC & B] -> nC != 2%N ->
  t_ip2_forward tm n_iter pb eps m0 X = Err AssertionError.
Proof. exact: ip2_channels. Qed.
Print Assumptions c72_ip2_channels.
Theorem c72_ip2_mic (C : numClosedFieldType) (St : Type) (tm : St -> tensor C -> result (tensor C * St)) n_iter z eps m0
    (X : tensor C) N F B : sh X = [:: N, F, 2 & B]%N -> (Z.lt z Z0 \/ Z.le (Z.of_nat 2) z) ->
  t_ip2_forward tm n_iter (Some z) eps m0 X = Err AssertionError.
Proof. exact: ip2_mic. Qed.
Print Assumptions c72_ip2_mic.
Theorem c72_ip2_axes (C : numClosedFieldType) (St : Type) (tm : St -> tensor C -> result (tensor C * St)) n_iter pb eps m0
    (X : tensor C) : (size (sh X) < 3)%N -> t_ip2_forward tm n_iter pb eps m0 X = Err ValueError.
Proof. exact: ip2_axes. Qed.
Print Assumptions c72_ip2_axes.

(* ---- the linear algebra.  torch.linalg.eigh, used for sizes other than 2, is a function of one
   matrix *)
Theorem c72_eigh (C : numClosedFieldType) (eighO : forall n, eigh_oracle C n) n r (A : tensor C) : sh A = [:: n, n & r] ->
  exists ev V, [/\ t_eigh eighO A None = Ok (ev, V), sh ev = n :: r, sh V = [:: n, n & r] &
    forall b, inr r b -> (forall k : 'I_n, at_ ev (nat_of_ord k :: b) = (eigh eighO (mat n n A b)).1 k) /\ mat n n V b = (eigh eighO (mat n n A b)).2].
Proof. by move=> sA; have [[ev V] e [s1 s2 h]] := eigh_at eighO sA; exists ev, V. Qed.
Print Assumptions c72_eigh.
Theorem c72_geigh (C : numClosedFieldType) (eighO : forall n, eigh_oracle C n) n r (A B : tensor C) : sh A = [:: n, n & r] -> sh B = [:: n, n & r] ->
  exists ev V, [/\ t_eigh eighO A (Some B) = Ok (ev, V), sh ev = n :: r, sh V = [:: n, n & r] &
    forall b, inr r b -> (forall k : 'I_n, at_ ev (nat_of_ord k :: b) = (geigh eighO (mat n n A b) (mat n n B b)).1 k) /\
      mat n n V b = (geigh eighO (mat n n A b) (mat n n B b)).2].
Proof. by move=> sA sB; have [[ev V] e [s1 s2 h]] := geigh_at eighO sA sB; exists ev, V. Qed.
Print Assumptions c72_geigh.
Theorem c72_inv_2x2 (C : numClosedFieldType) r (W : tensor C) eps : sh W = [:: 2, 2 & r]%N ->
  exists V, [/\ t_inv_2x2 W eps = Ok V, sh V = [:: 2, 2 & r]%N & forall b, inr r b -> mat 2 2 V b = inv_2x2 (mat 2 2 W b) eps].
Proof. by move=> sW; have [V e [s h]] := inv2_at eps sW; exists V. Qed.
Print Assumptions c72_inv_2x2.

(* ---- examples: a batch of shape (3, 2) of two-microphone signals *)
Example c72_example_total (C : numClosedFieldType) : exists2 Y,
  t_ip2_forward (stateless (t_laplace (1 : C))) 7 (Some (Z.of_nat 1)) 1 tt (ramp C) = Ok Y & sh Y = [:: 4; 5; 2; 2; 3]%N.
Proof.
have [Y [e s _]] := @c72_ip2_model C 5 4 [:: 2; 3]%N _ _ _ _ _ _ (ramp C) 1 tt 7 (Some (@Ordinal 2 1 isT)) (@laplace_as C 5 4 2 [:: 2; 3]%N 1) erefl I.
by exists Y.
Qed.
Example c72_example_nmf (C : numClosedFieldType) : let u := tones C 3 5 12 in let v := tones C 3 4 12 in
  separately 4 5 2 [:: 2; 3]%N (t_ip2_forward (t_nmf (1 : C)) 2 (Some Z0) 1 (NFresh u v) (ramp C))
   (fun b => t_ip2_forward (t_nmf (1 : C)) 2 (Some Z0) 1 (NFresh (draws_of 2 [:: 2; 3]%N u b) (draws_of 2 [:: 2; 3]%N v b)) (alone (ramp C) b)).
Proof.
exact (@c72_ip2_nmf C 5 4 3 [:: 2; 3]%N (ramp C) (tones C 3 5 12) (tones C 3 4 12) 1 1 2 (Some (@Ordinal 2 0 isT)) isT isT erefl erefl erefl).
Qed.
Example c72_example_channels (C : numClosedFieldType) :
  t_ip2_forward (stateless (t_laplace (1 : C))) 7 None 1 tt (mkT [:: 4; 5; 3; 2]%N (fun _ => 1)) = Err AssertionError.
Proof. exact (@c72_ip2_channels C _ _ 7 None 1 tt (mkT [:: 4; 5; 3; 2]%N (fun _ => 1)) 4 5 3 [:: 2]%N erefl isT). Qed.
Example c72_example_last_mic (C : numClosedFieldType) :
  t_ip2_forward (stateless (t_laplace (1 : C))) 7 (Some (Zneg xH)) 1 tt (ramp C) = Err AssertionError.
Proof. exact (@c72_ip2_mic C _ _ 7 (Zneg xH) 1 tt (ramp C) 4 5 [:: 2; 3]%N erefl (or_introl erefl)). Qed.
Example c72_example_axes (C : numClosedFieldType) :
  t_ip2_forward (stateless (t_laplace (1 : C))) 7 None 1 tt (mkT [:: 4; 5]%N (fun _ => 1)) = Err ValueError.
Proof. exact (@c72_ip2_axes C _ _ 7 None 1 tt (mkT [:: 4; 5]%N (fun _ => 1)) isT). Qed.
(* three 2 x 2 matrices with entries that differ *)
Example c72_example_inv (C : numClosedFieldType) : exists2 V,
  t_inv_2x2 (mkT [:: 2; 2; 3]%N (fun i => (nth 0%N i 0 + 3 * nth 0%N i 1 + 5 * nth 0%N i 2).+1%:R : C)) 1 = Ok V & sh V = [:: 2; 2; 3]%N.
Proof.
have [V [e s _]] := @c72_inv_2x2 C [:: 3]%N (mkT [:: 2; 2; 3]%N (fun i => (nth 0%N i 0 + 3 * nth 0%N i 1 + 5 * nth 0%N i 2).+1%:R : C)) 1 erefl.
by exists V.
Qed.
Example c72_example_eigh (C : numClosedFieldType) (eighO : forall n, eigh_oracle C n) (n : nat) : exists ev V : tensor C,
  t_eigh eighO (mkT [:: n; n; 4; 3]%N (fun i => (nth 0%N i 0 + nth 0%N i 1 + nth 0%N i 3)%:R)) None = Ok (ev, V) /\ sh ev = [:: n; 4; 3]%N.
Proof.
have [ev [V [e s _ _]]] := @c72_eigh C eighO n [:: 4; 3]%N (mkT [:: n; n; 4; 3]%N (fun i => (nth 0%N i 0 + nth 0%N i 1 + nth 0%N i 3)%:R)) erefl.
by exists ev, V.
Qed.
Example c72_example_geigh (C : numClosedFieldType) (eighO : forall n, eigh_oracle C n) (n : nat) : exists ev V : tensor C,
  t_eigh eighO (mkT [:: n; n; 4]%N (fun i => (nth 0%N i 2)%:R)) (Some (mkT [:: n; n; 4]%N (fun i => (nth 0%N i 0 == nth 0%N i 1)%:R))) = Ok (ev, V) /\
  sh V = [:: n; n; 4]%N.
Proof.
have [ev [V [e _ s _]]] := @c72_geigh C eighO n [:: 4]%N (mkT [:: n; n; 4]%N (fun i => (nth 0%N i 2)%:R)) (mkT [:: n; n; 4]%N (fun i => (nth 0%N i 0 == nth 0%N i 1)%:R)) erefl erefl.
by exists ev, V.
Qed.
