(* Property C69: batches.  The functions on whole tensors, with the einsum strings, reshapes,
   transposes and broadcasts of the code, compute for every element of a batch what they
   compute for that element alone, and what the models of one batch element compute. *)
From Coq Require Import String Ascii ZArith.
From mathcomp Require Import all_ssreflect all_algebra.
From Verif Require TorchShape.
From Verif Require Import CAlg Py Batch LinalgModel TissModel WpeModel BeamModel BeamSpec.
From Verif Require Import TensorModel TSpec TensorProofs TWpeModel TWpeProofs TBeamModel TBeamProofs TBatch.
Set Implicit Arguments. Unset Strict Implicit. Unset Printing Implicit Defensive.
Import GRing.Theory Num.Theory Order.TTheory.
Local Open Scope ring_scope.

(* ---- a batch against its elements alone: same values, same shapes, and an exception exactly
   when an element alone raises it.  tm and tm1 are the weight or mask model on the batch and
   on a single signal *)
Theorem c69_wpe_alone (C : numClosedFieldType) N F c B n_delay n_taps n_iter (X : tensor C) tm tm1 om eps :
  (exists b, inr B b) -> sh X = [:: N, F, c & B] -> weights_as (nF := F) (nN := N) (nC := c) B tm om -> weights_as [::] tm1 om ->
  separately N F c B (t_wpe_forward n_iter n_delay n_taps tm eps X)
    (fun b => t_wpe_forward n_iter n_delay n_taps tm1 eps (alone X b)).
Proof. move=> ne; exact: wpe_alone. Qed.
Print Assumptions c69_wpe_alone.

(* the reference microphone may be negative, as in Python *)
Theorem c69_mvdr_alone (C : numClosedFieldType) eighO N F S k B (z : Z) (X : tensor C) nM tm tm1 (mm : mask_model C S F N) ty eps p :
  (exists b, inr B b) -> TorchShape.valid k.+1 z -> sh X = [:: N, F, k.+1 & B] ->
  masks_as nM B tm mm -> masks_as nM [::] tm1 mm ->
  separately N F S B (t_mvdr_forward eighO tm ty z eps p X) (fun b => t_mvdr_forward eighO tm1 ty z eps p (alone X b)).
Proof. move=> ne vz sX h h1; exact: (mvdr_alone eighO ne vz sX h h1). Qed.
Print Assumptions c69_mvdr_alone.
Theorem c69_mwf_alone (C : numClosedFieldType) N F S k B (z : Z) (X : tensor C) nM tm tm1 (mm : mask_model C S F N) time_invariant :
  (exists b, inr B b) -> TorchShape.valid k.+1 z -> sh X = [:: N, F, k.+1 & B] ->
  masks_as nM B tm mm -> masks_as nM [::] tm1 mm ->
  separately N F S B (t_mwf_forward tm time_invariant z X) (fun b => t_mwf_forward tm1 time_invariant z (alone X b)).
Proof. move=> ne vz sX h h1; exact: (mwf_alone ne vz sX h h1). Qed.
Print Assumptions c69_mwf_alone.
Theorem c69_gev_alone (C : numClosedFieldType) eighO N F S k B (z : Z) (X : tensor C) nM tm tm1 (mm : mask_model C S F N) :
  (exists b, inr B b) -> TorchShape.valid k.+1 z -> sh X = [:: N, F, k.+1 & B] ->
  masks_as nM B tm mm -> masks_as nM [::] tm1 mm ->
  separately N F S B (t_gev_forward eighO tm z X) (fun b => t_gev_forward eighO tm1 z (alone X b)).
Proof. move=> ne vz sX h h1; exact: (gev_alone eighO ne vz sX h h1). Qed.
Print Assumptions c69_gev_alone.

(* ---- the models of one batch element, about which the other properties speak, describe every
   element of a batch *)
Theorem c69_wpe_model (C : numClosedFieldType) N F c B n_delay n_taps n_iter (X : tensor C) tm om eps :
  (exists b, inr B b) -> sh X = [:: N, F, c & B] -> weights_as (nF := F) (nN := N) (nC := c) B tm om ->
  lifts B [:: N, F, c & B] (t_wpe_forward n_iter n_delay n_taps tm eps X)
    (fun b => rmap fst (wpe_forward n_taps n_delay (omap (fun m (_ : unit) Y => (m Y, tt)) om) (sig_at F N c X b) eps n_iter tt))
    (fun t b => sig_at F N c t b).
Proof. move=> ne sX h; exact: (wpe_batch n_taps n_delay sX eps h ne n_iter). Qed.
Print Assumptions c69_wpe_model.
Theorem c69_mvdr_model (C : numClosedFieldType) eighO N F S k B (z : Z) (ref : 'I_k.+1) (X : tensor C) nM tm (mm : mask_model C S F N) ty eps p :
  (exists b, inr B b) -> TorchShape.valid k.+1 z -> zidx k.+1 z = ref -> sh X = [:: N, F, k.+1 & B] -> masks_as nM B tm mm ->
  lifts B [:: N, F, S & B] (t_mvdr_forward eighO tm ty z eps p X)
    (fun b => mvdr_forward eighO (sig_at F N k.+1 X b) mm ref eps ty p) (fun t b => sig_at F N S t b).
Proof. move=> ne vz zr sX h; exact: (mvdr_batch eighO vz zr sX h ne ty eps p). Qed.
Print Assumptions c69_mvdr_model.
Theorem c69_mwf_model (C : numClosedFieldType) N F S k B (z : Z) (ref : 'I_k.+1) (X : tensor C) nM tm (mm : mask_model C S F N) ti eps :
  (exists b, inr B b) -> TorchShape.valid k.+1 z -> zidx k.+1 z = ref -> sh X = [:: N, F, k.+1 & B] -> masks_as nM B tm mm ->
  lifts B [:: N, F, S & B] (t_mwf_forward tm ti z X)
    (fun b => mwf_forward (sig_at F N k.+1 X b) mm ref eps ti) (fun t b => sig_at F N S t b).
Proof. move=> ne vz zr sX h; exact: (mwf_batch vz zr sX h ne ti eps). Qed.
Print Assumptions c69_mwf_model.
Theorem c69_gev_model (C : numClosedFieldType) eighO N F S k B (z : Z) (ref : 'I_k.+1) (X : tensor C) nM tm (mm : mask_model C S F N) :
  (exists b, inr B b) -> TorchShape.valid k.+1 z -> zidx k.+1 z = ref -> sh X = [:: N, F, k.+1 & B] -> masks_as nM B tm mm ->
  lifts B [:: N, F, S & B] (t_gev_forward eighO tm z X)
    (fun b => gev_forward eighO (sig_at F N k.+1 X b) mm ref) (fun t b => sig_at F N S t b).
Proof. move=> ne vz zr sX h; exact: (gev_batch eighO vz zr sX h ne). Qed.
Print Assumptions c69_gev_model.

(* ---- batches that never fail *)
Theorem c69_wpe_total (C : numClosedFieldType) N F c B n_taps n_delay (X : tensor C) eps n_iter :
  (exists b, inr B b) -> (0 < c * n_taps)%N -> 0 < eps -> sh X = [:: N, F, c & B] ->
  exists2 Y, t_wpe_forward n_iter n_delay n_taps None eps X = Ok Y & sh Y = [:: N, F, c & B].
Proof. exact: wpe_batch_total. Qed.
Print Assumptions c69_wpe_total.
Theorem c69_mwf_total (C : numClosedFieldType) N F S k B (z : Z) (X : tensor C) nM tm (mm : mask_model C S F N) :
  (exists b, inr B b) -> TorchShape.valid k.+1 z -> sh X = [:: N, F, k.+1 & B] -> masks_as nM B tm mm ->
  (1 < nM)%N -> (forall x i, nonneg (nth (fun _ _ => 0) (mm x) i)) ->
  exists2 Y, t_mwf_forward tm true z X = Ok Y & sh Y = [:: N, F, S & B].
Proof. move=> ne vz sX h; exact: (mwf_batch_total ne vz sX h). Qed.
Print Assumptions c69_mwf_total.

(* ---- the elements of a batch share their failures: with mvdr_type "scm" one silent frequency
   of one element costs the results of all the others *)
Theorem c69_scm_silent (C : numClosedFieldType) eighO N F S k B (z : Z) (X : tensor C) tm (mm : mask_model C S F N) eps p b (f : 'I_F) (s : 'I_S) :
  TorchShape.valid k.+1 z -> sh X = [:: N, F, k.+1 & B] -> masks_as 2 B tm mm -> inr B b ->
  (forall c n, (c < k.+1)%N -> (n < N)%N -> at_ X [:: n, nat_of_ord f, c & b] = 0) ->
  t_mvdr_forward eighO tm Scm z eps p X = Err LinAlgError.
Proof.
move=> vz sX h hb h0; apply: (mvdr_scm_batch_silent eighO _ vz sX h eps p s erefl hb (f := f)); first by exists b.
by apply/matrixP => c n; rewrite sigE mxE h0.
Qed.
Print Assumptions c69_scm_silent.
Theorem c69_good_elements_refuted (C : numClosedFieldType) eighO eps p :
  ~ (forall (X : tensor C) B b, sh X = [:: 1, 1, 1 & B]%N -> inr B b ->
     (exists Y, t_mvdr_forward eighO (@ones C) Scm Z0 eps p (alone X b) = Ok Y) ->
     exists Y, t_mvdr_forward eighO (@ones C) Scm Z0 eps p X = Ok Y).
Proof.
move=> h; have [Y] := h (half_silent C) [:: 2]%N [:: 1]%N erefl erefl (half_silent_good eighO eps p).
by rewrite half_silent_fails.
Qed.
Print Assumptions c69_good_elements_refuted.

(* ---- examples: masks of ones act on every batch and on a single signal; a batch of shape (3, 2)
   of two-microphone signals, reference microphone -1 *)
Example c69_example_masks (C : numClosedFieldType) : masks_as 2 [:: 2; 3]%N (@ones C) (@ones_masks C 5 4) /\ masks_as 2 [::] (@ones C) (@ones_masks C 5 4).
Proof. by split; exact: ones_as. Qed.
Example c69_example_mwf (C : numClosedFieldType) :
  exists2 Y, t_mwf_forward (@ones C) true (Zneg xH) (ramp C) = Ok Y & sh Y = [:: 4; 5; 1; 2; 3]%N.
Proof.
apply: (@c69_mwf_total C 4 5 1 1 [:: 2; 3]%N (Zneg xH) (ramp C) 2 (@ones C) (@ones_masks C 5 4)) => //.
- by exists [:: 0; 0]%N.
- exact: ones_as.
- move=> x [|[|i]] s f n; rewrite /= ?nth_nil ?mxE ?ler01 ?lexx //.
Qed.
(* ... and its element (2, 1) is the result for that element alone *)
Example c69_example_alone (C : numClosedFieldType) : exists Y Y1, [/\ t_mwf_forward (@ones C) true (Zneg xH) (ramp C) = Ok Y,
  t_mwf_forward (@ones C) true (Zneg xH) (alone (ramp C) [:: 1; 2]%N) = Ok Y1 &
  at_ Y1 [:: 3; 4; 0]%N = at_ Y [:: 3; 4; 0; 1; 2]%N].
Proof.
have [Y e _] := c69_example_mwf C.
have ne : exists b, inr [:: 2; 3]%N b by exists [:: 0; 0]%N.
have := @c69_mwf_alone C 4 5 1 1 [:: 2; 3]%N (Zneg xH) (ramp C) 2 (@ones C) (@ones C) (@ones_masks C 5 4) true ne isT erefl (@ones_as C 5 4 _) (@ones_as C 5 4 _).
rewrite e => -[_ /(_ [:: 1; 2]%N isT) [Y1 [e1 _ h]]]; by exists Y, Y1; split=> //; apply: h.
Qed.
Example c69_example_wpe (C : numClosedFieldType) :
  exists2 Y, t_wpe_forward 3 2 4 None (10%:R ^- 10) (ramp C) = Ok Y & sh Y = [:: 4; 5; 2; 2; 3]%N.
Proof. by apply: (@c69_wpe_total C 4 5 2 [:: 2; 3]%N); [exists [:: 0; 0]%N|by []|rewrite invr_gt0 exprn_gt0 // ltr0n|by []]. Qed.
Example c69_example_weights (C : numClosedFieldType) : weights_as (nF := 5) (nN := 4) (nC := 2) [:: 2; 3]%N
  (Some (fun Y : tensor C => Ok (mkT (TorchShape.del 2 (sh Y)) (fun _ => 1)))) (Some (fun _ _ => const_mx 1)).
Proof. by move=> Y sY; eexists; split; [reflexivity|rewrite /= sY|move=> b f n _; rewrite mxE]. Qed.
