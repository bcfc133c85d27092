(* Property C74: batches of recordings.  The whole separator (STFT, algorithm, inverse STFT,
   padding or cutting to the length of the input) on a batch of recordings of any batch shape
   gives for every recording what it gives for that recording alone. *)
From Coq Require Import String Ascii ZArith.
From mathcomp Require Import all_ssreflect all_algebra all_field.
From Verif Require TorchShape.
From Verif Require Import CAlg Py Batch LinalgModel TissModel FftModel FftSpec StftModel StftSpec BeamModel SrcModel IvaModel FiveModel RLog StftReal.
From Verif Require Import TensorModel TSpec TSepSpec TensorProofs TOpsModel TBatch TBeamModel.
From Verif Require Import TTissModel TSrcModel TSrcProofs TSrc2Proofs TSepBatch TIpModel TIpBatch TIp2Model TIp2Batch TFiveModel TFiveSpec TFiveBatch.
From Verif Require Import TStftModel TStftSpec TStftProofs TStftBatch.
Set Implicit Arguments. Unset Strict Implicit. Unset Printing Implicit Defensive.
Import GRing.Theory Num.Theory Order.TTheory.
Local Open Scope ring_scope.

(* ---- any separator that treats the elements of a batch one by one *)
Theorem c74_separator (C : numClosedFieldType) (root : nat -> C) n_fft h window nC nS n B (x : tensor C) sep sep1 g :
  sh x = [:: n, nC & B] -> (0 < TorchShape.numel B)%N ->
  treats (nC := nC) (nF := (n_fft %/ 2).+1) (nN := frames_of n_fft h n) (nS := nS) B sep g ->
  (forall b, inr B b -> treats [::] (sep1 b) (fun _ => g b)) ->
  one_by_one n nS B (t_bss_forward root n_fft h window sep x) (fun b => t_bss_forward root n_fft h window (sep1 b) (recording x b)).
Proof. move=> sx ne hs h1; exact (bss_one_by_one root window sx (nonempty_batch ne) hs h1). Qed.
Print Assumptions c74_separator.

(* ---- the algorithms.  tm and tm1 are the source model on the batch and on a single recording, m0
   and m1 b their states at the start *)
Theorem c74_tiss (C : numClosedFieldType) (root : nat -> C) n_fft h window nS nB n B (x : tensor C) (St St1 St2 : Type)
    (tm : St -> tensor C -> result (tensor C * St)) (tm1 : St2 -> tensor C -> result (tensor C * St2))
    (m : St1 -> sig C (n_fft %/ 2).+1 (frames_of n_fft h n) nS -> sig C (n_fft %/ 2).+1 (frames_of n_fft h n) nS * St1)
    inv inv1 rs rs1 m0 (m1 : seq nat -> St2) eps n_iter n_taps n_delay n_src use_dmc pb (ref : option 'I_(nS + nB)) :
  sh x = [:: n, nS + nB & B]%N -> (0 < TorchShape.numel B)%N -> source_as B tm m inv rs -> source_as [::] tm1 m inv1 rs1 ->
  inv m0 -> (forall b, inr B b -> inv1 (m1 b) /\ rs1 (m1 b) [::] = rs m0 b) -> n_src_is nS nB n_src -> pb_is B pb ref ->
  one_by_one n nS B
    (t_bss_forward root n_fft h window (fun X => rmap (fun r => r.1.1) (t_tiss_forward tm n_iter n_taps n_delay n_src use_dmc pb eps m0 X)) x)
    (fun b => t_bss_forward root n_fft h window (fun X => rmap (fun r => r.1.1) (t_tiss_forward tm1 n_iter n_taps n_delay n_src use_dmc pb eps (m1 b) X)) (recording x b)).
Proof. move=> sx ne hm hm1 i0 i1 hn hp; exact (tiss_recordings root window ne sx hm hm1 eps i0 i1 n_taps n_delay n_iter use_dmc hn hp). Qed.
Print Assumptions c74_tiss.
Theorem c74_ip (C : numClosedFieldType) (root : nat -> C) n_fft h window nS nB n B (x : tensor C) (St St1 St2 : Type)
    (tm : St -> tensor C -> result (tensor C * St)) (tm1 : St2 -> tensor C -> result (tensor C * St2))
    (m : St1 -> sig C (n_fft %/ 2).+1 (frames_of n_fft h n) nS -> sig C (n_fft %/ 2).+1 (frames_of n_fft h n) nS * St1)
    inv inv1 rs rs1 m0 (m1 : seq nat -> St2) eps n_iter pb (ref : option 'I_(nS + nB)) :
  sh x = [:: n, nS + nB & B]%N -> (0 < TorchShape.numel B)%N -> source_as B tm m inv rs -> source_as [::] tm1 m inv1 rs1 ->
  inv m0 -> (forall b, inr B b -> inv1 (m1 b) /\ rs1 (m1 b) [::] = rs m0 b) -> pb_near pb ref ->
  one_by_one n nS B (t_bss_forward root n_fft h window (t_ip_forward tm n_iter (Some nS) pb eps m0) x)
    (fun b => t_bss_forward root n_fft h window (t_ip_forward tm1 n_iter (Some nS) pb eps (m1 b)) (recording x b)).
Proof. move=> sx ne hm hm1 i0 i1 hp; exact (ip_recordings root window ne sx hm hm1 eps i0 i1 n_iter hp). Qed.
Print Assumptions c74_ip.
Theorem c74_ip2 (C : numClosedFieldType) (root : nat -> C) n_fft h window n B (x : tensor C) (St St1 St2 : Type)
    (tm : St -> tensor C -> result (tensor C * St)) (tm1 : St2 -> tensor C -> result (tensor C * St2))
    (m : St1 -> sig C (n_fft %/ 2).+1 (frames_of n_fft h n) 2 -> sig C (n_fft %/ 2).+1 (frames_of n_fft h n) 2 * St1)
    inv inv1 rs rs1 m0 (m1 : seq nat -> St2) eps n_iter (mic : option 'I_2) :
  sh x = [:: n, 2 & B]%N -> (0 < TorchShape.numel B)%N -> source_as B tm m inv rs -> source_as [::] tm1 m inv1 rs1 ->
  inv m0 -> (forall b, inr B b -> inv1 (m1 b) /\ rs1 (m1 b) [::] = rs m0 b) ->
  let pb := omap (fun k : 'I_2 => Z.of_nat k) mic in
  one_by_one n 2 B (t_bss_forward root n_fft h window (t_ip2_forward tm n_iter pb eps m0) x)
    (fun b => t_bss_forward root n_fft h window (t_ip2_forward tm1 n_iter pb eps (m1 b)) (recording x b)).
Proof. move=> sx ne hm hm1 i0 i1; exact (ip2_recordings root window ne eps n_iter mic sx hm hm1 i0 i1). Qed.
Print Assumptions c74_ip2.
Theorem c74_five (C : numClosedFieldType) (eighO : forall n, eigh_oracle C n) (root : nat -> C) n_fft h window k n B (x : tensor C) (St St1 St2 : Type)
    (tm : St -> tensor C -> result (tensor C * St)) (tm1 : St2 -> tensor C -> result (tensor C * St2))
    (m : St1 -> 'M[C]_(n_fft %/ 2, frames_of n_fft h n) -> 'M[C]_(n_fft %/ 2, frames_of n_fft h n) * St1)
    inv inv1 rs rs1 m0 (m1 : seq nat -> St2) z (mic : 'I_k.+1) n_iter n_power_iter :
  sh x = [:: n, k.+1 & B]%N -> (0 < TorchShape.numel B)%N -> extractor_as B tm m inv rs -> extractor_as [::] tm1 m inv1 rs1 -> mic_of z mic ->
  inv m0 -> (forall b, inr B b -> inv1 (m1 b) /\ rs1 (m1 b) [::] = rs m0 b) ->
  one_by_one n 1 B (t_bss_forward root n_fft h window (t_five_forward eighO tm n_iter (Some z) n_power_iter m0) x)
    (fun b => t_bss_forward root n_fft h window (t_five_forward eighO tm1 n_iter (Some z) n_power_iter (m1 b)) (recording x b)).
Proof. move=> sx ne hm hm1 hz i0 i1; exact (five_recordings eighO root window ne n_iter n_power_iter sx hm hm1 hz i0 i1). Qed.
Print Assumptions c74_five.
Theorem c74_beamformers (C : numClosedFieldType) (eighO : forall n, eigh_oracle C n) (root : nat -> C) n_fft h window k nS nM n B (x : tensor C) z
    (tm tm1 : tensor C -> result (tensor C)) (mm : mask_model C nS (n_fft %/ 2).+1 (frames_of n_fft h n)) :
  sh x = [:: n, k.+1 & B]%N -> (0 < TorchShape.numel B)%N -> TorchShape.valid k.+1 z -> masks_as nM B tm mm -> masks_as nM [::] tm1 mm ->
  [/\ forall ty eps p, one_by_one n nS B (t_bss_forward root n_fft h window (t_mvdr_forward eighO tm ty z eps p) x)
        (fun b => t_bss_forward root n_fft h window (t_mvdr_forward eighO tm1 ty z eps p) (recording x b)),
      forall ti, one_by_one n nS B (t_bss_forward root n_fft h window (t_mwf_forward tm ti z) x)
        (fun b => t_bss_forward root n_fft h window (t_mwf_forward tm1 ti z) (recording x b)) &
      one_by_one n nS B (t_bss_forward root n_fft h window (t_gev_forward eighO tm z) x)
        (fun b => t_bss_forward root n_fft h window (t_gev_forward eighO tm1 z) (recording x b))].
Proof.
move=> sx ne vz hm hm1; exact (And3 (mvdr_recordings eighO root window ne sx vz hm hm1) (mwf_recordings root window ne sx vz hm hm1) (gev_recordings eighO root window ne sx vz hm hm1)).
Qed.
Print Assumptions c74_beamformers.

(* ---- shapes: as many samples as the input, and the remaining dimensions of what the separator returns *)
Theorem c74_length (C : numClosedFieldType) (root : nat -> C) n_fft h window sep (x y : tensor C) n r : sh x = n :: r ->
  t_bss_forward root n_fft h window sep x = Ok y -> exists X Y,
  [/\ t_stft root n_fft h window x = Ok X, sep X = Ok Y & sh y = n :: drop 2 (sh Y)].
Proof. exact: bss_length. Qed.
Print Assumptions c74_length.
Theorem c74_no_failure (C : numClosedFieldType) (root : nat -> C) n_fft h window n nC nS B (x : tensor C) sep :
  good_window n_fft (hop n_fft h) window -> sh x = [:: n, nC & B] -> (n_fft %/ 2 < n)%N -> (0 < recovered n_fft (hop n_fft h) n)%N ->
  (forall X, sh X = [:: frames_of n_fft h n, (n_fft %/ 2).+1, nC & B] -> exists2 Y, sep X = Ok Y & sh Y = [:: frames_of n_fft h n, (n_fft %/ 2).+1, nS & B]) ->
  exists2 y, t_bss_forward root n_fft h window sep x = Ok y & sh y = [:: n, nS & B].
Proof. move=> hw sx hn r0; exact (bss_no_failure root hw sx hn r0 (sep := sep) (nS := nS)). Qed.
Print Assumptions c74_no_failure.
(* T_ISS on a batch of recordings *)
Theorem c74_tiss_total (C : numClosedFieldType) (root : nat -> C) n_fft h window nS nB n B (x : tensor C) (St St1 : Type)
    (tm : St -> tensor C -> result (tensor C * St))
    (m : St1 -> sig C (n_fft %/ 2).+1 (frames_of n_fft h n) nS -> sig C (n_fft %/ 2).+1 (frames_of n_fft h n) nS * St1)
    inv rs m0 eps n_iter n_taps n_delay n_src use_dmc pb (ref : option 'I_(nS + nB)) :
  good_window n_fft (hop n_fft h) window -> sh x = [:: n, nS + nB & B]%N -> (n_fft %/ 2 < n)%N -> (0 < recovered n_fft (hop n_fft h) n)%N ->
  source_as B tm m inv rs -> inv m0 -> n_src_is nS nB n_src -> 0 < eps -> pb_is B pb ref ->
  exists2 y, t_bss_forward root n_fft h window (fun X => rmap (fun r => r.1.1) (t_tiss_forward tm n_iter n_taps n_delay n_src use_dmc pb eps m0 X)) x = Ok y &
    sh y = [:: n, nS & B].
Proof. move=> hw sx hn r0 hm i0 hs e0 hp; exact (tiss_recordings_total root n_taps n_delay n_iter use_dmc hw sx hn r0 hm i0 hs e0 hp). Qed.
Print Assumptions c74_tiss_total.
Theorem c74_short (C : numClosedFieldType) (root : nat -> C) n_fft h window sep (x : tensor C) n c r : sh x = [:: n, c & r] ->
  (n <= n_fft %/ 2)%N -> t_bss_forward root n_fft h window sep x = Err RuntimeError.
Proof. exact: bss_short. Qed.
Print Assumptions c74_short.
Theorem c74_axes (C : numClosedFieldType) (root : nat -> C) n_fft h window sep (x : tensor C) : (size (sh x) < 2)%N ->
  t_bss_forward root n_fft h window sep x = Err ValueError.
Proof. exact: bss_axes. Qed.
Print Assumptions c74_axes.

(* ---- a separator that does nothing: every recording comes back up to the lost samples *)
Theorem c74_round_trip (C : numClosedFieldType) (root : nat -> C) n_fft h window n nC B (x : tensor C) :
  unit_roots root -> good_window n_fft (hop n_fft h) window -> sh x = [:: n, nC & B] -> (n_fft %/ 2 < n)%N -> (0 < recovered n_fft (hop n_fft h) n)%N ->
  (forall i, at_ x i \is Num.real) ->
  exists2 y, t_bss_forward root n_fft h window (fun X => Ok X) x = Ok y & sh y = sh x /\
    forall t i, (t < n)%N -> inr (nC :: B) i -> at_ y (t :: i) = if (t < recovered n_fft (hop n_fft h) n)%N then at_ x (t :: i) else 0.
Proof. move=> hr hw sx hn r0 xr; exact (bss_round_trip hw sx hn r0 hr xr). Qed.
Print Assumptions c74_round_trip.

(* ---- examples: a batch of shape (3, 2) of two-channel recordings of 7 samples, n_fft = 8, hop 2 *)
Example c74_example_window (C : numClosedFieldType) : good_window 8 (hop 8 None) (fun _ => 1 : C) /\ recovered 8 (hop 8 None) 7 = 6%N /\ frames_of 8 None 7 = 4%N.
Proof.
split=> //; split; first by move=> j; exact: real1.
split=> //; exists 2%N; split=> // j _; by rewrite expr1n invf_lt1 ?exprn_gt0 ?ltr0n // exprn_egt1 // ltr1n.
Qed.
Example c74_example_tiss (C : numClosedFieldType) (root : nat -> C) :
  let run (x : tensor C) := t_bss_forward root 8 None (fun _ => 1)
    (fun X => rmap (fun r => r.1.1) (t_tiss_forward (stateless (t_laplace (1 : C))) 3 2 1 None false (Some Z0) 1 tt X)) x in
  one_by_one 7 2 [:: 2; 3]%N (run (tape C)) (fun b => run (recording (tape C) b)).
Proof.
have hp : @pb_is 2 0 [:: 2; 3]%N (Some Z0) (Some (@Ordinal 2 0 isT)) by split; [|right].
exact (@c74_tiss C root 8 None (fun _ => 1) 2 0 7 [:: 2; 3]%N (tape C) _ _ _ _ _ _ _ _ _ _ tt (fun _ => tt) 1 3 2 1 None false (Some Z0) (Some (@Ordinal 2 0 isT))
  erefl isT (@laplace_as C 5 4 2 [:: 2; 3]%N 1) (@laplace_as C 5 4 2 [::] 1) I (fun _ _ => conj I erefl) erefl hp).
Qed.
Example c74_example_tiss_total (C : numClosedFieldType) (root : nat -> C) : exists2 y, t_bss_forward root 8 None (fun _ => 1)
    (fun X => rmap (fun r => r.1.1) (t_tiss_forward (stateless (t_laplace (1 : C))) 3 2 1 (Some 1%N) false None 1 tt X)) (tape C) = Ok y & sh y = [:: 7; 1; 2; 3]%N.
Proof.
have [hw _] := c74_example_window C; have e1 : (0 < 1 :> C) := ltr01.
exact (@c74_tiss_total C root 8 None (fun _ => 1) 1 1 7 [:: 2; 3]%N (tape C) _ _ _ _ _ _ tt 1 3 2 1 (Some 1%N) false None None
  hw erefl isT isT (@laplace_as C 5 4 1 [:: 2; 3]%N 1) I erefl e1 I).
Qed.
Example c74_example_ip (C : numClosedFieldType) (root : nat -> C) :
  let run (x : tensor C) := t_bss_forward root 8 None (fun _ => 1) (t_ip_forward (stateless (t_gauss (1 : C))) 3 (Some 1%N) (Some Z0) 1 tt) x in
  one_by_one 7 1 [:: 2; 3]%N (run (tape C)) (fun b => run (recording (tape C) b)).
Proof.
have hp : @pb_near 1 1 (Some Z0) (Some (@Ordinal 2 0 isT)) by split.
exact (@c74_ip C root 8 None (fun _ => 1) 1 1 7 [:: 2; 3]%N (tape C) _ _ _ _ _ _ _ _ _ _ tt (fun _ => tt) 1 3 (Some Z0) (Some (@Ordinal 2 0 isT))
  erefl isT (@gauss_as C 5 4 1 [:: 2; 3]%N 1) (@gauss_as C 5 4 1 [::] 1) I (fun _ _ => conj I erefl) hp).
Qed.
Example c74_example_ip2 (C : numClosedFieldType) (root : nat -> C) :
  let run (x : tensor C) := t_bss_forward root 8 None (fun _ => 1) (t_ip2_forward (stateless (t_gauss (1 : C))) 3 (Some (Z.of_nat 1)) 1 tt) x in
  one_by_one 7 2 [:: 2; 3]%N (run (tape C)) (fun b => run (recording (tape C) b)).
Proof.
exact (@c74_ip2 C root 8 None (fun _ => 1) 7 [:: 2; 3]%N (tape C) _ _ _ _ _ _ _ _ _ _ tt (fun _ => tt) 1 3 (Some (@Ordinal 2 1 isT))
  erefl isT (@gauss_as C 5 4 2 [:: 2; 3]%N 1) (@gauss_as C 5 4 2 [::] 1) I (fun _ _ => conj I erefl)).
Qed.
Example c74_example_five (C : numClosedFieldType) (eighO : forall n, eigh_oracle C n) (root : nat -> C) :
  let run (x : tensor C) := t_bss_forward root 8 None (fun _ => 1) (t_five_forward eighO (stateless (t_laplace (1 : C))) 2 (Some (Zneg xH)) None tt) x in
  one_by_one 7 1 [:: 2; 3]%N (run (tape C)) (fun b => run (recording (tape C) b)).
Proof.
exact (@c74_five C eighO root 8 None (fun _ => 1) 1 7 [:: 2; 3]%N (tape C) _ _ _ _ _ _ _ _ _ _ tt (fun _ => tt) (Zneg xH) (@Ordinal 2 1 isT) 2 None
  erefl isT (@laplace_as2 C 4 4 [:: 2; 3]%N 1) (@laplace_as2 C 4 4 [::] 1) erefl I (fun _ _ => conj I erefl)).
Qed.
Example c74_example_mwf (C : numClosedFieldType) (eighO : forall n, eigh_oracle C n) (root : nat -> C) :
  let run (x : tensor C) := t_bss_forward root 8 None (fun _ => 1) (t_mwf_forward (@ones C) true Z0) x in
  one_by_one 7 1 [:: 2; 3]%N (run (tape C)) (fun b => run (recording (tape C) b)).
Proof.
have [_ h _] := @c74_beamformers C eighO root 8 None (fun _ => 1) 1 1 2 7 [:: 2; 3]%N (tape C) Z0 (@ones C) (@ones C) (@ones_masks C 5 4)
  erefl isT isT (@ones_as C 5 4 [:: 2; 3]%N) (@ones_as C 5 4 [::]).
exact (h true).
Qed.
Example c74_example_short (C : numClosedFieldType) (root : nat -> C) sep : t_bss_forward root 16 None (fun _ => 1) sep (tape C) = Err RuntimeError.
Proof. exact: (@c74_short C root 16 None (fun _ => 1) sep (tape C) 7 2 [:: 2; 3]%N erefl isT). Qed.
Example c74_example_round_trip : exists2 y, t_bss_forward expi 8 None (hann 8) (fun X => Ok X) (tape CR) = Ok y &
  at_ y [:: 5; 1; 1; 2]%N = 9%:R /\ at_ y [:: 6; 1; 1; 2]%N = 0.
Proof.
have hw : good_window 8 (hop 8 None) (hann 8) by exact: hann_good.
have [y e [_ h]] := @c74_round_trip CR expi 8 None (hann 8) 7 2 [:: 2; 3]%N (tape CR) expi_roots hw erefl isT isT (fun i => realn _ _).
by exists y; [exact e|split; rewrite h].
Qed.
