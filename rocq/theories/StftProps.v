(* C45: STFT round trip and output length.  hop n_fft h is the hop used: h, or n_fft // 4. *)
From mathcomp Require Import all_ssreflect all_algebra zify.
From Verif Require Import CAlg Py RLog FftModel FftSpec FftProofs StftModel StftSpec StftProofs StftReal.
Set Implicit Arguments. Unset Strict Implicit. Unset Printing Implicit Defensive.
Import GRing.Theory Num.Theory Order.TTheory.
Local Open Scope ring_scope.

(* every output has the length of the input, whatever the separator does *)
Theorem c45_length (C : numClosedFieldType) (root : nat -> C) n_fft h window separator n xs ys :
  sep_forward root n_fft h window separator n xs = Ok ys -> forall y, y \in ys -> size y = n.
Proof. exact: forward_size. Qed.
Print Assumptions c45_length.

(* a separator that does nothing: the first recovered(n) samples come back, the rest is zero *)
Theorem c45_round_trip (C : numClosedFieldType) (root : nat -> C) : unit_roots root ->
  forall n_fft h (window : nat -> C), (2 <= n_fft)%N -> good_window n_fft (hop n_fft h) window ->
  forall n (xs : seq (seq C)), (n_fft %/ 2 < n)%N -> (0 < recovered n_fft (hop n_fft h) n)%N ->
  (forall x, x \in xs -> real_signal x /\ size x = n) ->
  sep_forward root n_fft h window (fun X => Ok X) n xs
  = Ok [seq take (recovered n_fft (hop n_fft h) n) x ++ nseq (n - recovered n_fft (hop n_fft h) n) 0 | x <- xs].
Proof. move=> hr n_fft h window _ hw n xs; exact: round_trip. Qed.
Print Assumptions c45_round_trip.

(* even n_fft: the last n mod hop samples are lost *)
Theorem c45_lost n_fft hop n : ~~ odd n_fft -> (0 < hop)%N -> (n - recovered n_fft hop n)%N = (n %% hop)%N.
Proof. by move=> /negPf e _; rewrite /recovered e mulnC {1}(divn_eq n hop) addKn. Qed.
Print Assumptions c45_lost.

(* no exception, given a separator which raises none and keeps the number of frames *)
Theorem c45_no_failure (C : numClosedFieldType) (root : nat -> C) n_fft h (window : nat -> C) :
  (2 <= n_fft)%N -> good_window n_fft (hop n_fft h) window ->
  forall separator n (xs : seq (seq C)), (n_fft %/ 2 < n)%N -> (0 < recovered n_fft (hop n_fft h) n)%N ->
  (forall x, x \in xs -> size x = n) ->
  (forall X k, (forall s, List.In s X -> s.1 = k) ->
     exists Y, separator X = Ok Y /\ forall s, List.In s Y -> s.1 = k) ->
  exists ys, sep_forward root n_fft h window separator n xs = Ok ys.
Proof. move=> n2 hw sep n xs hn r0 hx hs; apply: no_failure => // X _; exact: hs. Qed.
Print Assumptions c45_no_failure.

(* exceptions: input not longer than n_fft // 2, *)
Theorem c45_short (C : numClosedFieldType) (root : nat -> C) n_fft h (window : nat -> C) separator n x xs :
  (size x <= n_fft %/ 2)%N -> sep_forward root n_fft h window separator n (x :: xs) = Err RuntimeError.
Proof. exact: forward_short. Qed.
Print Assumptions c45_short.
(* even n_fft and input shorter than one hop, *)
Theorem c45_one_hop (C : numClosedFieldType) (root : nat -> C) n_fft h (window : nat -> C) :
  (2 <= n_fft)%N -> good_window n_fft (hop n_fft h) window ->
  forall n (xs : seq (seq C)), (n_fft %/ 2 < n)%N -> ~~ odd n_fft -> (n < hop n_fft h)%N ->
  (forall x, x \in xs -> size x = n) -> xs != [::] ->
  sep_forward root n_fft h window (fun X => Ok X) n xs = Err RuntimeError.
Proof.
move=> n2 hw n xs hn /negPf e hop; apply: round_trip_empty => //.
by rewrite /recovered e divn_small ?muln0.
Qed.
Print Assumptions c45_one_hop.
(* default hop with n_fft < 4, *)
Theorem c45_tiny_fft (C : numClosedFieldType) (root : nat -> C) n_fft (window : nat -> C) separator n x xs :
  (n_fft < 4)%N -> sep_forward root n_fft None window separator n (x :: xs) = Err RuntimeError.
Proof. by move=> h; apply: forward_hop0; rewrite /hop /= divn_small. Qed.
Print Assumptions c45_tiny_fft.
(* hop longer than n_fft: found out after the separation only *)
Theorem c45_long_hop (C : numClosedFieldType) (root : nat -> C) n_fft h (window : nat -> C) X :
  (n_fft < hop n_fft h)%N -> istft root n_fft h window X = Err RuntimeError.
Proof. exact: istft_hop. Qed.
Print Assumptions c45_long_hop.

(* the default window (Hann) over the complex numbers, with the actual Fourier roots: fine with the
   default hop, and with every hop up to half of n_fft *)
Theorem c45_hann n_fft h : (2 <= n_fft)%N -> (0 < hop n_fft h)%N -> (2 * hop n_fft h <= n_fft)%N ->
  unit_roots expi /\ good_window n_fft (hop n_fft h) (hann n_fft).
Proof. by move=> n2 h0 h1; split; [exact: expi_roots|exact: hann_good]. Qed.
Print Assumptions c45_hann.
Theorem c45_default n_fft : (4 <= n_fft)%N -> forall n (xs : seq (seq CR)), (n_fft %/ 2 < n)%N ->
  (forall x, x \in xs -> real_signal x /\ size x = n) ->
  sep_forward expi n_fft None (hann n_fft) (fun X => Ok X) n xs
  = Ok [seq take (recovered n_fft (n_fft %/ 4) n) x ++ nseq (n - recovered n_fft (n_fft %/ 4) n) 0 | x <- xs].
Proof.
move=> n4 n xs hn hx; apply: round_trip => //; first exact: expi_roots.
- by apply: hann_good; rewrite /hop /=; lia.
- rewrite /recovered /hop /=; case: ifP => _; first by rewrite addn1.
  by rewrite muln_gt0 !divn_gt0 //=; lia.
Qed.
Print Assumptions c45_default.

(* n_fft = 8, hop 3, 11 samples: 9 come back, 2 are lost *)
Example c45_example : good_window 8 3 (hann 8) /\ recovered 8 3 11 = 9%N.
Proof. by split; [exact: hann_good|]. Qed.
(* a rectangular window *)
Example c45_example_rect (C : numClosedFieldType) : good_window 4 4 (fun _ => 1 : C).
Proof.
split; first by move=> j; exact: real1.
split=> //; exists 0%N; split=> // j _; by rewrite expr1n invf_lt1 ?exprn_gt0 ?ltr0n // exprn_egt1 // ltr1n.
Qed.
