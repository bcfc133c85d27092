(* Property C54: automatic gradient clipping. *)
From Coq Require Import List ZArith QArith Qround Permutation.
From Verif Require Import Py ClipModel ClipSpec ClipProofs.
Import ListNotations.

(* for every percentile between 0 and 100 (p between 0 and 1) and every sequence of calls with
   norms which are not NaN, the call succeeds, the history is the sorted list of all norms seen,
   and the threshold is one of them, of the rank wanted: r of the n norms being int(p n), or n - 1
   if this is n, at least r + 1 norms are not above it and n - r not below *)
Theorem c54_percentile fl p gs g : rounding fl -> (0 <= p)%Q -> (p <= 1)%Q -> (forall x, In x (gs ++ [g]) -> x <> NaN) ->
  let n := length (gs ++ [g]) in
  let r := Nat.min (Z.to_nat (Qfloor (fl (p * inject_Z (Z.of_nat n))%Q))) (n - 1) in
  exists c h, auto_clip fl p (snd (run fl p [] gs)) g = (Ok (g, c), h) /\ Permutation h (gs ++ [g]) /\ increasing h /\
  In c (gs ++ [g]) /\ at_least (S r) (fun x => num_le x c) (gs ++ [g]) /\ at_least (n - r) (fun x => num_le c x) (gs ++ [g]).
Proof. intros R; exact (percentile_floor fl p R gs g). Qed.
Print Assumptions c54_percentile.
(* percentile 100: the largest norm seen *)
Theorem c54_largest fl p gs g : rounding fl -> (p == 1)%Q -> (forall x, In x (gs ++ [g]) -> x <> NaN) ->
  exists c h, auto_clip fl p (snd (run fl p [] gs)) g = (Ok (g, c), h) /\ In c (gs ++ [g]) /\ forall x, In x (gs ++ [g]) -> num_le x c.
Proof. intros R; exact (p100 fl p R gs g). Qed.
Print Assumptions c54_largest.
(* yet a gradient whose norm is the largest so far is scaled down, by at most 1e-6 in norm:
   percentile 100 is not the same as no clipping *)
Theorem c54_never_clips_refuted g t : (0 < g)%Q -> (t == g)%Q ->
  exists f, clip_factor (Fin t) (Fin g) = Fin f /\ (f < 1)%Q /\ (g - (1 # 1000000) <= g * f)%Q.
Proof. exact (factor_record g t). Qed.
Print Assumptions c54_never_clips_refuted.
(* gradients clearly below the threshold are left alone *)
Theorem c54_below_threshold g t : (0 <= g)%Q -> (g + (1 # 1000000) <= t)%Q ->
  exists f, clip_factor (Fin t) (Fin g) = Fin f /\ (f == 1)%Q.
Proof. exact (factor_small g t). Qed.
Print Assumptions c54_below_threshold.
(* a percentile above 100 fails as soon as int(p n) exceeds the n norms *)
Theorem c54_out_of_range fl p h g :
  (Z.of_nat (S (length h)) < Qfloor (fl (p * inject_Z (Z.of_nat (S (length h))))%Q))%Z ->
  auto_clip fl p h g = (Err IndexError, insort h g).
Proof. exact (index_error_floor fl p h g). Qed.
Print Assumptions c54_out_of_range.
(* a negative percentile, however: with k + 1 = floor(-p n), the (k+1)-th largest norm is taken
   without complaint as long as there is one; IndexError otherwise *)
Theorem c54_negative fl p h g k : Qfloor (- fl (p * inject_Z (Z.of_nat (S (length h)))))%Q = Z.of_nat (S k) ->
  auto_clip fl p h g =
    (if (k <=? length h)%nat then Ok (g, nth (length h - k) (insort h g) NaN) else Err IndexError, insort h g).
Proof. exact (clip_negative fl p h g k). Qed.
Print Assumptions c54_negative.
Example c54_example_negative :
  auto_clip (fun x => x) (- 1 # 2) [Fin 1; Fin 4; Fin 9] (Fin 2) = (Ok (Fin 2, Fin 4), [Fin 1; Fin 2; Fin 4; Fin 9])
  /\ fst (auto_clip (fun x => x) (- 2) [Fin 1] (Fin 2)) = Err IndexError.
Proof. split; reflexivity. Qed.
(* if the first norm is NaN, it stays in front: with percentile 0 the threshold is NaN for ever
   after, whatever the gradients, and they are multiplied by NaN *)
Theorem c54_recovers_from_nan_refuted fl p gs g : rounding fl -> (p == 0)%Q ->
  exists h, auto_clip fl p (snd (run fl p [] (NaN :: gs))) g = (Ok (g, NaN), h) /\ clip_factor NaN g = NaN.
Proof. exact (nan_lemma fl p gs g). Qed.
Print Assumptions c54_recovers_from_nan_refuted.

(* exact arithmetic is a rounding; percentile 50 *)
Example c54_example_rounding : rounding (fun x => x).
Proof. split; auto. intros z; apply Qeq_refl. Qed.
Example c54_example :
  let gs := [Fin 5; Fin 1; Fin 3; Inf] in
  auto_clip (fun x => x) (1 # 2) (snd (run (fun x => x) (1 # 2) [] gs)) (Fin 2)
  = (Ok (Fin 2, Fin 3), [Fin 1; Fin 2; Fin 3; Fin 5; Inf]).
Proof. reflexivity. Qed.
Example c54_example_clip : clip_factor (Fin (1 # 1000000)) (Fin (1 # 1000000)) = Fin (1000000000000 # 2000000000000).
Proof. reflexivity. Qed.
Example c54_example_nan : fst (auto_clip (fun x => x) (1 # 10) (snd (run (fun x => x) (1 # 10) [] [NaN; Fin 1; Fin 2])) (Fin 3))
  = Ok (Fin 3, NaN).
Proof. reflexivity. Qed.
Example c54_example_range : fst (auto_clip (fun x => x) (3 # 2) [Fin 1] (Fin 3)) = Err IndexError.
Proof. reflexivity. Qed.
