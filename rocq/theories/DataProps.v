(* Properties C53, C55 and C56: the data pipeline of the examples. *)
From Coq Require Import List ZArith Permutation Lia.
From Verif Require Import Py DataModel DataSpec DataProofs.
Import ListNotations.

(* ------------------------------------------------------------------- C53 *)
(* an epoch delivers the loaders' batches in rounds, whatever the number and lengths of the
   loaders, and leaves the object as a fresh one with the loaders iterated anew *)
Theorem c53_round_robin B (contents : nat -> list (list B)) e n bs s :
  (forall l, In l (contents e) -> length l <= n) ->
  (epoch contents (reset contents e) bs s <-> bs = round_robin n (contents e) /\ s = reset contents (S e)).
Proof. exact (epoch_iff B contents e n bs s). Qed.
Print Assumptions c53_round_robin.
(* so every batch once, as many as __len__ says *)
Theorem c53_exactly_once B (contents : nat -> list (list B)) e bs s :
  epoch contents (reset contents e) bs s ->
  Permutation bs (concat (contents e)) /\ length bs = total contents e /\ s = reset contents (S e).
Proof. exact (epoch_perm B contents e bs s). Qed.
Print Assumptions c53_exactly_once.
(* the batches of each loader in its order *)
Theorem c53_order B (contents : nat -> list (list B)) (tag : B -> nat) e bs s k :
  epoch contents (reset contents e) bs s ->
  (forall i l b, nth_error (contents e) i = Some l -> In b l -> tag b = i) ->
  filter (fun b => Nat.eqb (tag b) k) bs = nth k (contents e) [].
Proof. exact (epoch_order B contents tag e bs s k). Qed.
Print Assumptions c53_order.

Definition loaders (e : nat) : list (list nat) := [[1; 2; 3]; []; [11]; [21; 22]].
Example c53_example : epoch loaders (init loaders) [1; 11; 21; 2; 22; 3] (reset loaders 1) /\ total loaders 0 = 6.
Proof. split; [|reflexivity]. apply (c53_round_robin nat loaders 0 3); simpl; [|auto]. intuition subst; simpl; lia. Qed.
Example c53_example_none : epoch (fun _ => []) (init (fun _ => @nil (list nat))) [] (reset (fun _ => []) 1).
Proof. now apply stop. Qed.

(* ------------------------------------------------------------------- C55 *)
(* an interval of the mixture of the wanted length, or the whole mixture *)
Theorem c55_interval T M lens offs :
  (0 <= T)%Z -> (0 <= M)%Z -> length lens = length offs -> offs <> [] ->
  exists s e, compute_interval T M lens offs = Ok (s, e) /\ (0 <= s <= e)%Z /\ (e <= M)%Z /\ (e - s = Z.min T M)%Z.
Proof. exact (interval_ok T M lens offs). Qed.
Print Assumptions c55_interval.
(* the overlap of the sources, from l to r, is in the interval if it is not longer, and contains
   the interval if it is not shorter; away from the borders the interval is centred on it *)
Theorem c55_overlap T M lens offs l r s e :
  (0 <= T)%Z -> length lens = length offs -> (T < M)%Z ->
  is_max offs l -> is_min (map (fun p => fst p + snd p)%Z (combine offs lens)) r -> (0 <= l)%Z -> (r <= M)%Z ->
  compute_interval T M lens offs = Ok (s, e) ->
  ((r - l <= T)%Z -> (s <= l /\ r <= e)%Z) /\
  ((T <= r - l)%Z -> (l <= s /\ e <= r)%Z) /\
  ((0 < s)%Z -> (e < M)%Z -> (-1 <= (s + e) - (l + r) <= 1)%Z).
Proof. exact (overlap_lemma T M lens offs l r s e). Qed.
Print Assumptions c55_overlap.
(* it need not contain any of the sources, contrary to the docstring: two sources that do
   not overlap *)
Theorem c55_contains_sources_refuted :
  exists T M lens offs s e, length lens = length offs /\ compute_interval T M lens offs = Ok (s, e) /\
    Forall2 (fun o n => 0 <= o /\ 0 < n <= T /\ o + n <= M /\ (o + n <= s \/ e <= o))%Z offs lens.
Proof. exact no_source. Qed.
Print Assumptions c55_contains_sources_refuted.

Example c55_example :
  compute_interval 6 20 [8; 9]%Z [2; 5]%Z = Ok (4, 10)%Z /\ compute_interval 5 20 [8; 9]%Z [2; 5]%Z = Ok (5, 10)%Z /\
  compute_interval 12 20 [8; 9]%Z [2; 1]%Z = Ok (0, 12)%Z /\ compute_interval 12 20 [8; 9]%Z [12; 11]%Z = Ok (8, 20)%Z /\
  compute_interval 30 20 [8; 9]%Z [12; 11]%Z = Ok (0, 20)%Z /\ compute_interval 10 20 [] [] = Err ValueError.
Proof. repeat split. Qed.
Example c55_example_overlap : is_max [2; 5]%Z 5 /\ is_min (map (fun p => fst p + snd p)%Z (combine [2; 5] [8; 9])%Z) 10.
Proof. split; split; simpl; auto; intros x H; intuition subst; lia. Qed.

(* ------------------------------------------------------------------- C56 *)
(* examples with as many channels each and targets as long as their mixtures: rows of the length
   of the longest one, holding every signal unmodified in the middle *)
Theorem c56_embeds S (zero : S) (l : list (sig S * sig S)) mc rc : l <> [] ->
  (forall d t, In (d, t) l -> chans d = mc /\ chans t = rc /\ len t = len d) ->
  exists r, collator zero l = Ok r /\ n_batch r = length l /\ mix_ch r = mc /\ ref_ch r = rc /\
  (forall d t, In (d, t) l -> len d <= n_samples r) /\ (exists d t, In (d, t) l /\ len d = n_samples r) /\
  length (rows r) = length l /\
  forall b d t x y, nth_error l b = Some (d, t) -> nth_error (rows r) b = Some (x, y) ->
    embeds zero x d ((n_samples r - len d) / 2) (n_samples r) /\ embeds zero y t ((n_samples r - len d) / 2) (n_samples r).
Proof. exact (collator_ok S zero l mc rc). Qed.
Print Assumptions c56_embeds.
(* another number of channels than the first example raises, unless it is one *)
Theorem c56_channels S (zero : S) d0 t0 l :
  (exists d t, In (d, t) l /\ chans d <> chans d0 /\ chans d <> 1) -> collator zero ((d0, t0) :: l) = Err RuntimeError.
Proof. exact (collator_err S zero d0 t0 l). Qed.
Print Assumptions c56_channels.
(* then it is copied to all channels without a warning *)
Theorem c56_mono_rejected_refuted S (zero : S) d0 d t : 1 < chans d0 -> chans d = 1 -> chans t = 1 -> len t = len d -> len d = len d0 ->
  exists r x y, collator zero [(d0, t); (d, t)] = Ok r /\ nth_error (rows r) 1 = Some (x, y) /\
    forall c n, c < chans d0 -> n < len d -> x c n = at_ d 0 n.
Proof. exact (mono S zero d0 d t). Qed.
Print Assumptions c56_mono_rejected_refuted.

Definition ramp n c0 : sig nat := mksig 2 n (fun c t => c0 + 10 * c + t).
Example c56_example :
  match collator 0 [(ramp 5 100, ramp 5 200); (ramp 2 300, ramp 2 400)] with
  | Ok r => n_samples r = 5 /\
      match rows r with
      | [_; (x, y)] => map (x 1) (seq 0 5) = [0; 310; 311; 0; 0] /\ map (y 0) (seq 0 5) = [0; 400; 401; 0; 0]
      | _ => False
      end
  | Err _ => False
  end.
Proof. vm_compute; repeat split. Qed.
(* a target longer than its mixture *)
Example c56_example_target : collator 0 [(ramp 5 100, ramp 5 200); (ramp 2 300, ramp 5 400)] = Err RuntimeError.
Proof. reflexivity. Qed.
