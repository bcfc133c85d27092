(* Specification of C78: what the files of an item say, independently of the loader. *)
From Coq Require Import List ZArith Permutation String.
From Verif Require Import Py DataModel ItemModel.
Import ListNotations.
Set Implicit Arguments.

(* what torch.randperm, torch.randint and random.randint may return *)
Definition fair (w : draw) : Prop :=
  (forall n, Permutation (d_perm w n) (seq 0 n)) /\
  (forall n, 0 < n -> d_ref w n < n) /\
  (forall n, 0 < n -> (0 <= d_idx w n < Z.of_nat n)%Z).

Definition sum (l : list Z) : Z := fold_right Z.add 0%Z l.

(* files m and xs: a mixture and its references, of equal lengths, channels and sampling rates *)
Record recorded (load : path -> option (sig Z * Z)) (mix_fn : path) (ref_fns : list path)
    (m : sig Z) (xs : list (sig Z)) (fs : Z) : Prop := {
  rec_mix : load (relative mix_fn) = Some (m, fs);
  rec_refs : Forall2 (fun f x => load (relative f) = Some (x, fs)) ref_fns xs;
  rec_some : xs <> [];
  rec_shape : Forall (fun x => chans x = chans m /\ len x = len m) xs }.
(* the mixture is the sum of the references, on every channel *)
Definition adds_up (m : sig Z) (xs : list (sig Z)) : Prop :=
  forall c t, c < chans m -> t < len m -> at_ m c t = sum (map (fun x => at_ x c t) xs).
(* the files an item is made of *)
Definition mix_file (noiseless : bool) (r : room) : path :=
  if noiseless then mixed_reverberant r else mixed_noise_reverb r.
Definition ref_files (reverb : bool) (r : room) : list path :=
  if reverb then image_reverberant r else image_anechoic r.

(* x consists of the n samples of y that follow sample s, its channel c being channel p c of y *)
Definition excerpt (p : nat -> nat) (s n : nat) (y x : sig Z) : Prop :=
  chans x = chans y /\ len x = n /\ forall c t, c < chans x -> t < n -> at_ x c t = at_ y (p c) (s + t).
(* the channels of x are the channel mic of the signals ys, in the same n samples *)
Definition references (mic s n : nat) (ys : list (sig Z)) (x : sig Z) : Prop :=
  chans x = List.length ys /\ len x = n /\
  forall k y t, nth_error ys k = Some y -> t < n -> at_ x k t = at_ y mic (s + t).
(* a permutation of the channels *)
Definition shuffles (p : nat -> nat) (n : nat) : Prop := Permutation (map p (seq 0 n)) (seq 0 n).

Definition silent (n : nat) (f : nat -> Z) : Prop := forall t, t < n -> f t = 0%Z.

(* all rooms of the dataset have their files *)
Definition complete (load : path -> option (sig Z * Z)) (d : dataset) : Prop := forall r, In r (metadata d) ->
  exists m xs fs, recorded load (mix_file (noiseless d) r) (ref_files (ref_is_reverb d) r) m xs fs /\
    (0 <= ref_mic d < Z.of_nat (chans m))%Z.

(* a number of channels as a key of a dict from Python or from a JSON file *)
Definition names (k : key) (m : Z) : Prop := k = KInt m \/ k = KStr (str m).
(* the rooms that a number of samples selects *)
Definition selected (n : option Z) (rooms out : list room) : Prop :=
  match n with
  | None => out = rooms
  | Some k => (k = -1 -> out = rooms)%Z /\ ((0 <= k)%Z -> out = firstn (Z.to_nat k) rooms) /\
              ((k < -1)%Z -> out = firstn (List.length rooms - Z.to_nat (- k)) rooms)
  end.

(* r is element i of the list, counted from the end if i is negative *)
Definition element (l : list room) (i : Z) (r : room) : Prop :=
  ((0 <= i)%Z -> nth_error l (Z.to_nat i) = Some r) /\
  ((i < 0)%Z -> nth_error (rev l) (Z.to_nat (- i) - 1) = Some r).
