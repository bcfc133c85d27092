(* Specification of C79. *)
From Coq Require Import List ZArith QArith Qabs String.
From Verif Require Import Py DataModel MixModel.
Import ListNotations.
Set Implicit Arguments.

(* y is the signal f with n samples, multiplied by the gain and cut to integers; nothing follows
   sample k of f *)
Definition written (gain : Q) (ch n k : nat) (f : nat -> nat -> Q) (y : sig Z) : Prop :=
  chans y = ch /\ len y = n /\
  forall c t, (c < ch)%nat -> (t < n)%nat ->
    Qabs (inject_Z (at_ y c t) - (if (t <? k)%nat then f c t else 0) * gain) < 1 /\ (Z.abs (at_ y c t) <= 31129)%Z.
(* the largest number that can be found in the files *)
Definition peaks (y : sig Z) : Prop :=
  exists c t, (c < chans y)%nat /\ (t < len y)%nat /\ Z.abs (at_ y c t) = 31129%Z.
Definition sumZ (l : list Z) : Z := fold_right Z.add 0%Z l.
Definition sounding (p : premix) : Prop := exists f c t, In f (p_src p) /\ (c < p_ch p)%nat /\ (t < p_len p)%nat /\ ~ f c t == 0.

(* a batch of the first m samples of the signals *)
Definition batch_of (l : list (sig Z)) (m : nat) (x : cube) : Prop :=
  c_n x = List.length l /\ c_len x = m /\ (forall y, In y l -> (m <= len y)%nat /\ chans y = c_ch x) /\
  (exists y, In y l /\ len y = m) /\
  forall b y c t, nth_error l b = Some y -> (c < c_ch x)%nat -> (t < m)%nat -> c_at x b c t = at_ y c t.

(* w holds, one row per file, channel mic (counted from the end if negative) of the named files, all
   of them with rate fs and of one length *)
Definition refs_of (load : string -> option (sig Z * Z)) (mic fs : Z) (names : list string) (w : sig Z) : Prop :=
  names <> [] /\ chans w = List.length names /\
  forall k f, nth_error names k = Some f ->
    exists x c, load f = Some (x, fs) /\ len x = len w /\ (c < chans x)%nat /\
      (Z.of_nat c = mic \/ (mic < 0)%Z /\ Z.of_nat c = (mic + Z.of_nat (chans x))%Z) /\
      forall t, at_ w k t = at_ x c t.
Definition sample_of (load : string -> option (sig Z * Z)) (mic : Z) (s : sample) (x : sig Z * sig Z * sig Z) : Prop :=
  exists fs, load (s_mix s) = Some (fst (fst x), fs) /\
    refs_of load mic fs (s_wet s) (snd (fst x)) /\ refs_of load mic fs (s_dry s) (snd x).
(* x holds the whole files, all of one length, as (samples, sources, channels, time); ch channels of them *)
Definition whole_refs (load : string -> option (sig Z * Z)) (names : list (list string)) (x : tens4) : Prop :=
  t_b x = List.length names /\
  forall b fs k f, nth_error names b = Some fs -> nth_error fs k = Some f -> t_src x = List.length fs /\
    exists y rate, load f = Some (y, rate) /\ len y = t_len x /\ t_ch x = Nat.min (t_len x) (chans y) /\
      forall c t, t_at x b k c t = at_ y c t.
