(* Vocabulary of C65: rotating the phase of every microphone (at every frequency).
   A polarity inversion is the rotation by -1, a delay is a rotation by exp(-i omega tau). *)
From mathcomp Require Import all_ssreflect all_algebra.
From Verif Require Import CAlg TissModel.
Set Implicit Arguments. Unset Strict Implicit. Unset Printing Implicit Defensive.
Import GRing.Theory Num.Theory Order.TTheory.
Local Open Scope ring_scope.

Section Phase.
Variable C : numClosedFieldType.
Variables (nF nN : nat).
(* numbers of modulus one, per frequency and microphone *)
Definition phases c (d : 'I_nF -> 'I_c -> C) : Prop := forall f k, `|d f k| = 1.
(* the signals with the phases of the microphones changed *)
Definition rotate c (d : 'I_nF -> 'I_c -> C) (X : sig C nF nN c) : sig C nF nN c :=
  [ffun f => \matrix_(k, n) (d f k * X f k n)].
(* filters taking inputs with phases e to outputs with phases d *)
Definition rotate_filter m c (d : 'I_nF -> 'I_m -> C) (e : 'I_nF -> 'I_c -> C) (W : filt C nF m c) : filt C nF m c :=
  [ffun f => \matrix_(i, j) (d f i * W f i j * (e f j)^*)].
(* a source model that only looks at magnitudes *)
Definition same_mag c (Y Y' : sig C nF nN c) : Prop := forall f k n, `|Y f k n| = `|Y' f k n|.
Definition magnitude_model (St Out : Type) c (model : St -> sig C nF nN c -> Out) : Prop :=
  forall m Y Y', same_mag Y Y' -> model m Y = model m Y'.
(* one model without state applied to every source *)
Definition per_source c (g : 'M[C]_(nF, nN) -> 'M[C]_(nF, nN)) (m : unit) (Y : sig C nF nN c) : sig C nF nN c * unit :=
  ([ffun f => \matrix_(s, n) g (\matrix_(f', n') Y f' s n') f n], m).
(* one model with memory, called with the signals of all sources *)
Definition all_sources (St : Type) c (g : St -> ('I_c -> 'M[C]_(nF, nN)) -> ('I_c -> 'M[C]_(nF, nN)) * St)
    (m : St) (Y : sig C nF nN c) : sig C nF nN c * St :=
  let r := g m (fun s => \matrix_(f, n) Y f s n) in ([ffun f => \matrix_(s, n) r.1 s f n], r.2).
(* polarity inversion of one microphone *)
Definition flip c (k : 'I_c) : 'I_nF -> 'I_c -> C := fun _ i => if i == k then -1 else 1.
End Phase.
(* a mask model that only looks at magnitudes *)
Definition magnitude_mask (C : numClosedFieldType) nF nN (Out : Type) (model : 'M[C]_(nF, nN) -> Out) : Prop :=
  forall R R' : 'M[C]_(nF, nN), (forall f n, `|R f n| = `|R' f n|) -> model R = model R'.
