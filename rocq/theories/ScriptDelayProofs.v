(* Proofs of C81: T_ISS without taps does not depend on the delay. *)
From mathcomp Require Import all_ssreflect all_algebra.
From Verif Require Import CAlg Py TissModel.
Set Implicit Arguments. Unset Strict Implicit. Unset Printing Implicit Defensive.

Lemma no_taps (C : numClosedFieldType) nF nN m (X : sig C nF nN m) d d' : delayed 0 d X = delayed 0 d' X.
Proof. by apply/ffunP=> f; rewrite !ffunE; apply/ffunP; case. Qed.
Lemma delay_irrelevant (C : numClosedFieldType) nS nB nF nN St
    (model : St -> sig C nF nN nS -> sig C nF nN nS * St) (X : sig C nF nN (nS + nB)) eps n_iter dmc mic m0 d d' :
  forward 0 d model X eps n_iter dmc mic m0 = forward 0 d' model X eps n_iter dmc mic m0.
Proof.
have e : Xb 0 d X = Xb 0 d' X by apply: no_taps.
by rewrite /forward /forward_raw /init /one_iter_dmc /one_iter e.
Qed.
