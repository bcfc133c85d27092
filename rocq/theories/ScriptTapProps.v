(* C81, continued: T_ISS performs the dereverberation that the warning of example.py denies. *)
From mathcomp Require Import all_ssreflect all_algebra.
From Verif Require Import CAlg Py TissModel ScriptTapProofs.
Set Implicit Arguments. Unset Strict Implicit. Unset Printing Implicit Defensive.
Import GRing.Theory Num.Theory.
Local Open Scope ring_scope.

(* one channel with the frames 1, 0, 1 (echo) and constant weights (flat): one iteration without taps keeps the last
   frame; with one tap and delay one it is predicted from the first frame and removed, for every eps and every
   choice of the reference microphone *)
Theorem c81_dereverberates (C : numClosedFieldType) (eps : C) mic : 0 < eps ->
  (exists Y W J m, forward 0 1 (@flat C) (echo C) eps 1 false mic tt = Ok (Y, W, J, m) /\ Y 0 0 (@Ordinal 3 2 isT) != 0) /\
  (exists Y W J m, forward 1 1 (@flat C) (echo C) eps 1 false mic tt = Ok (Y, W, J, m) /\ Y 0 0 (@Ordinal 3 2 isT) = 0).
Proof. exact (fun e0 => conj (no_tap_out e0 1 mic) (tap_out e0 mic)). Qed.
Print Assumptions c81_dereverberates.
Example c81_echo_example (C : numClosedFieldType) :
  [/\ echo C 0 0 (@Ordinal 3 0 isT) = 1, echo C 0 0 (@Ordinal 3 1 isT) = 0 & echo C 0 0 (@Ordinal 3 2 isT) = 1].
Proof. by rewrite !ffunE !mxE. Qed.
