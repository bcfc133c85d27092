(* Property C59: the keys of the averaged dictionary. *)
From mathcomp Require Import all_ssreflect all_algebra.
From Verif Require Import Py EnsModel EnsKeyProofs.
Set Implicit Arguments.
Unset Strict Implicit.
Unset Printing Implicit Defensive.
Import GRing.Theory.
Local Open Scope ring_scope.

(* the result has exactly the keys of the first epoch, in their order, and no later epoch has another one *)
Theorem c59_keys (F : numFieldType) (K : eqType) (s0 : state F K) ss d : ensemble (s0 :: ss) = Ok d ->
  unzip1 d = unzip1 s0 /\ forall s k, List.In s ss -> k \in unzip1 s -> k \in unzip1 s0.
Proof. exact: ensemble_keys. Qed.
Print Assumptions c59_keys.
(* an epoch with a key which the first one does not have is not averaged silently *)
Theorem c59_unknown_key (F : numFieldType) (K : eqType) (s0 : state F K) ss s k d :
  List.In s ss -> k \in unzip1 s -> k \notin unzip1 s0 -> ensemble (s0 :: ss) <> Ok d.
Proof. exact: ensemble_unknown. Qed.
Print Assumptions c59_unknown_key.

Example c59_keys_example :
  ensemble [:: [:: (1%N, FT [:: 1 : rat])]; [:: (1%N, FT [:: 3%:R]); (2%N, FT [:: 1])]] = Err KeyError /\
  exists t, ensemble [:: [:: (1%N, FT [:: 1 : rat]); (2%N, IT _ [:: 1%:Z])]; [:: (2%N, IT _ [:: 3%:Z])]] = Ok [:: (1%N, t); (2%N, IT _ [:: 2%:Z])].
Proof. by split; [|exists (FT [:: 1 / 2%:R])]. Qed.
