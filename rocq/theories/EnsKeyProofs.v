(* Keys of the averaged dictionary, C59. *)
From mathcomp Require Import all_ssreflect all_algebra.
From Verif Require Import Py EnsModel.
Set Implicit Arguments.
Unset Strict Implicit.
Unset Printing Implicit Defensive.

Section Keys.
Variables (F : numFieldType) (K : eqType).
Implicit Types d s : state F K.
Lemma add_at_keys d k v d' : add_at d k v = Ok d' -> unzip1 d' = unzip1 d /\ k \in unzip1 d.
Proof.
elim: d d' => [|[k' u] d IH] d' //=.
case: (k' =P k) => [->|ne].
  by case: (iadd u v) => [w|e] //= [<-] /=; rewrite mem_head.
case E: (add_at d k v) => [r|e] //= [<-] /=; have [-> kd] := IH _ E.
by rewrite inE kd orbT.
Qed.
Lemma add_all_keys s d d' : add_all d s = Ok d' -> unzip1 d' = unzip1 d /\ {subset unzip1 s <= unzip1 d}.
Proof.
elim: s d => [|[k v] s IH] d /=; first by case=> <-.
case E: (add_at d k v) => [d1|e] //= /IH [-> sub]; have [e1 kd] := add_at_keys E.
split; first by rewrite e1.
by move=> k'; rewrite inE => /orP [/eqP ->|/sub]; rewrite ?e1.
Qed.
Lemma accumulate_keys ss d d' : accumulate d ss = Ok d' ->
  unzip1 d' = unzip1 d /\ forall s k, List.In s ss -> k \in unzip1 s -> k \in unzip1 d.
Proof.
elim: ss d => [|s ss IH] d /=; first by case=> <-.
case E: (add_all d s) => [d1|e] //= /IH [-> sub]; have [e1 sub1] := add_all_keys E.
split; first by rewrite e1.
by move=> s' k [<-|i] ks; [exact: sub1|rewrite -e1; apply: sub i ks].
Qed.
Lemma ensemble_keys s0 ss d : ensemble (s0 :: ss) = Ok d ->
  unzip1 d = unzip1 s0 /\ forall s k, List.In s ss -> k \in unzip1 s -> k \in unzip1 s0.
Proof.
rewrite /ensemble; case E: (accumulate s0 ss) => [d1|e] //= [<-]; have [e1 sub] := accumulate_keys E.
split=> //; by rewrite -e1 /unzip1 -map_comp.
Qed.
Lemma ensemble_unknown s0 ss s k d : List.In s ss -> k \in unzip1 s -> k \notin unzip1 s0 -> ensemble (s0 :: ss) <> Ok d.
Proof. by move=> i ks nk /ensemble_keys [_ sub]; move: nk; rewrite (sub s k). Qed.
End Keys.
