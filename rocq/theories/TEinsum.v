(* The einsum calls of the separation algorithms, entry by entry. *)
From Coq Require Import String Ascii ZArith.
From mathcomp Require Import all_ssreflect all_algebra.
From mathcomp Require Import zify.
From Verif Require TorchShape.
From Verif Require Import CAlg Py Batch LinalgModel TensorModel TSpec TensorProofs.
Set Implicit Arguments. Unset Strict Implicit. Unset Printing Implicit Defensive.
Import GRing.Theory Num.Theory Order.TTheory.
Local Open Scope ring_scope.
Local Open Scope string_scope.
Arguments clip : simpl never.
Arguments TorchShape.bc2 : simpl never.
Arguments Nat.eqb : simpl never.

Section E.
Variable C : numClosedFieldType.
Local Notation tensor := (tensor C).
Implicit Types (X Y V W H : tensor) (b : seq nat).

Ltac es := rewrite /= ?bc2nn /= ?bcastss /= ?bc2nn /= ?bcastss /=.
Ltac shs := repeat match goal with h : sh ?t = _ |- context [sh ?t] => rewrite !h end.
Ltac start := intros; rewrite /einsum /TorchShape.einsum; cbn [map]; shs; es;
  eexists; split; [reflexivity|by []|]; intros; cbn [at_];
  rewrite /= ?take0 /= ?drop0 /=.
Ltac ends := repeat match goal with h : is_true (inr _ _) |- _ => move: h => /= h end;
  repeat match goal with h : is_true (_ && _) |- _ => let h1 := fresh in let h2 := fresh in case/andP: h => h1 h2 end;
  shs; rewrite !clip_id //= ?ltn_ord /=;
  repeat match goal with h : is_true _ |- _ => rewrite h; clear h end; rewrite //.
Ltac s1 := start; apply: eq_bigr => ? _; ends.
Ltac s2 := start; apply: eq_bigr => ? _; apply: eq_bigr => ? _; ends.

Lemma e_wxz N F c B W X Y : sh W = [:: N, F, c & B] -> sh X = [:: N, F, c & B] -> sh Y = [:: N, F & B] ->
  exists t, [/\ einsum [:: "cfn"; "cfn"; "fn"] "cf" [:: W; X; Y] = Ok t, sh t = [:: F, c & B] &
   forall b f k, inr [:: F, c & B] [:: f, k & b] ->
     at_ t [:: f, k & b] = \sum_(n < N) at_ W [:: nat_of_ord n, f, k & b] * at_ X [:: nat_of_ord n, f, k & b] * at_ Y [:: nat_of_ord n, f & b]].
Proof. s1. Qed.
Lemma e_wz N F c B W Y : sh W = [:: N, F, c & B] -> sh Y = [:: N, F & B] ->
  exists t, [/\ einsum [:: "cfn"; "fn"] "cf" [:: W; Y] = Ok t, sh t = [:: F, c & B] &
   forall b f k, inr [:: F, c & B] [:: f, k & b] ->
     at_ t [:: f, k & b] = \sum_(n < N) at_ W [:: nat_of_ord n, f, k & b] * at_ Y [:: nat_of_ord n, f & b]].
Proof. s1. Qed.
Lemma e_vx N F c B V X : sh V = [:: F, c & B] -> sh X = [:: N, F & B] ->
  exists t, [/\ einsum [:: "cf"; "fn"] "cfn" [:: V; X] = Ok t, sh t = [:: N, F, c & B] &
   forall b n f k, inr [:: N, F, c & B] [:: n, f, k & b] ->
     at_ t [:: n, f, k & b] = at_ V [:: f, k & b] * at_ X [:: n, f & b]].
Proof. start; ends. Qed.
Lemma e_vd N F c B V X : sh V = [:: F, c & B] -> sh X = [:: N, F & B] ->
  exists t, [/\ einsum [:: "cf"; "fd"] "cfd" [:: V; X] = Ok t, sh t = [:: N, F, c & B] &
   forall b n f k, inr [:: N, F, c & B] [:: n, f, k & b] ->
     at_ t [:: n, f, k & b] = at_ V [:: f, k & b] * at_ X [:: n, f & b]].
Proof. start; ends. Qed.
Lemma e_vdt T D F c B V H : sh V = [:: F, c & B] -> sh H = [:: T, D, F & B] ->
  exists t, [/\ einsum [:: "cf"; "fdt"] "cfdt" [:: V; H] = Ok t, sh t = [:: T, D, F, c & B] &
   forall b u d f k, inr [:: T, D, F, c & B] [:: u, d, f, k & b] ->
     at_ t [:: u, d, f, k & b] = at_ V [:: f, k & b] * at_ H [:: u, d, f & b]].
Proof. start; ends. Qed.
Lemma e_reverb N T D F c B H X : sh H = [:: T, D, F, c & B] -> sh X = [:: N, T, F, D & B] ->
  exists t, [/\ einsum [:: "cfdt"; "dftn"] "cfn" [:: H; X] = Ok t, sh t = [:: N, F, c & B] &
   forall b n f k, inr [:: N, F, c & B] [:: n, f, k & b] ->
     at_ t [:: n, f, k & b] = \sum_(u < T) \sum_(d < D) at_ H [:: nat_of_ord u, nat_of_ord d, f, k & b] * at_ X [:: n, nat_of_ord u, f, nat_of_ord d & b]].
Proof. s2. Qed.
Lemma e_demix N D F c B W X : sh W = [:: D, F, c & B] -> sh X = [:: N, F, D & B] ->
  exists t, [/\ einsum [:: "cfd"; "dfn"] "cfn" [:: W; X] = Ok t, sh t = [:: N, F, c & B] &
   forall b n f k, inr [:: N, F, c & B] [:: n, f, k & b] ->
     at_ t [:: n, f, k & b] = \sum_(d < D) at_ W [:: nat_of_ord d, f, k & b] * at_ X [:: n, f, nat_of_ord d & b]].
Proof. s1. Qed.
Lemma e_sfk N D F c B W X : sh W = [:: D, F, c & B] -> sh X = [:: N, F, D & B] ->
  exists t, [/\ einsum [:: "sfc"; "cfk"] "sfk" [:: W; X] = Ok t, sh t = [:: N, F, c & B] &
   forall b n f k, inr [:: N, F, c & B] [:: n, f, k & b] ->
     at_ t [:: n, f, k & b] = \sum_(d < D) at_ W [:: nat_of_ord d, f, k & b] * at_ X [:: n, f, nat_of_ord d & b]].
Proof. s1. Qed.
Lemma e_fsd D c F s B W X : sh W = [:: c, F, s & B] -> sh X = [:: D, F, c & B] ->
  exists t, [/\ einsum [:: "sfc"; "cfd"] "fsd" [:: W; X] = Ok t, sh t = [:: D, s, F & B] &
   forall b d k f, inr [:: D, s, F & B] [:: d, k, f & b] ->
     at_ t [:: d, k, f & b] = \sum_(e < c) at_ W [:: nat_of_ord e, f, k & b] * at_ X [:: d, f, nat_of_ord e & b]].
Proof. s1. Qed.
Lemma e_fsc T D c F s B H X : sh H = [:: T, D, F, s & B] -> sh X = [:: c, F, T, D & B] ->
  exists t, [/\ einsum [:: "sfdt"; "dtfc"] "fsc" [:: H; X] = Ok t, sh t = [:: c, s, F & B] &
   forall b e k f, inr [:: c, s, F & B] [:: e, k, f & b] ->
     at_ t [:: e, k, f & b] = \sum_(u < T) \sum_(d < D) at_ H [:: nat_of_ord u, nat_of_ord d, f, k & b] * at_ X [:: e, f, nat_of_ord u, nat_of_ord d & b]].
Proof. s2. Qed.
Lemma e_gram k m n B X Y : sh X = [:: m, k & B] -> sh Y = [:: n, k & B] ->
  exists t, [/\ einsum [:: "km"; "kn"] "mn" [:: X; Y] = Ok t, sh t = [:: n, m & B] &
   forall b j i, inr [:: n, m & B] [:: j, i & b] ->
     at_ t [:: j, i & b] = \sum_(l < k) at_ X [:: i, nat_of_ord l & b] * at_ Y [:: j, nat_of_ord l & b]].
Proof. s1. Qed.
Lemma e_fcs c F s B X : sh X = [:: c, F, s & B] ->
  exists t, [/\ einsum [:: "sfc"] "fcs" [:: X] = Ok t, sh t = [:: s, c, F & B] &
   forall b k e f, inr [:: s, c, F & B] [:: k, e, f & b] -> at_ t [:: k, e, f & b] = at_ X [:: e, f, k & b]].
Proof. start; ends. Qed.
Lemma e_cfd N F c d B X Y : sh X = [:: N, F, c & B] -> sh Y = [:: N, F, d & B] ->
  exists t, [/\ einsum [:: "cfn"; "dfn"] "cfd" [:: X; Y] = Ok t, sh t = [:: d, F, c & B] &
   forall b e f k, inr [:: d, F, c & B] [:: e, f, k & b] ->
     at_ t [:: e, f, k & b] = \sum_(n < N) at_ X [:: nat_of_ord n, f, k & b] * at_ Y [:: nat_of_ord n, f, e & b]].
Proof. s1. Qed.
Lemma e_ctfd N T F c d B X Y : sh X = [:: N, T, F, c & B] -> sh Y = [:: N, F, d & B] ->
  exists t, [/\ einsum [:: "cftn"; "dfn"] "ctfd" [:: X; Y] = Ok t, sh t = [:: d, F, T, c & B] &
   forall b e f u k, inr [:: d, F, T, c & B] [:: e, f, u, k & b] ->
     at_ t [:: e, f, u, k & b] = \sum_(n < N) at_ X [:: nat_of_ord n, u, f, k & b] * at_ Y [:: nat_of_ord n, f, e & b]].
Proof. s1. Qed.
End E.
