(* AuxIVA_IP on a batch against its elements alone; success. *)
From Coq Require Import String Ascii ZArith.
From mathcomp Require Import all_ssreflect all_algebra.
From mathcomp Require Import zify.
From Verif Require TorchShape.
From Verif Require Import CAlg Py Batch LinalgModel TissModel IvaModel IvaProofs TensorModel TOpsModel TSpec TSepSpec TensorProofs TEinsum TOpsProofs TBatch TTissModel TIpModel TIpProofs TIpRun TIpFar.
Set Implicit Arguments. Unset Strict Implicit. Unset Printing Implicit Defensive.
Import GRing.Theory Num.Theory Order.TTheory.
Local Open Scope ring_scope.

Section Sep.
Variable C : numClosedFieldType.
Local Notation tensor := (tensor C).
Variables (nS nB F N : nat) (B : seq nat).
Local Notation nC := (nS + nB)%N.
Variables (St St1 St2 : Type) (tm : St -> tensor -> result (tensor * St)) (tm1 : St2 -> tensor -> result (tensor * St2))
  (m : St1 -> sig C F N nS -> sig C F N nS * St1) (inv : St -> Prop) (inv1 : St2 -> Prop) (rs : St -> seq nat -> St1) (rs1 : St2 -> seq nat -> St1).
Hypothesis hm : source_as B tm m inv rs.
Hypothesis hm1 : source_as [::] tm1 m inv1 rs1.
Variables (X : tensor) (eps : C).
Hypothesis sX : sh X = [:: N, F, nC & B].
Variables (m0 : St) (m1 : seq nat -> St2).
Hypothesis i0 : inv m0.
Hypothesis i1 : forall b, inr B b -> inv1 (m1 b) /\ rs1 (m1 b) [::] = rs m0 b.
Variable n_iter : nat.
Lemma ip_alone pb (ref : option 'I_nC) : pb_near pb ref ->
  separately N F nS B (t_ip_forward tm n_iter (Some nS) pb eps m0 X) (fun b => t_ip_forward tm1 n_iter (Some nS) pb eps (m1 b) (alone X b)).
Proof.
move=> hp; apply: (separately_of (ip_forward_at hm eps sX n_iter i0 hp)) => b hb; have [ib rb] := i1 hb.
have h := ip_forward_at hm1 eps (alone_sh b sX) n_iter ib hp.
move: h; move: (ip_forward m) (t_ip_forward _ _ _ _ _ _ _) => fw res.
by apply: eq_lifts => -[|//] _; rewrite alone_sig rb.
Qed.
Lemma ip_total pb (ref : option 'I_nC) : 0 < eps -> pb_near pb ref ->
  exists2 Y, t_ip_forward tm n_iter (Some nS) pb eps m0 X = Ok Y & sh Y = [:: N, F, nS & B].
Proof.
move=> e0 hp; have := ip_forward_at hm eps sX n_iter i0 hp; rewrite /lifts.
case: (t_ip_forward _ _ _ _ _ _ _) => [r [ok _]|e [b hb]]; first by exists r.
have [Y [W [J [m2 [h _]]]]] := ip_raw_ok m (sig_at F N nC X b) n_iter (rs m0 b) e0; rewrite /ip_forward h; cbn [bind].
by case: (ref) => [r|//]; have [Y' [a [-> _]]] := ip_pb_ok Y W J r.
Qed.
(* a microphone without a source *)
Lemma ip_far (ref : 'I_nC) : 0 < eps -> (nS <= ref)%N -> exists Y, [/\
  t_ip_forward tm n_iter (Some nS) (Some (Z.of_nat ref)) eps m0 X = Ok Y, sh Y = [:: N, F, nS & B ++ F :: B] &
  forall b i, inr B b -> inr (F :: B) i -> exists2 y, rmap fst (ip_forward m (sig_at F N nC X b) eps n_iter (Some ref) (rs m0 b)) = Ok y &
    sig_at F N nS Y (b ++ i) = y].
Proof.
move=> e0 ge; have := ip_forward_far hm sX n_iter i0 e0 ge; rewrite /lifts.
case: (t_ip_forward _ _ _ _ _ _ _) => [Y [sY h]|e [i hi]]; last first.
  move: (take _ i) => b.
  have [Y [W [J [m2 [h _]]]]] := ip_raw_ok m (sig_at F N nC X b) n_iter (rs m0 b) e0; rewrite /ip_forward h; cbn [bind].
  by have [Y' [a [-> _]]] := ip_pb_ok Y W J ref.
exists Y; split=> // b i hb hi; exists (sig_at F N nS Y (b ++ i)) => //.
have sb := inr_size hb.
have hbi : inr (B ++ F :: B) (b ++ i) by rewrite inr_cat ?hb.
have := h _ hbi; by rewrite -sb take_size_cat.
Qed.
End Sep.
