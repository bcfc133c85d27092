(* The forward pass of AuxIVA_IP2 on whole tensors; a batch against its elements alone; errors. *)
From Coq Require Import String Ascii ZArith.
From mathcomp Require Import all_ssreflect all_algebra.
From mathcomp Require Import zify.
From Verif Require TorchShape.
From Verif Require Import CAlg Py Batch LinalgModel TissModel IvaModel TensorModel TOpsModel TSpec TSepSpec TensorProofs TEinsum TOpsProofs TBatch TTissModel TIpModel TIpProofs TEighModel TEighProofs TIp2Model TIp2Proofs.
Set Implicit Arguments. Unset Strict Implicit. Unset Printing Implicit Defensive.
Import GRing.Theory Num.Theory Order.TTheory.
Local Open Scope ring_scope.
Arguments clip : simpl never. Arguments TorchShape.bc2 : simpl never. Arguments Nat.eqb : simpl never.

Section Forward.
Variable C : numClosedFieldType.
Local Notation tensor := (tensor C).
Variables (F N : nat) (B : seq nat).
Local Notation sg k n t b := (sig_at F n k t b).
Variables (St St1 : Type) (tm : St -> tensor -> result (tensor * St)) (m : St1 -> sig C F N 2 -> sig C F N 2 * St1) (inv : St -> Prop) (rs : St -> seq nat -> St1).
Hypothesis hm : source_as B tm m inv rs.
Variables (X : tensor) (eps : C).
Hypothesis sX : sh X = [:: N, F, 2 & B]%N.
Lemma eye2_at : exists W : tensor, [/\ assign_all (tzeros C [:: 2, 2, F & B]%N) (teye C 2) = Ok W, sh W = [:: 2, 2, F & B]%N &
  forall b, fl F 2 2 W b = [ffun f => 1%:M]].
Proof.
have [u [e su hu]] := @bc_mat C 2 2 (F :: B) (teye C 2) erefl.
exists u; split; [exact: e|exact: su|] => b; apply/ffunP => f; rewrite !ffunE hu; apply/matrixP => x y; rewrite matE mxE /= eq_sym; by [].
Qed.
Lemma proj_at (A Y : tensor) (k : 'I_2) : sh A = [:: 2, 2, F & B]%N -> sh Y = [:: N, F, 2 & B]%N -> exists Z, [/\
  (let* a := pick 1 (Z.of_nat k) A in let* a := moveaxis 0 2 a in tmul a Y)%py = Ok Z, sh Z = [:: N, F, 2 & B]%N &
  forall b, inr B b -> sg 2 N Z b = [ffun f => \matrix_(s, n) (fl F 2 2 A b f k s * sg 2 N Y b f s n)]].
Proof.
move=> sA sY; rewrite (@pickE _ 1 _ A 2) ?sA ?valid_nat //; cbn [bind].
rewrite /moveaxis; cbn [sh TorchShape.set TorchShape.moveaxis TorchShape.size List.nth_error bind TorchShape.ins TorchShape.del].
rewrite /TorchShape.moveaxis /=.
rewrite /tmul (@tzipE _ _ _ _ [:: N, F, 2 & B]%N); last by rewrite sY /= !bc2nn bc21n /= bcastss.
eexists; split; [reflexivity|by []|] => b hb; apply/ffunP => f; apply/matrixP => s n.
rewrite sigE [in RHS]ffunE mxE flE !sigE; cbn [at_ sh]; rewrite sY [X in at_ Y X]clip_id; last by rewrite /= !ltn_ord.
rewrite zidx_nat; cbn [TorchShape.set TorchShape.ins TorchShape.del].
rewrite -[clip _ _]/(0%N :: clip [:: F, 2 & B]%N [:: nat_of_ord f, nat_of_ord s & b]) clip_id; last by rewrite /= !ltn_ord.
reflexivity.
Qed.
(* the part after the loop *)
Definition t_ip2_fin (n_iter : nat) (mic : option 'I_2) (s : ist C St) : result tensor :=
  let: (XWA, m) := s in let: (X, W, A) := XWA in
  match omap (fun k : 'I_2 => Z.of_nat k) mic with
  | Some mic =>
      if (0 < n_iter)%N then
        (if A is Some A then let* a := pick 1 mic A in let* a := moveaxis 0 2 a in tmul a X else raise TypeError)%py
      else Ok X
  | None => Ok X
  end.
Lemma ip2_fin_at n_iter (mic : option 'I_2) s : okI F N B inv (isSome mic) s -> exists Y, [/\ t_ip2_fin n_iter mic s = Ok Y, sh Y = [:: N, F, 2 & B]%N &
  forall b e, inr B b -> reads rs s b e -> sg 2 N Y b = if mic is Some r then (if (0 < n_iter)%N then [ffun f => \matrix_(s, n) (e.1.2 f r s * e.1.1.1 f s n)] else e.1.1.1) else e.1.1.1].
Proof.
case: s => [[[Y W] A] m0] [sY eW sA iA]; cbn [fst snd] in sY, eW, sA, iA.
case: mic eW sA => [r|] eW sA; cbn [t_ip2_fin omap obind oapp]; last by exists Y; split=> // b e _ [].
case: ifP => n0; last by exists Y; split=> // b e _ [].
case: A sA => [A [_ sA]|//]; have [Z [e sZ hZ]] := proj_at r sA sY; rewrite e; exists Z; split=> // b [[[ye we] ae] me] hb [r1 _ r2]; cbn [fst snd] in r1, r2.
by rewrite hZ // r1 r2.
Qed.
Lemma ip2_forward_at n_iter (mic : option 'I_2) m0 : inv m0 -> exists Y, [/\
  t_ip2_forward tm n_iter (omap (fun k : 'I_2 => Z.of_nat k) mic) eps m0 X = Ok Y, sh Y = [:: N, F, 2 & B]%N &
  forall b, inr B b -> sg 2 N Y b = (ip2_forward m (sg 2 N X b) eps n_iter mic (rs m0 b)).1].
Proof.
move=> im0; rewrite /t_ip2_forward sX eqxx; cbn [negb].
have [W [eW sW hW]] := eye2_at.
have [W0 [A0 [eq ok rd]]] : exists W0 A0, [/\
   (match omap (fun k : 'I_2 => Z.of_nat k) mic with
           | Some mic =>
               if Z.leb Z0 mic && Z.ltb mic (Z.of_nat 2) then
                 let W := tzeros C [:: 2, 2, F & B]%N in
                 let* W := assign_all W (teye C 2) in
                 Ok (Some W, Some W)
               else raise AssertionError
           | None => Ok (None, None)
           end)%py = Ok (W0, A0), okI F N B inv (isSome mic) (X, W0, A0, m0) & forall b, inr B b -> reads rs (X, W0, A0, m0) b (sg 2 N X b, [ffun f => 1%:M], [ffun f => 1%:M], rs m0 b)].
  case: mic => [r|]; cbn [omap obind oapp isSome].
    have -> : Z.leb Z0 (Z.of_nat r) && Z.ltb (Z.of_nat r) (Z.of_nat 2) by have := ltn_ord r; lia.
    cbv zeta; rewrite eW; cbn [bind]; exists (Some W), (Some W); split; [reflexivity|by split|] => b hb; by split.
  by exists None, None; split; [reflexivity|by split|] => b hb; split.
rewrite eq; cbn [bind]; have [s [-> oks rds]] := ip2_loop_at hm eps sX n_iter ok; cbn [bind].
have [Y [e sY hY]] := ip2_fin_at n_iter oks; exists Y; split; [|exact: sY|].
  by move: e; rewrite /t_ip2_fin; case: (s) => [[[Y1 W1] A1] m1].
move=> b hb; rewrite (hY b _ hb (rds b _ hb (rd b hb))) /ip2_forward /ip2_loop.
move: (iter _ _ _) => [[[ye we] ae] me]; cbn [fst snd]; case: (mic) => [r|//]; by case: ifP.
Qed.
End Forward.

Section Sep.
Variable C : numClosedFieldType.
Local Notation tensor := (tensor C).
Variables (F N : nat) (B : seq nat).
Variables (St St1 St2 : Type) (tm : St -> tensor -> result (tensor * St)) (tm1 : St2 -> tensor -> result (tensor * St2))
  (m : St1 -> sig C F N 2 -> sig C F N 2 * St1) (inv : St -> Prop) (inv1 : St2 -> Prop) (rs : St -> seq nat -> St1) (rs1 : St2 -> seq nat -> St1).
Hypothesis hm : source_as B tm m inv rs.
Hypothesis hm1 : source_as [::] tm1 m inv1 rs1.
Variables (X : tensor) (eps : C).
Hypothesis sX : sh X = [:: N, F, 2 & B]%N.
Variables (m0 : St) (m1 : seq nat -> St2).
Hypothesis i0 : inv m0.
Hypothesis i1 : forall b, inr B b -> inv1 (m1 b) /\ rs1 (m1 b) [::] = rs m0 b.
Variable n_iter : nat.
Lemma ip2_lifts (mic : option 'I_2) :
  lifts B [:: N, F, 2 & B]%N (t_ip2_forward tm n_iter (omap (fun k : 'I_2 => Z.of_nat k) mic) eps m0 X)
    (fun b => Ok (ip2_forward m (sig_at F N 2 X b) eps n_iter mic (rs m0 b)).1) (sig_at F N 2).
Proof.
have [Y [-> sY h]] := ip2_forward_at hm eps sX n_iter mic i0.
by split; [exact: sY|move=> b hb; rewrite h].
Qed.
Lemma ip2_alone (mic : option 'I_2) :
  separately N F 2 B (t_ip2_forward tm n_iter (omap (fun k : 'I_2 => Z.of_nat k) mic) eps m0 X)
    (fun b => t_ip2_forward tm1 n_iter (omap (fun k : 'I_2 => Z.of_nat k) mic) eps (m1 b) (alone X b)).
Proof.
apply: (separately_of (ip2_lifts mic)) => b hb; have [ib rb] := i1 hb.
have [Y [-> sY h]] := ip2_forward_at hm1 eps (alone_sh b sX) n_iter mic ib.
by split; [exact: sY|case=> [_|//]; rewrite h // alone_sig rb].
Qed.
End Sep.
(* neither a wrong number of channels nor a microphone outside [0, 2) is accepted *)
Section Errors.
Variables (C : numClosedFieldType) (St : Type) (tm : St -> tensor C -> result (tensor C * St)).
Lemma ip2_channels n_iter pb eps m0 (X : tensor C) N F nC B : sh X = [:: N, F, nC & B] -> nC != 2%N ->
  t_ip2_forward tm n_iter pb eps m0 X = Err AssertionError.
Proof. by move=> sX h; rewrite /t_ip2_forward sX h. Qed.
Lemma ip2_mic n_iter z eps m0 (X : tensor C) N F B : sh X = [:: N, F, 2 & B]%N -> (Z.lt z Z0 \/ Z.le (Z.of_nat 2) z) ->
  t_ip2_forward tm n_iter (Some z) eps m0 X = Err AssertionError.
Proof.
move=> sX h; rewrite /t_ip2_forward sX eqxx; cbn [negb].
have -> : Z.leb Z0 z && Z.ltb z (Z.of_nat 2) = false by lia.
by [].
Qed.
Lemma ip2_axes n_iter pb eps m0 (X : tensor C) : (size (sh X) < 3)%N -> t_ip2_forward tm n_iter pb eps m0 X = Err ValueError.
Proof. by rewrite /t_ip2_forward; case: (sh X) => [|a [|b [|c s]]]. Qed.
End Errors.
