(* The forward pass of FIVE on whole tensors; a batch against its elements alone; errors. *)
From Coq Require Import String Ascii ZArith.
From mathcomp Require Import all_ssreflect all_algebra.
From mathcomp Require Import zify.
From Verif Require TorchShape FiveBridge.
From Verif Require Import CAlg Py Batch LinalgModel TissModel FiveModel TensorModel TOpsModel TSpec TSepSpec TensorProofs TEinsum TOpsProofs TBatch TTissModel TIpModel TIpProofs TEighModel TEighProofs TFiveModel TFiveSpec TFiveProofs.
Set Implicit Arguments. Unset Strict Implicit. Unset Printing Implicit Defensive.
Import GRing.Theory Num.Theory Order.TTheory.
Local Open Scope ring_scope.
Arguments clip : simpl never. Arguments TorchShape.bc2 : simpl never. Arguments Nat.eqb : simpl never.

Section Forward.
Variable C : numClosedFieldType.
Local Notation tensor := (tensor C).
Variable eighO : forall n, eigh_oracle C n.
Variables (k F N : nat) (B : seq nat).
Local Notation nC := k.+1.
Local Notation sg t b := (sig_at F N nC t b).
Local Notation sg1 t b := (sig_at F.+1 N nC t b).
Variables (St St1 : Type) (tm : St -> tensor -> result (tensor * St)) (m : St1 -> 'M[C]_(F, N) -> 'M[C]_(F, N) * St1) (inv : St -> Prop) (rs : St -> seq nat -> St1).
Hypothesis hm : extractor_as B tm m inv rs.
Hypothesis ne : exists b, inr B b.
Variable X : tensor.
Hypothesis sX : sh X = [:: N, F.+1, nC & B].
Variables (z : Z) (mic : 'I_nC).
Hypothesis hz : mic_of z mic.
Lemma mic_valid : TorchShape.valid nC z /\ zidx nC z = mic.
Proof.
move: hz (ltn_ord mic); rewrite /mic_of /TorchShape.valid /zidx.
by case: ifP => h e l; split; lia.
Qed.
Section Run.
Variables (Xw Qr : tensor).
Hypothesis sXw : sh Xw = [:: N, F, nC & B].
Hypothesis hXw : forall b (f : 'I_F), inr B b -> sg Xw b f = five_white eighO (no_dc (sg1 X b) f).
Hypothesis sQr : sh Qr = [:: nC, F & B].
Hypothesis hQr : forall b (f : 'I_F) (c : 'I_nC), inr B b -> at_ Qr [:: nat_of_ord c, nat_of_ord f & b] = five_Qinv eighO (no_dc (sg1 X b) f) mic c.
Variable pw : option nat.
Lemma output_at (u : tensor) : sh u = [:: nC, F & B] -> exists Y, [/\ t_five_output Qr Xw u = Ok Y, sh Y = [:: N, F & B] &
  forall b, inr B b -> mat F N Y b = five_output eighO (sg1 X b) mic (rdu k F u b)].
Proof.
move=> su; rewrite /t_five_output; have [d [-> sd hd]] := e_dot sQr su; cbn [bind].
have [d1 [-> sd1 hd1]] := unsq0 sd; cbn [bind]; have [w [e sw hw]] := tzip_col *%R su (sd1 : sh (tmap conjC d1) = _); rewrite /tmul e; cbn [bind].
have [Y [-> sY hY]] := e_ext (sw : sh (tmap conjC w) = _) sXw; exists Y; split=> // b hb.
apply/matrixP => f n; rewrite matE [RHS]mxE hY; last by rewrite /= !ltn_ord.
apply: eq_bigr => c _; rewrite -hXw // sigE; congr (_ * _); cbn [tmap at_]; congr (_^*).
rewrite hw; last by rewrite /= !ltn_ord.
rewrite [in RHS]ffunE vecE; congr (_ * _); cbn [tmap at_]; congr (_^*); rewrite hd1 hd; last by rewrite /= !ltn_ord.
by apply: eq_bigr => j _; rewrite hQr // ?ffunE vecE.
Qed.
Lemma eigvec_at (w : tensor) : sh w = [:: N, F & B] ->
  lifts B [:: nC, F & B] (let* V := t_five_V w Xw in t_five_eigvec eighO pw V)%py (fun b => five_eigvec eighO (sg1 X b) pw (mat F N w b)) (@rdu C k F).
Proof.
move=> sw; have [V [-> sV hV]] := fiveV_at sXw sw; cbn [bind]; rewrite /five_eigvec /t_five_eigvec; case: pw => [p|].
  apply: eq_lifts (sm_power_at ne p sV) => b hb; rewrite /smallest_power; congr bind.
  by apply: eq_gather => f; rewrite hV // hXw.
have [u [-> su hu]] := sm_eigh_at eighO sV; apply: (@lifts_ok _ _ _ _ _ _ _ u) => // b hb; apply/ffunP => f.
by rewrite !ffunE hu // hV // hXw.
Qed.
Definition okF (x : tensor * St) : Prop := sh x.1 = [:: N, F & B] /\ inv x.2.
Definition rdF (x : tensor * St) (b : seq nat) : 'M[C]_(F, N) * St1 := (mat F N x.1 b, rs x.2 b).
Lemma iter_at x : okF x -> gives okF B (t_five_iter eighO tm Xw Qr pw x)
  (fun b => let: (w, m') := m (rs x.2 b) (mat F N x.1 b) in let* u := five_eigvec eighO (sg1 X b) pw w in Ok (five_output eighO (sg1 X b) mic u, m'))%py rdF.
Proof.
case: x => [Y s] [sY ist]; rewrite /t_five_iter; have [w [s' [-> ist' sw hw]]] := hm ist sY; cbn [bind fst snd].
have -> : (let* V := t_five_V w Xw in let* u := t_five_eigvec eighO pw V in let* Y := t_five_output Qr Xw u in Ok (Y, s'))%py =
  (let* u := (let* V := t_five_V w Xw in t_five_eigvec eighO pw V) in let* Y := t_five_output Qr Xw u in Ok (Y, s'))%py by case: (t_five_V w Xw).
have h := @gives_bind _ _ _ _ (fun u : tensor => sh u = [:: nC, F & B]) okF B _ _ (@rdu C k F) (fun u => let* Y := t_five_output Qr Xw u in Ok (Y, s'))%py
  (fun b u => Ok (five_output eighO (sg1 X b) mic u, rs s' b)) rdF (eigvec_at sw).
apply: eq_gives (h _) => [b hb|u su]; first by rewrite hw.
 have [Y1 [-> sY1 hY1]] := output_at su; cbn [bind]; split=> // b hb; by rewrite /rdF /= hY1.
Qed.
Lemma loop_at n x : okF x -> gives okF B (t_iterate (t_five_iter eighO tm Xw Qr pw) n x)
  (fun b => five_loop eighO m (sg1 X b) mic pw n (mat F N x.1 b) (rs x.2 b)) rdF.
Proof.
elim: n x => [|n IH] x ok; first by case: x ok => Y s ok; split.
cbn [t_iterate]; have h := @gives_bind _ _ _ _ okF okF B _ _ rdF (t_iterate (t_five_iter eighO tm Xw Qr pw) n) (fun b y => five_loop eighO m (sg1 X b) mic pw n y.1 y.2) rdF (iter_at ok) IH.
apply: eq_gives h => b hb; cbn [five_loop]; case: (m _ _) => w m'; by case: (five_eigvec _ _ _ _).
Qed.
End Run.
Lemma five_forward_at n_iter pw m0 : inv m0 ->
  lifts B [:: N, F.+1, 1 & B]%N (t_five_forward eighO tm n_iter (Some z) pw m0 X)
    (fun b => rmap (fun r => one_source r.1) (five_forward eighO m (sg1 X b) mic pw n_iter (rs m0 b))) (sig_at F.+1 N 1).
Proof.
move=> im; rewrite /t_five_forward sX; have [vz ez] := mic_valid.
have [X0 [-> sX0 hX0]] := @slice_from1 C X N F 1 (nC :: B) sX; cbn [bind].
have XE b (f : 'I_F) : sg X0 b f = no_dc (sg1 X b) f.
  by apply/matrixP => c n; rewrite /no_dc !sigE hX0.
have [Cx [-> sC hC]] := cov_at sX0; cbn [bind].
have [Q [Qi [-> sQ sQi hQ]]] := whiten_at eighO sC hC; cbn [bind t_index_mic].
have [Qr [-> sQr hQr]] := selz1 sQi vz; cbn [bind].
have [Xw [-> sXw hXw]] := white_at (eighO := eighO) sX0 sQ (fun b f hb => proj1 (hQ b f hb)); cbn [bind].
have [Y [-> sY hY]] := init_at (eighO := eighO) sQ sC sXw (fun b f hb => proj1 (hQ b f hb)) hC hXw vz ez; cbn [bind].
have hXw' b (f : 'I_F) : inr B b -> sg Xw b f = five_white eighO (no_dc (sg1 X b) f) by move=> hb; rewrite hXw // XE.
have hQr' b (f : 'I_F) (c : 'I_nC) : inr B b -> at_ Qr [:: nat_of_ord c, nat_of_ord f & b] = five_Qinv eighO (no_dc (sg1 X b) f) mic c.
  by move=> hb; rewrite hQr ez -matE (proj2 (hQ b f hb)) XE.
have h := loop_at sXw hXw' sQr hQr' pw n_iter (conj sY im : okF (Y, m0)).
apply/lifts_gives; pose fin (r : 'M[C]_(F, N) * St1) : result (sig C F.+1 N 1) := Ok (one_source (\matrix_(f, n) (if unlift ord0 f is Some g then r.1 g n else 0))).
have h1 := @gives_bind _ _ _ _ okF (fun t : tensor => sh t = [:: N, F.+1, 1 & B]%N) B _ _ rdF (fun r : tensor * St => let: (Y, m) := r in
      match sh Y with
      | t :: f :: s => let* Y := tcat 1 (tzeros C [:: t, 1 & s]%N) Y in unsq 2 Y
      | _ => raise IndexError
      end)%py (fun _ => fin) (sig_at F.+1 N 1) h.
apply: eq_gives (h1 _).
  move=> b hb; cbn [fst snd]; rewrite hY // /five_forward.
  have -> : \matrix_(f, n) five_init eighO mic (sg X0 b f) 0 n = (\matrix_(f, n) five_init eighO mic (no_dc (sg1 X b) f) 0 n : 'M[C]_(F, N)).
    by apply/matrixP => f n; rewrite [LHS]mxE [RHS]mxE XE.
  by case: (five_loop _ _ _ _ _ _ _ _).
case=> Y1 s1 [sY1 is1]; cbn [fst snd] in sY1, is1; rewrite sY1.
have [Y2 [-> sY2 hY2]] := @cat1 C (tzeros C [:: N, 1 & B]%N) Y1 N 1 F B erefl sY1; cbn [bind].
rewrite unsqE ?sY2 //; split; first by rewrite ?sY2.
move=> b hb; rewrite /fin /rdF; congr Ok; apply/ffunP => f; apply/matrixP => i n.
rewrite sigE ffunE [LHS]mxE [LHS]mxE; cbn [at_]; rewrite /TorchShape.del /= hY2.
by case: unliftP => [g ->|->]; rewrite ?matE //= subn1.
Qed.
End Forward.

Lemma nonempty_batch B : (0 < TorchShape.numel B)%N -> exists b, inr B b.
Proof.
elim: B => [|n B IH]; first by exists [::].
by rewrite numel_cons muln_gt0 => /andP [n0 /IH [b hb]]; exists (0%N :: b); rewrite /= n0.
Qed.
Section Sep.
Variable C : numClosedFieldType.
Local Notation tensor := (tensor C).
Variable eighO : forall n, eigh_oracle C n.
Variables (k F N : nat) (B : seq nat).
Variables (St St1 St2 : Type) (tm : St -> tensor -> result (tensor * St)) (tm1 : St2 -> tensor -> result (tensor * St2))
  (m : St1 -> 'M[C]_(F, N) -> 'M[C]_(F, N) * St1) (inv : St -> Prop) (inv1 : St2 -> Prop) (rs : St -> seq nat -> St1) (rs1 : St2 -> seq nat -> St1).
Hypothesis hm : extractor_as B tm m inv rs.
Hypothesis hm1 : extractor_as [::] tm1 m inv1 rs1.
Variable X : tensor.
Hypothesis sX : sh X = [:: N, F.+1, k.+1 & B].
Hypothesis ne : (0 < TorchShape.numel B)%N.
Variables (z : Z) (mic : 'I_k.+1).
Hypothesis hz : mic_of z mic.
Variables (m0 : St) (m1 : seq nat -> St2).
Hypothesis i0 : inv m0.
Variables (n_iter : nat) (pw : option nat).
Lemma five_lifts : lifts B [:: N, F.+1, 1 & B]%N (t_five_forward eighO tm n_iter (Some z) pw m0 X)
  (fun b => rmap (fun r => one_source r.1) (five_forward eighO m (sig_at F.+1 N k.+1 X b) mic pw n_iter (rs m0 b))) (sig_at F.+1 N 1).
Proof. exact: (five_forward_at eighO hm (nonempty_batch ne) sX hz n_iter pw i0). Qed.
Lemma five_alone : (forall b, inr B b -> inv1 (m1 b) /\ rs1 (m1 b) [::] = rs m0 b) ->
  separately N F.+1 1 B (t_five_forward eighO tm n_iter (Some z) pw m0 X)
    (fun b => t_five_forward eighO tm1 n_iter (Some z) pw (m1 b) (alone X b)).
Proof.
move=> i1; apply: (separately_of five_lifts) => b hb; have [ib rb] := i1 _ hb.
have h := five_forward_at eighO hm1 (nonempty_batch (B := [::]) isT) (alone_sh b sX) hz n_iter pw ib.
by apply: eq_lifts h; case=> [_|//]; rewrite alone_sig rb.
Qed.
Lemma five_total : pw = None -> exists2 Y, t_five_forward eighO tm n_iter (Some z) pw m0 X = Ok Y & sh Y = [:: N, F.+1, 1 & B]%N.
Proof.
move=> e; move: five_lifts; case: (t_five_forward _ _ _ _ _ _ _) => [Y [sY _]|er [b hb]]; first by exists Y.
by rewrite e; have [Y [s ->]] := FiveBridge.five_returns eighO m (sig_at F.+1 N k.+1 X b) mic n_iter (rs m0 b).
Qed.
Lemma five_few : (forall s Z f j, 0 <= (m s Z).1 f j) -> (if pw is Some p then (p <= 1)%N else false) -> (0 < n_iter)%N ->
  t_five_forward eighO tm n_iter (Some z) pw m0 X = Err UnboundLocalError.
Proof.
move=> m_ge0; case: pw five_lifts => // p h p1 n0; have [b0 hb0] := nonempty_batch ne.
have e b : five_forward eighO m (sig_at F.+1 N k.+1 X b) mic (Some p) n_iter (rs m0 b) = Err UnboundLocalError.
  by case: (n_iter) n0 => // n _; apply: FiveBridge.c28_unbound.
by move: h; case: (t_five_forward _ _ _ _ _ _ _) => [Y [_ /(_ b0 hb0)]|er [b hb]]; rewrite e // => -[->].
Qed.
End Sep.
Section Errors.
Variables (C : numClosedFieldType) (eighO : forall n, eigh_oracle C n) (St : Type) (tm : St -> tensor C -> result (tensor C * St)).
Lemma five_axes n_iter pb pw m0 (X : tensor C) : (size (sh X) < 3)%N -> t_five_forward eighO tm n_iter pb pw m0 X = Err ValueError.
Proof. by rewrite /t_five_forward; case: (sh X) => [|a [|b [|c s]]]. Qed.
Lemma five_bad_mic n_iter z pw m0 (X : tensor C) N F k B : sh X = [:: N, F.+1, k.+1 & B] -> (Z.lt z (Z.opp (Z.of_nat k.+1)) \/ Z.le (Z.of_nat k.+1) z) ->
  t_five_forward eighO tm n_iter (Some z) pw m0 X = Err IndexError.
Proof.
move=> sX hz; rewrite /t_five_forward sX.
have [X0 [-> sX0 hX0]] := @slice_from1 C X N F 1 (k.+1 :: B) sX; cbn [bind].
have [Cx [-> sC hC]] := cov_at sX0; cbn [bind].
have [Q [Qi [-> sQ sQi hQ]]] := whiten_at eighO sC hC; cbn [bind t_index_mic].
rewrite (@select_err _ 1 z Qi k.+1) ?sQi // /TorchShape.valid; lia.
Qed.
End Errors.
