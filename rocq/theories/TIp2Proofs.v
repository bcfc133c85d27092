(* AuxIVA_IP2 on whole tensors against the model of one batch element. *)
From Coq Require Import String Ascii ZArith.
From mathcomp Require Import all_ssreflect all_algebra.
From mathcomp Require Import zify.
From Verif Require TorchShape.
From Verif Require Import CAlg Py Batch LinalgModel TissModel IvaModel TensorModel TOpsModel TSpec TSepSpec TensorProofs TEinsum TOpsProofs TTissModel TIpModel TIpProofs TEighModel TEighProofs TIp2Model.
Set Implicit Arguments. Unset Strict Implicit. Unset Printing Implicit Defensive.
Import GRing.Theory Num.Theory Order.TTheory.
Local Open Scope ring_scope.
Arguments clip : simpl never. Arguments TorchShape.bc2 : simpl never. Arguments Nat.eqb : simpl never.

Section Eigvec.
Variable C : numClosedFieldType.
Local Notation tensor := (tensor C).
Lemma flip_at m n r (t : tensor) (g : seq nat -> 'M[C]_(m, n)) : mats r t g -> exists2 u, flip_last t = Ok u & mats r u (fun b => \matrix_(i, k) g b i (rev_ord k)).
Proof.
move=> [st et]; rewrite /flip_last st; cbn [TorchShape.size List.nth_error bind]; eexists; first reflexivity.
split=> // b hb; apply/matrixP => i k; rewrite [LHS]mxE [RHS]mxE; cbn [at_]; by rewrite -et // matE.
Qed.
Lemma cat0 (t u : tensor) n m r : sh t = n :: r -> sh u = m :: r -> exists v, [/\ tcat 0 t u = Ok v, sh v = (n + m)%N :: r &
  forall x i, at_ v (x :: i) = if (x < n)%N then at_ t (x :: i) else at_ u ((x - n)%N :: i)].
Proof.
move=> st su; rewrite /tcat /TorchShape.cat2 /TorchShape.size st su; cbn [List.nth_error bind].
rewrite /TorchShape.del; cbn [List.firstn List.skipn List.app]; rewrite seqbss; cbn [bind].
by eexists; split; [reflexivity|by []|] => x i; cbn [at_ nth].
Qed.
Lemma scale_at n r (E V : tensor) (e w : seq nat -> 'M[C]_n) (k : 'I_n) : mats r E e -> mats r V w ->
  exists2 s, t_ip2_scale E V (Z.of_nat k) = Ok s & mats r s (fun b => const_mx `|\sum_i (e b i k)^* * (\sum_j w b i j * e b j k)| : 'M_(1, 1)).
Proof.
move=> [sE eE] [sV eV]; rewrite /t_ip2_scale; have [x [-> sx ex]] := sel0 sE (ltn_ord k); cbn [bind].
rewrite unsqE ?sx //; cbn [bind]; rewrite unsqE ?sx //; cbn [bind].
set row := tmap conjC _; set col := mkT _ _.
have srow : sh row = [:: n, 1 & r]%N by [].
have scol : sh col = [:: 1, n & r]%N by [].
have [Vv [-> sVv hVv]] := matmulE sV scol; cbn [bind]; have [s [-> ss hs]] := matmulE srow sVv; cbn [bind].
eexists; first reflexivity; split=> // b hb; apply/matrixP => i j; rewrite [LHS]mxE [RHS]mxE; cbn [tmap at_].
rewrite -(matE s b i j) hs // mxE; congr `| _ |; apply: eq_bigr => c _; rewrite hVv // eV // [in X in _ * X]mxE; congr (_ * _).
  by rewrite mxE /row; cbn [tmap at_ TorchShape.del List.firstn List.skipn List.app]; rewrite ex -eE // matE.
apply: eq_bigr => d _; congr (_ * _); rewrite mxE /col; cbn [tmap at_ TorchShape.del List.firstn List.skipn List.app].
by rewrite ex -eE // matE.
Qed.
Lemma ip2_eigvec_at r (V0 V1 : tensor) (v0 v1 : seq nat -> 'M[C]_2) eps : mats r V0 v0 -> mats r V1 v1 ->
  exists2 E, t_ip2_eigvec V0 V1 eps = Ok E & mats r E (fun b => ip2_eigvec (v0 b) (v1 b) eps).
Proof.
move=> h0 h1; rewrite /t_ip2_eigvec.
have [[ev V] -> [sev sV eV]] := geigh2_at eps (proj1 h1) (proj1 h0); cbn [bind].
have hV : mats r V (fun b => (geigh_2x2 (v1 b) (v0 b) eps).2).
  by split=> // b hb; have [_ ->] := eV b hb; rewrite (proj2 h0 b hb) (proj2 h1 b hb).
have [E -> hE] := flip_at hV; cbn [bind].
have [s0 -> [ss0 es0]] := scale_at i0 hE h0; cbn [bind]; have [s1 -> [ss1 es1]] := scale_at i1 hE h1; cbn [bind].
have [s [-> ss hs]] := cat0 ss0 ss1; cbn [bind].
set f := fun x => clamp _ _.
pose nrm b k := `|\sum_i ((geigh_2x2 (v1 b) (v0 b) eps).2 i (rev_ord k))^* *
   (\sum_j (if k == i0 then v0 b else v1 b) i j * (geigh_2x2 (v1 b) (v0 b) eps).2 j (rev_ord k))|.
have es b (k : 'I_2) : inr r b -> at_ (tmap f s) [:: nat_of_ord k, 0%N & b] = f (nrm b k).
  move=> hb; cbn [tmap at_]; rewrite hs; congr f; rewrite /nrm -(inj_eq val_inj).
  case: k => -[|[|//]] lt; cbn [nat_of_ord leq subn subn_rec minus].
  - have -> : rev_ord (Ordinal lt) = rev_ord i0 by exact: val_inj.
    rewrite -[at_ s0 _](matE s0 b (@ord0 0) (@ord0 0)) es0 // mxE; congr `|_|; apply: eq_bigr => i _; rewrite mxE; congr (_ * _).
    by apply: eq_bigr => j _; rewrite mxE.
  - have -> : rev_ord (Ordinal lt) = rev_ord i1 by exact: val_inj.
    rewrite -[at_ s1 _](matE s1 b (@ord0 0) (@ord0 0)) es1 // mxE; congr `|_|; apply: eq_bigr => i _; rewrite mxE; congr (_ * _).
    by apply: eq_bigr => j _; rewrite mxE.
have [Q e hQ] := mats_col (fun x y => x / y) hE (ss : sh (tmap f s) = [:: 2, 1 & r]%N) es.
exists Q; first exact: e.
apply: (mats_eq _ hQ) => b hb; rewrite /ip2_eigvec; apply/matrixP => i k; rewrite !mxE; congr (_ / clamp (sqrtC (clamp `|_| _)) _).
by apply: eq_bigr => j _; rewrite mxE; congr (_ * _); apply: eq_bigr => l _; rewrite mxE.
Qed.
End Eigvec.

Section Run.
Variable C : numClosedFieldType.
Local Notation tensor := (tensor C).
Variables (F N : nat) (B : seq nat).
Local Notation sg k n t b := (sig_at F n k t b).
Variables (St St1 : Type) (tm : St -> tensor -> result (tensor * St)) (m : St1 -> sig C F N 2 -> sig C F N 2 * St1) (inv : St -> Prop) (rs : St -> seq nat -> St1).
Hypothesis hm : source_as B tm m inv rs.
Variables (X : tensor) (eps : C).
Hypothesis sX : sh X = [:: N, F, 2 & B]%N.
Ltac es := rewrite /= ?bc2nn /= ?bcastss /= ?bc2nn /= ?bcastss /=.
Ltac shs := repeat match goal with h : sh ?t = _ |- context [sh ?t] => rewrite !h end.
Ltac start := intros; rewrite /einsum /TorchShape.einsum; cbn [map]; shs; es;
  eexists; split; [reflexivity|by []|]; intros; cbn [at_];
  rewrite /= ?take0 /= ?drop0 /=.
Ltac ends := repeat match goal with h : is_true (inr _ _) |- _ => move: h => /= h end;
  repeat match goal with h : is_true (_ && _) |- _ => let h1 := fresh in let h2 := fresh in case/andP: h => h1 h2 end;
  shs; rewrite !clip_id //= ?ltn_ord /=;
  repeat match goal with h : is_true _ |- _ => rewrite h; clear h end; rewrite //.
Lemma e_wcov c d (w Y Z : tensor) : sh w = [:: N, F & B] -> sh Y = [:: N, F, c & B] -> sh Z = [:: N, F, d & B] ->
  exists t : tensor, [/\ einsum [:: "fn"; "cfn"; "dfn"]%string "fcd" [:: w; Y; Z] = Ok t, sh t = [:: d, c, F & B] &
   forall b e f k, inr [:: d, c, F & B] [:: e, k, f & b] ->
     at_ t [:: e, k, f & b] = \sum_(n < N) at_ w [:: nat_of_ord n, f & b] * at_ Y [:: nat_of_ord n, f, k & b] * at_ Z [:: nat_of_ord n, f, e & b]].
Proof. start; apply: eq_bigr => ? _; ends. Qed.
Lemma ip2_V_at (w : tensor) (k : 'I_2) : sh w = [:: N, F, 2 & B]%N -> exists V, [/\ t_ip2_V X w (Z.of_nat k) = Ok V, sh V = [:: 2, 2, F & B]%N &
  forall b (f : 'I_F), inr B b -> mat 2 2 V (nat_of_ord f :: b) = ip2_V (sg 2 N X b f) (sg 2 N w b f) k].
Proof.
move=> sw; rewrite /t_ip2_V; have [wk [-> swk hwk]] := sel2 sw (ltn_ord k); cbn [bind].
have [V0 [-> sV0 hV0]] := e_wcov swk sX (sX : sh (tmap conjC X) = _); cbn [bind]; rewrite sX; cbn [TorchShape.size List.nth_error bind].
set V1 := tmap _ V0; have sV1 : sh V1 = [:: 2, 2, F & B]%N by [].
have [H -> [sH eH]] := herm_at sV1; cbn [bind].
have [S [e sS hS]] := tzip_same +%R sV1 sH; rewrite /tadd e; cbn [bind]; eexists; split; [reflexivity|by []|] => b f hb.
have hf : inr (F :: B) (nat_of_ord f :: b) by rewrite /= ltn_ord.
have e1 : mat 2 2 V1 (nat_of_ord f :: b) = \matrix_(c, d) ((\sum_n sg 2 N w b f k n * sg 2 N X b f c n * (sg 2 N X b f d n)^*) / N%:R).
  apply/matrixP => c d; rewrite [LHS]mxE [RHS]mxE /V1; cbn [tmap at_]; rewrite hV0; last by rewrite /= !ltn_ord.
  by congr (_ / _); apply: eq_bigr => n _; rewrite !sigE hwk.
rewrite /ip2_V -e1 -(eH _ hf); apply/matrixP => c d; rewrite [LHS]mxE [RHS]mxE [in RHS]mxE; cbn [tscale tmap at_].
rewrite hS; last by rewrite /= !ltn_ord.
by rewrite !matE.
Qed.
Definition ist := (tensor * option tensor * option tensor * St)%type.
Definition okI (pb : bool) (s : ist) : Prop := [/\ sh s.1.1.1 = [:: N, F, 2 & B]%N, s.1.1.2 = pb :> bool,
  (if s.1.2 is Some A then pb /\ sh A = [:: 2, 2, F & B]%N else ~~ pb) & inv s.2].
(* e is element b of the state s; W is used nowhere *)
Definition reads (s : ist) (b : seq nat) (e : sig C F N 2 * filt C F 2 2 * filt C F 2 2 * St1) : Prop :=
  [/\ sg 2 N s.1.1.1 b = e.1.1.1, rs s.2 b = e.2 & if s.1.2 is Some A then fl F 2 2 A b = e.1.2 else True].
Lemma ip2_update_at (w : tensor) pb (W A : option tensor) : sh w = [:: N, F, 2 & B]%N -> W = pb :> bool -> A = pb :> bool ->
  exists Y W' A', [/\ t_ip2_update X w W A eps = Ok (Y, W', A'), sh Y = [:: N, F, 2 & B]%N, W' = pb :> bool,
   (if A' is Some A' then pb /\ sh A' = [:: 2, 2, F & B]%N else ~~ pb) & forall b (f : 'I_F), inr B b ->
     let r := ip2_update (sg 2 N X b f) (sg 2 N w b f) eps in sg 2 N Y b f = r.1.1 /\ if A' is Some A' then fl F 2 2 A' b f = r.2 else True].
Proof.
move=> sw eW eA; rewrite /t_ip2_update sX; cbn [TorchShape.size List.nth_error bind]; rewrite eqxx; cbn [negb].
have [V0 [-> sV0 hV0]] := ip2_V_at i0 sw; cbn [bind]; have [V1 [-> sV1 hV1]] := ip2_V_at i1 sw; cbn [bind].
have [E -> [sE hE]] := ip2_eigvec_at eps (mats_self sV0) (mats_self sV1); cbn [bind].
have [H hH [sH eH]] := herm_at sE; rewrite hH; cbn [bind].
have [Y [eY sY hY]] := e_unmix sH sX.
have HE b (f : 'I_F) : inr B b -> mat 2 2 H (nat_of_ord f :: b) = LinalgModel.hermite (ip2_eigvec (ip2_V (sg 2 N X b f) (sg 2 N w b f) i0) (ip2_V (sg 2 N X b f) (sg 2 N w b f) i1) eps).
  by move=> hb; rewrite eH ?hE ?hV0 ?hV1 //= ltn_ord.
have YE b (f : 'I_F) : inr B b -> sg 2 N Y b f = (ip2_update (sg 2 N X b f) (sg 2 N w b f) eps).1.1.
  move=> hb; apply/matrixP => s n; rewrite /ip2_update; cbn [fst]; rewrite -HE // sigE [RHS]mxE hY; last by rewrite /= !ltn_ord.
  by apply: eq_bigr => c _; rewrite matE sigE.
have [J eJ [sJ hJ]] := inv2_at (10%:R ^- 6) sH.
have IE b (f : 'I_F) : inr B b -> fl F 2 2 J b f = (ip2_update (sg 2 N X b f) (sg 2 N w b f) eps).2.
  move=> hb; rewrite ffunE hJ; last by rewrite /= ltn_ord.
  by rewrite HE.
case: pb eW eA => eW eA.
  case: W eW => [W0 _|//]; case: A eA => [A0 _|//]; rewrite eJ; cbn [bind]; rewrite eY; cbn [bind].
  exists Y, (Some H), (Some J); split; [reflexivity|exact: sY|reflexivity|split; [reflexivity|exact: sJ]|move=> b f hb].
  exact (conj (YE b f hb) (IE b f hb)).
case: W eW => [W0 //|_]; case: A eA => [A0 //|_]; cbn [bind]; rewrite eY; cbn [bind].
exists Y, None, None; split; [reflexivity|exact: sY|reflexivity|reflexivity|move=> b f hb].
exact (conj (YE b f hb) I).
Qed.
Lemma ip2_iter_at pb s : okI pb s -> exists s', [/\ t_ip2_iter tm X eps s = Ok s', okI pb s' & forall b e, inr B b -> reads s b e -> reads s' b (ip2_iter m (sg 2 N X b) eps e)].
Proof.
case: s => [[[Y W] A] m0] [sY eW sA iA]; cbn [fst snd] in sY, eW, sA, iA; rewrite /t_ip2_iter.
have [w [m1 [-> im1 sw hw]]] := hm iA sY; cbn [bind].
have [g [-> shg hg]] := tmean2E (sY : sh (tmap (@mag_sq C) Y) = _); cbn [bind]; cbv zeta.
set gc := tmap _ g; have sgc : sh gc = [:: 1, 1, 2 & B]%N by [].
have gE b s : at_ gc [:: 0%N, 0%N, nat_of_ord s & b] = ip2_gain (sg 2 N Y b) s.
  rewrite /gc; cbn [at_ tmap]; rewrite hg /ip2_gain; congr (clamp (_ / _) _).
  by apply: eq_bigr => f _; apply: eq_bigr => n _; rewrite sigE.
have [Y1 [e1 sY1 _]] := tzip_gain (fun x y => divide x y (10%:R ^- 7)) sY (sgc : sh (tmap sqrtC gc) = _); rewrite {1}/tdivide e1; cbn [bind].
have [w1 [e4 sw1 hw1]] := tzip_gain *%R sw sgc; rewrite /tmul e4; cbn [bind].
have eA : A = pb :> bool by move: sA; case: (A) => [A0 [-> _]//|]; case: (pb).
have [Y2 [W2 [A2 [-> sY2 eW2 sA2 h]]]] := ip2_update_at sw1 eW eA; cbn [bind].
eexists; split; [reflexivity|by split|move=> b [[[ye we] ae] me] hb [r1 r2 _]]; cbn [fst snd] in r1, r2.
rewrite /ip2_iter -r1 -r2 hw //; cbn [fst snd].
have rw : sg 2 N w1 b = [ffun f => \matrix_(s, n) (sg 2 N w b f s n * ip2_gain (sg 2 N Y b) s)] :> sig C F N 2.
  apply/ffunP => f; apply/matrixP => s n; rewrite sigE ffunE mxE sigE -gE hw1 //=; by rewrite !ltn_ord.
rewrite -rw; split; cbn [fst snd].
- apply/ffunP => f; rewrite [RHS]ffunE [in RHS]ffunE; exact (proj1 (h b f hb)).
- reflexivity.
case: A2 h {sA2} => [A2|_]; last exact Logic.I.
move=> h; apply/ffunP => f; rewrite [RHS]ffunE [in RHS]ffunE; exact (proj2 (h b f hb)).
Qed.
Lemma ip2_loop_at pb n s : okI pb s -> exists s', [/\ t_iterate (t_ip2_iter tm X eps) n s = Ok s', okI pb s' &
  forall b e, inr B b -> reads s b e -> reads s' b (iter n (ip2_iter m (sg 2 N X b) eps) e)].
Proof.
elim: n s => [|n IH] s hs; first by exists s.
have [s1 [e1 h1 r1]] := ip2_iter_at hs; have [s2 [e2 h2 r2]] := IH _ h1.
exists s2; split=> //; first by cbn [t_iterate]; rewrite e1.
by move=> b e hb he; rewrite iterSr; apply: r2 => //; exact: r1.
Qed.
End Run.
