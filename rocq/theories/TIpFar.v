(* AuxIVA_IP on a batch: projection back on a microphone without a source. *)
From Coq Require Import String Ascii ZArith.
From mathcomp Require Import all_ssreflect all_algebra.
From mathcomp Require Import zify.
From Verif Require TorchShape.
From Verif Require Import CAlg Py Batch LinalgModel TissModel IvaModel IvaProofs TensorModel TOpsModel TSpec TSepSpec TensorProofs TEinsum TOpsProofs TTissModel TTissProofs TTissBatch TTissForward TIpModel TIpProofs TIpRun.
Set Implicit Arguments. Unset Strict Implicit. Unset Printing Implicit Defensive.
Import GRing.Theory Num.Theory Order.TTheory.
Local Open Scope ring_scope.
Arguments clip : simpl never.
Arguments TorchShape.bc2 : simpl never.
Arguments Nat.eqb : simpl never.

Lemma bcast_ext r r2 : TorchShape.bcast r (r ++ r2) = Ok (r ++ r2).
Proof. by elim: r => [|n r IH]; [case: r2|rewrite /= bc2nn /= IH]. Qed.
Lemma bcast_ext' r r2 : TorchShape.bcast (r ++ r2) r = Ok (r ++ r2).
Proof. by elim: r => [|n r IH]; [case: r2|rewrite /= bc2nn /= IH]. Qed.
Lemma clip_ext r r2 i : inr (r ++ r2) i -> clip r i = take (size r) i.
Proof.
elim: r i => [|n r IH] [|x i] //= /andP [hx hi].
by rewrite -[clip _ _]/((if n == 1%N then 0%N else x) :: clip r i) IH //; case: eqP hx => // ->; case: x.
Qed.
Lemma inr_take r r2 i : inr (r ++ r2) i -> inr r (take (size r) i).
Proof. by elim: r i => [|n r IH] [|x i] //= /andP [-> /IH]. Qed.

Section Ext.
Variable C : numClosedFieldType.
Local Notation tensor := (tensor C).
Ltac es := rewrite /= ?bc2nn /= ?bcastss /= ?bc2nn /= ?bcastss ?bcast0r /= ?bcast_ext /=.
Lemma e_gram_ext k m n r r2 X Y : sh X = [:: m, k & r] -> sh Y = [:: n, k & r ++ r2] ->
  exists t : tensor, [/\ einsum [:: "km"; "kn"]%string "mn" [:: X; Y] = Ok t, sh t = [:: n, m & r ++ r2] &
   forall x y i, inr [:: n, m & r ++ r2] [:: x, y & i] ->
     at_ t [:: x, y & i] = \sum_(j < k) at_ X [:: y, nat_of_ord j & take (size r) i] * at_ Y [:: x, nat_of_ord j & i]].
Proof.
move=> sX sY; rewrite /einsum /TorchShape.einsum; cbn [map]; rewrite sX sY; es.
eexists; split; [reflexivity|by []|] => x y i /and3P [hx hy hi]; cbn [at_]; rewrite /= ?take0 /= ?drop0 /=; apply: eq_bigr => j _.
rewrite sX sY (clip_id (_ : inr [:: n, k & r ++ r2] [:: x, nat_of_ord j & i])); last by rewrite /= hx ltn_ord.
congr (_ * _); have h1 : inr [:: m, k & r ++ r2] [:: y, nat_of_ord j & i] by rewrite /= hy ltn_ord.
by rewrite (clip_ext (r := [:: m, k & r]) h1).
Qed.
Lemma solve_ext n k r r2 (A b : tensor) : sh A = [:: n, n & r] -> sh b = [:: k, n & r ++ r2] ->
  lifts (r ++ r2) [:: k, n & r ++ r2] (solve A b) (fun i => torch_solve (mat n n A (take (size r) i)) (mat n k b i)) (fun t i => mat n k t i).
Proof.
move=> sA sb; rewrite /solve sA sb.
have nv : TorchShape.is_vector_rhs [:: n, n & r] [:: k, n & r ++ r2] = false.
  have lc : List.length (r ++ r2) = (List.length r + List.length r2)%N by exact: List.app_length.
  rewrite /TorchShape.is_vector_rhs /= lc; apply/negbTE/negP => /andP [/Nat.eqb_spec h _]; lia.
rewrite /TorchShape.solve /= !Nat.eqb_refl /= nv bcast_ext /=.
case E: (mapb _ _ _) => [X|e] /=; last first.
  have [i hi he] := mapb_err E; exists i => //; move: he; by rewrite (clip_ext hi) clip_id.
split=> // i hi; have := mapb_ok E hi; rewrite (clip_ext hi) clip_id // => ->.
by congr Ok; apply/matrixP => x y; rewrite !mxE /= getE.
Qed.
Lemma slg_ext m n k r r2 (A b : tensor) load eps : sh A = [:: n, m & r] -> sh b = [:: k, m & r ++ r2] ->
  lifts (r ++ r2) [:: k, n & r ++ r2] (solve_loaded_general A b load eps)
    (fun i => LinalgModel.solve_loaded_general (mat m n A (take (size r) i)) (mat m k b i) load eps) (fun t i => mat n k t i).
Proof.
move=> sA sb; rewrite /solve_loaded_general.
have [nm [-> snm hnm]] := tnormE sA; cbn [bind]; cbv zeta.
rewrite /TorchShape.size {1}sA; cbn [List.nth_error bind].
set wt := tmap _ nm; have swt : sh wt = [:: 1, m & r]%N by [].
have [A2 [e2 sA2 hA2]] := tzip_col *%R sA swt; rewrite {1}/tmul e2; cbn [bind].
rewrite /tmul (@tzipE _ _ _ _ [:: k, m & r ++ r2]); last by rewrite sb swt /= bc2n1 /= bc2nn /= bcast_ext'.
cbn [bind]; set b2 := mkT _ _; have sb2 : sh b2 = [:: k, m & r ++ r2] by [].
have [G [-> sG hG]] := e_gram (sA2 : sh (tmap conjC A2) = _) sA2; cbn [bind].
have [R [-> sR hR]] := e_gram_ext (sA2 : sh (tmap conjC A2) = _) sb2; cbn [bind].
rewrite /tadd (@tzipE _ _ _ _ [:: n, n & r]); last by rewrite sG /= !bc2nn /= bcast0r.
cbn [bind]; set L := mkT _ _.
have wE i (x : 'I_m) : at_ wt [:: 0%N, nat_of_ord x & i] = row_weight (mat m n A i) eps x.
  rewrite /wt; cbn [at_ tmap]; rewrite hnm /row_weight; congr (1 / clamp (sqrtC _) _); apply: eq_bigr => j _; by rewrite matE.
have mA2 i (x : 'I_m) (y : 'I_n) : inr r i -> at_ A2 [:: nat_of_ord y, nat_of_ord x & i] = mat m n A i x y * row_weight (mat m n A i) eps x.
  by move=> hi; rewrite hA2 ?wE ?matE //= !ltn_ord.
have := solve_ext (erefl : sh L = [:: n, n & r]) sR; apply: eq_lifts => i hi; rewrite /LinalgModel.solve_loaded_general.
have ht := inr_take hi; congr torch_solve.
  apply/matrixP => x y; rewrite matE /L; cbn [at_].
  have h : inr [:: n, n & r] [:: nat_of_ord y, nat_of_ord x & take (size r) i] by rewrite /= !ltn_ord.
  rewrite [in LHS]sG (clip_id h) hG // [RHS]mxE [X in _ = X + _]mxE [X in _ = _ + X]mxE [1%:M _ _]mxE; congr (_ + _).
    by apply: eq_bigr => l _; cbn [at_ tmap]; rewrite !mA2 // !mxE.
  by rewrite /tscale; cbn [at_ tmap sh teye]; rewrite /clip /= !clip1 eq_sym.
apply/matrixP => x y; rewrite matE hR; last by rewrite /= !ltn_ord.
rewrite mxE; apply: eq_bigr => l _; cbn [at_ tmap]; rewrite mA2 // /b2; cbn [at_]; rewrite sb swt.
have h1 : inr [:: k, m & r ++ r2] [:: nat_of_ord y, nat_of_ord l & i] by rewrite /= !ltn_ord.
rewrite (clip_id h1) -[clip [:: 1, m & r]%N _]/(0%N :: clip (m :: r) (nat_of_ord l :: i)).
have h2 : inr ((m :: r) ++ r2) (nat_of_ord l :: i) by rewrite /= ltn_ord.
by rewrite (clip_ext h2) -[take _ (_ :: _)]/(nat_of_ord l :: take (size r) i) wE !mxE.
Qed.
End Ext.

Section Far.
Variable C : numClosedFieldType.
Local Notation tensor := (tensor C).
Variables (nS nB F N : nat) (B : seq nat).
Local Notation nC := (nS + nB)%N.
Local Notation sg k n t b := (sig_at F n k t b).
Local Notation B2 := (B ++ F :: B).
Local Notation hd i := (take (size B) i).
Lemma ip_pb_far (Y W J : tensor) (ref : 'I_nC) : sh Y = [:: N, F, nS & B] -> sh W = [:: nC, nS, F & B] -> sh J = [:: nS, nB, F & B] ->
  (nS <= ref)%N ->
  lifts B2 [:: N, F, nS & B2] (t_ip_pb Y W (Some J) (Z.of_nat ref))
    (fun i => ip_pb (sg nS N Y (hd i)) (fl F nS nC W (hd i)) (fl F nB nS J (hd i)) ref) (fun t i => sg nS N t i).
Proof.
move=> sY sW sJ ge; rewrite /t_ip_pb {1}sY {1}sW.
have n0 : (0 < nB)%N by have := ltn_ord ref; lia.
have hF b (f : 'I_F) : inr B b -> inr (F :: B) (nat_of_ord f :: b) by rewrite /= ltn_ord.
pose A b (f : 'I_F) : 'M[C]_nS := (lsubmx (fl F nS nC W b f) + rsubmx (fl F nS nC W b f) *m fl F nB nS J b f)^T.
have sW' : sh W = [:: nC, (nS + 0)%N, F & B] by rewrite addn0.
have [W1 [-> sW1 hW1]] := slice_to1 sW'; cbn [bind].
have [A1 [-> sA1 hA1]] := slice_to0 sW1; cbn [bind]; have [B1 [-> sB1 hB1]] := slice_from0 sW1; cbn [bind].
have -> : Z.ltb (Z.of_nat ref) (Z.of_nat nS) = false by apply/Z.ltb_spec0; lia.
have lt : (ref - nS < nB)%N by have := ltn_ord ref; lia.
have -> : Z.sub (Z.of_nat ref) (Z.of_nat nS) = Z.of_nat (ref - nS) by lia.
rewrite (@pickE _ 1 _ J nB) ?sJ ?valid_nat //; cbn [bind].
set J1 := mkT _ _; have sJ1 : sh J1 = [:: nS, 1, F & B]%N by [].
have [e1 [-> se1 he1]] := transpose10 sJ1; cbn [bind].
have [BC [-> sBC hBC]] := matmulE sB1 sJ; cbn [bind].
have [D [e sD hD]] := tzip_same +%R sA1 sBC; rewrite /tadd e; cbn [bind].
have hA b f : inr B b -> (mat nS nS D (nat_of_ord f :: b))^T = A b f.
  move=> hb; congr trmx; apply/matrixP => i j; rewrite matE hD; last by rewrite /= !ltn_ord.
  rewrite -(matE BC (nat_of_ord f :: b) i j) hBC ?hF // hA1 hW1 [RHS]mxE; congr (_ + _); first by rewrite mxE flE.
  rewrite [LHS]mxE [RHS]mxE; apply: eq_bigr => x _; congr (_ * _); first by rewrite mxE hB1 hW1 [RHS]mxE flE.
  by rewrite flE mxE.
have -> : sh e1 ++ drop 2 (sh D) = [:: 1%N, nS & (F :: B) ++ (F :: B)] by rewrite se1 sD.
rewrite /broadcast_to /TorchShape.expand_to se1.
have -> : TorchShape.bcast [:: 1%N, nS, F & B] [:: 1%N, nS & (F :: B) ++ (F :: B)] = Ok [:: 1%N, nS & (F :: B) ++ (F :: B)].
  exact: (bcast_ext [:: 1%N, nS, F & B]).
cbn [bind]; rewrite seqbss; cbn [bind]; set e2 := mkT _ _; have se2 : sh e2 = [:: 1%N, nS & (F :: B) ++ (F :: B)] by [].
have [WT [-> sWT hWT]] := transpose10 sD; cbn [bind].
have hl := slg_ext (10%:R ^- 5) (10%:R ^- 5) sWT se2.
have hg := @gather_lift C _ (0 : 'cV[C]_nS) F B2 _ _ _ _ _ (fun i er => @slg_err _ _ _ _ _ _ _ _ er) hl.
pose ka i (x : {ffun 'I_F -> 'M[C]_(nS, 1)}) : result (sig C F N nS) := Ok [ffun f => \matrix_(s, n) (sg nS N Y (hd i) f s n * x f s 0)].
have := @lifts_bind C _ _ _ _ [:: N, F, nS & B2] _ _ _ (fun a => let* a := transpose 2 1 a in tmul Y a)%py ka (fun t b => sg nS N t b) hg.
move=> hh; apply: eq_lifts (hh _) => [i hi|a sa].
  rewrite /ip_pb /ka n0; congr bind; apply: eq_gather => f.
  have ht := inr_take hi.
  case: splitP => x hx; first by exfalso; move: ge; rewrite hx leqNgt ltn_ord.
  have -> : mat nS nS WT (take (size (F :: B)) (nat_of_ord f :: i)) = A (hd i) f.
    rewrite -[take _ _]/(nat_of_ord f :: hd i) -(hA _ _ ht); apply/matrixP => y z; by rewrite !mxE hWT.
  have -> //: mat nS 1 e2 (nat_of_ord f :: i) = (row x (fl F nB nS J (hd i) f))^T.
  apply/matrixP => y z; rewrite matE mxE mxE flE /e2; cbn [at_]; rewrite ord1.
  have h1 : inr ([:: 1%N, nS, F & B] ++ (F :: B)) [:: 0%N, nat_of_ord y, nat_of_ord f & i] by rewrite /= !ltn_ord.
  rewrite (clip_ext h1) -[take _ _]/[:: 0%N, nat_of_ord y, nat_of_ord f & hd i] he1 /J1; cbn [at_]; rewrite zidx_nat.
  by congr (at_ J [:: _, _ & _]); rewrite hx addKn.
have [a2 [-> sa2 ha2]] := transpose21 sa; cbn [bind].
rewrite /tmul (@tzipE _ _ _ _ [:: N, F, nS & B2]); last first.
  rewrite sY sa2 -[TorchShape.bcast _ _]/(let* x := TorchShape.bc2 N 1 in let* y := TorchShape.bcast [:: F, nS & B] ([:: F, nS & B] ++ F :: B) in Ok (x :: y))%py.
  by rewrite bc2n1 bcast_ext.
split=> // i hi; congr Ok; apply/ffunP => f; apply/matrixP => s n; rewrite !ffunE !mxE; cbn [at_]; rewrite sY sa2.
have h1 : inr ([:: N, F, nS & B] ++ F :: B) [:: nat_of_ord n, nat_of_ord f, nat_of_ord s & i] by rewrite /= !ltn_ord.
rewrite (clip_ext h1) -[take (size [:: N, F, nS & B]) _]/[:: nat_of_ord n, nat_of_ord f, nat_of_ord s & hd i]; congr (_ * _).
have h2 : inr [:: F, nS & B2] [:: nat_of_ord f, nat_of_ord s & i] by rewrite /= !ltn_ord.
by rewrite -[clip _ _]/(0%N :: clip [:: F, nS & B2] [:: nat_of_ord f, nat_of_ord s & i]) (clip_id h2) ha2.
Qed.
Variables (St St1 : Type) (tm : St -> tensor -> result (tensor * St)) (m : St1 -> sig C F N nS -> sig C F N nS * St1) (inv : St -> Prop) (rs : St -> seq nat -> St1).
Hypothesis hm : source_as B tm m inv rs.
Variables (X : tensor) (eps : C).
Hypothesis sX : sh X = [:: N, F, nC & B].
Lemma ip_forward_far n_iter (ref : 'I_nC) m0 : inv m0 -> 0 < eps -> (nS <= ref)%N ->
  lifts B2 [:: N, F, nS & B2] (t_ip_forward tm n_iter (Some nS) (Some (Z.of_nat ref)) eps m0 X)
    (fun i => rmap fst (ip_forward m (sg nC N X (hd i)) eps n_iter (Some ref) (rs m0 (hd i)))) (fun t b => sg nS N t b).
Proof.
move=> im0 e0 ge; have [raw [-> hraw]] := ip_raw_at hm eps sX n_iter im0.
have n0 : (0 < nB)%N by have := ltn_ord ref; lia.
move: hraw; rewrite /gives; case: raw => [[[[Y W] J] m1] [[sY sW jJ _] h]|e [b hb he]]; last first.
  by have [Y [W [J [m1 [h _]]]]] := ip_raw_ok m (sg nC N X b) n_iter (rs m0 b) e0; rewrite h in he.
cbn [fst snd] in sY, sW, jJ; cbn [bind]; rewrite /t_ip_fin.
case: J jJ h => [J [_ sJ]|b0] h; last by exfalso; move: n0; rewrite (b0 : nB = 0%N).
apply: eq_lifts (ip_pb_far sY sW sJ ge) => i hi; have ht := inr_take hi.
rewrite /ip_forward (h _ ht) /rdP; cbn [fst snd bind]; by case: (ip_pb _ _ _ _).
Qed.
End Far.
