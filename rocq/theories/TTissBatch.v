(* T_ISS on a batch: the loops, the background filter, the iterations and the projection back. *)
From Coq Require Import String Ascii ZArith.
From mathcomp Require Import all_ssreflect all_algebra.
From mathcomp Require Import zify.
From Verif Require TorchShape.
From Verif Require Import CAlg Py Batch LinalgModel TissModel TensorModel TOpsModel TSpec TSepSpec TensorProofs TEinsum TOpsProofs TWpeProofs TTissModel TTissProofs.
Set Implicit Arguments. Unset Strict Implicit. Unset Printing Implicit Defensive.
Import GRing.Theory Num.Theory Order.TTheory.
Local Open Scope ring_scope.
Arguments clip : simpl never.
Arguments TorchShape.bc2 : simpl never.
Arguments Nat.eqb : simpl never.

Section Run.
Variable C : numClosedFieldType.
Local Notation tensor := (tensor C).
Variables (nS nB F T dl N : nat) (B : seq nat).
Local Notation nC := (nS + nB)%N.
Local Notation sg k n t b := (sig_at F n k t b).

(* ---- iss_updates_with_H *)
Definition okZ (J Zt : option tensor) : Prop :=
  match J, Zt with Some _, Some Zt => sh Zt = [:: N, F, nB & B] | None, None => True | _, _ => False end.
Definition rdZ (Zt : option tensor) (b : seq nat) : sig C F N nB := if Zt is Some Zt then sg nB N Zt b else [ffun f => 0].
Section Updates.
Variables (eps : C) (w Xb Y W H : tensor).
Hypothesis sw : sh w = [:: N, F, nS & B].
Hypothesis sXb : sh Xb = [:: N, T, F, nC & B].
Hypothesis ok0 : okYWH nS nB F T N B (Y, W, H).
Variables J Zt : option tensor.
Hypothesis hJ : okJ nS nB F B J.
Hypothesis hZ : okZ J Zt.
Lemma updates_at : (N == 0%N) && (0 < nS)%N = false ->
  exists r, [/\ t_iss_updates_with_H Y Xb W H w J Zt eps = Ok r, okYWH nS nB F T N B r &
    forall b f, inr B b -> rdYWH nS nB T N r (b, f) =
      iss_updates (sg nS N w b f) eps (rdZ Zt b f) (rdJ nS nB F J b f) (xb_at F T N nC Xb b f) (rdYWH nS nB T N (Y, W, H) (b, f))].
Proof.
move=> nz; have [/= sY sW sH] := ok0; rewrite /t_iss_updates_with_H /TorchShape.size {1}sY; cbn [List.nth_error bind].
have -> : (match J, Zt with
   | None, _ => Ok nS
   | Some _, Some Zt => let* k := (match List.nth_error (sh Zt) 2 with Some n => Ok n | None => Err IndexError end) in Ok (nS + k)%N
   | Some _, None => Err AttributeError end)%py = Ok nC.
  move: hJ hZ; rewrite /okJ /okZ; case: J Zt => [j|] [z|] //; first by move=> _ ->.
  by move=> -> _; rewrite addn0.
cbn [bind]; rewrite sXb; cbn [List.nth_error bind].
pose D (x : seq nat * 'I_F) := inr B x.1 : Prop.
have [|[[Y1 W1] H1] [-> ok1 r1]] := @for_fold _ _ _ (okYWH nS nB F T N B) D (rdYWH nS nB T N) nS (t_step1 w eps)
   (fun x => step1 (sg nS N w x.1 x.2) eps) _ _ ok0.
  move=> src st hst; have N0 : (0 < N)%N.
    have s0 := leq_ltn_trans (leq0n _) (ltn_ord src); by move: nz; rewrite s0 andbT lt0n => ->.
  exact: step1_at.
cbn [bind]; have [/= sY1 sW1 sH1] := ok1.
have [YW2 [-> ok2 r2]] : exists YW, [/\ (match Zt, J with
      | Some Zt, Some J => TorchShape.for_range (t_step2 w eps nS Zt J) (nC - nS) (Y1, W1)
      | _, _ => Ok (Y1, W1) end) = Ok YW, okYW nS nB F N B YW &
    forall x, D x -> rdYWH nS nB T N (YW, H1) x = foldl (step2 (sg nS N w x.1 x.2) eps (rdZ Zt x.1 x.2) (rdJ nS nB F J x.1 x.2)) (rdYWH nS nB T N (Y1, W1, H1) x) (enum 'I_nB)].
  move: hJ hZ; rewrite /okJ /okZ; case: J Zt => [j|] [z|] //; last first.
    move=> nB0 _; exists (Y1, W1); split=> // x dx.
    by rewrite (size0nil (_ : size (enum 'I_nB) = 0%N)) // size_enum_ord.
  move=> [_ sj] sz; rewrite addKn.
  apply: (@for_fold _ _ _ (okYW nS nB F N B) D (fun st x => rdYWH nS nB T N (st, H1) x) nB (t_step2 w eps nS z j)
    (fun x => step2 (sg nS N w x.1 x.2) eps (sg nB N z x.1 x.2) (sg nB nS j x.1 x.2)) (Y1, W1)) => // bak st hst.
  exact: step2_at.
cbn [bind]; case: YW2 ok2 r2 => Y2 W2 [/= sY2 sW2] r2.
have [||[Y3 H3] [-> [/= sY3 sH3] r3]] := @for_fold _ _ _ (okYH nS nB F T N B) D (fun st x => rdYWH nS nB T N (st.1, W2, st.2) x) nC
   (fun src => TorchShape.for_range (t_step3 w eps Xb src) T)
   (fun x s src => foldl (fun y tap => step3 (sg nS N w x.1 x.2) eps (xb_at F T N nC Xb x.1 x.2) y (src, tap)) s (enum 'I_T)) (Y2, H1).
- move=> src st hst.
  apply: (@for_fold _ _ _ (okYH nS nB F T N B) D (fun st x => rdYWH nS nB T N (st.1, W2, st.2) x) T (t_step3 w eps Xb (Z.of_nat src))
    (fun x y tap => step3 (sg nS N w x.1 x.2) eps (xb_at F T N nC Xb x.1 x.2) y (src, tap)) st) => // tap st' hst'.
  exact: step3_at.
- by split.
cbn [bind]; eexists; split; [reflexivity|by split|].
move=> b f hb; have := r3 (b, f) hb; cbn [fst snd]; rewrite foldl_allpairs r2 // r1 //.
Qed.
Lemma updates_err : (N == 0%N) && (0 < nS)%N -> t_iss_updates_with_H Y Xb W H w J Zt eps = Err RuntimeError.
Proof.
case/andP => /eqP n0 s0; have [/= sY sW sH] := ok0; rewrite /t_iss_updates_with_H /TorchShape.size {1}sY; cbn [List.nth_error bind].
have -> : (match J, Zt with
   | None, _ => Ok nS
   | Some _, Some Zt => let* k := (match List.nth_error (sh Zt) 2 with Some n => Ok n | None => Err IndexError end) in Ok (nS + k)%N
   | Some _, None => Err AttributeError end)%py = Ok nC.
  move: hJ hZ; rewrite /okJ /okZ; case: J Zt => [j|] [z|] //; first by move=> _ ->.
  by move=> -> _; rewrite addn0.
cbn [bind]; rewrite sXb; cbn [List.nth_error bind].
have -> : TorchShape.for_range (t_step1 w eps) nS (Y, W, H) = Err RuntimeError; last by [].
rewrite /TorchShape.for_range -(prednK s0); cbn [TorchShape.loop_from]; rewrite /t_step1 /t_iss1 /TorchShape.size {1}sY; cbn [List.nth_error bind].
by have [Xs [-> _ _]] := @sel2 _ _ _ _ _ _ 0 sY s0; cbn [bind]; rewrite n0.
Qed.
End Updates.

(* ---- demix_derev, demix_background *)
Lemma demix_at (X Xb W H : tensor) : sh X = [:: N, F, nC & B] -> sh Xb = [:: N, T, F, nC & B] -> sh W = [:: nC, F, nS & B] ->
  sh H = [:: T, nC, F, nS & B] -> exists Y, [/\ t_demix_derev X Xb W H = Ok Y, sh Y = [:: N, F, nS & B] &
   forall b, inr B b -> sg nS N Y b = demix_derev (sg nC N X b) (xb_at F T N nC Xb b) (sg nS nC W b) (taps_at F T nS nC H b)].
Proof.
move=> sX sXb sW sH; rewrite /t_demix_derev.
have [t1 [-> s1 h1]] := e_reverb sH sXb; cbn [bind]; have [t2 [-> s2 h2]] := e_demix sW sX; cbn [bind].
have [Y [e sY hY]] := tzip_same (fun x y => x - y) s2 s1; exists Y; split=> // b hb.
apply/ffunP => f; apply/matrixP => s n; rewrite sigE ffunE mxE.
have h : inr [:: N, F, nS & B] [:: nat_of_ord n, nat_of_ord f, nat_of_ord s & b] by rewrite /= !ltn_ord.
rewrite hY // h1 // h2 //; congr (_ - _); first by apply: eq_bigr => d _; rewrite !sigE.
by rewrite exchange_big; apply: eq_bigr => d _; apply: eq_bigr => t _; rewrite tapsE xbE.
Qed.
Lemma demix_background_at (X : tensor) (J : option tensor) : sh X = [:: N, F, nC & B] -> okJ nS nB F B J -> exists Zt,
  [/\ t_demix_background X J = Ok Zt, okZ J Zt & forall b, inr B b -> rdZ Zt b = demix_background (sg nC N X b) (rdJ nS nB F J b)].
Proof.
move=> sX; case: J => [J [_ sJ]|nB0]; last first.
  exists None; split=> // b hb; apply/ffunP => f; rewrite !ffunE; apply/matrixP => s n; exfalso; case: s => m lt; by move: lt; rewrite nB0.
rewrite /t_demix_background /TorchShape.size sJ; cbn [List.nth_error bind].
have [X1 [-> s1 h1]] := slice_to2 sX; cbn [bind].
have [t [-> st ht]] := e_demix sJ s1; cbn [bind].
have [X2 [-> s2 h2]] := slice_from2 sX; cbn [bind].
have [Zt [e sZ hZ]] := tzip_same (fun x y => x - y) st s2; rewrite /tsub e; cbn [bind].
exists (Some Zt); split=> // b hb; apply/ffunP => f; apply/matrixP => s n; rewrite sigE ffunE.
have h : inr [:: N, F, nB & B] [:: nat_of_ord n, nat_of_ord f, nat_of_ord s & b] by rewrite /= !ltn_ord.
rewrite hZ // ht // h2 [RHS]mxE [X in _ = _ + X]mxE [X in _ = X - _]mxE [X in _ = _ - X]mxE sigE /=; congr (_ - _).
by apply: eq_bigr => d _; rewrite h1 [usubmx _ _ _]mxE !sigE.
Qed.

(* ---- the background filter *)
Lemma sub_gather (U : Type) (d : U) (g g' : 'I_F -> result U) : g =1 g' -> gather d g = gather d g'.
Proof. exact: eq_gather. Qed.
Lemma slg_err m n k (A : 'M[C]_(m, n)) (b : 'M[C]_(m, k)) load e er : LinalgModel.solve_loaded_general A b load e = Err er -> er = LinAlgError.
Proof. by rewrite /LinalgModel.solve_loaded_general /torch_solve; case: ifP => // _ []. Qed.
Lemma background_at (X Xb W H CXX CXbX : tensor) e : sh W = [:: nC, F, nS & B] -> sh H = [:: T, nC, F, nS & B] ->
  sh CXX = [:: nC, F, nC & B] -> sh CXbX = [:: nC, F, T, nC & B] ->
  (forall b f c d, inr B b -> at_ CXX [:: nat_of_ord d, nat_of_ord f, nat_of_ord c & b] = C_XX (sg nC N X b) f c d) ->
  (forall b f t c d, inr B b -> at_ CXbX [:: nat_of_ord d, nat_of_ord f, nat_of_ord t, nat_of_ord c & b] = C_XbarX (sg nC N X b) (xb_at F T N nC Xb b) f t c d) ->
  lifts B [:: nS, F, nB & B] (t_background_update W H CXX CXbX e)
    (fun b => background_update (sg nS nC W b) (taps_at F T nS nC H b) (sg nC N X b) (xb_at F T N nC Xb b) e) (fun J b => sg nB nS J b).
Proof.
move=> sW sH s1 s2 h1 h2; rewrite /t_background_update /TorchShape.size {1}sW; cbn [List.nth_error bind].
have [A1 [-> sA1 hA1]] := e_fsd sW s1; cbn [bind]; have [A2 [-> sA2 hA2]] := e_fsc sH s2; cbn [bind].
have [A [eA sA hA]] := tzip_same +%R sA1 sA2; rewrite /tadd eA; cbn [bind].
have [M [-> sM hM]] := slice_to0 sA; cbn [bind]; have [R [-> sR hR]] := slice_from0 sA; cbn [bind].
set full := (bind (tnorm_keep 0 M) _).
have -> : full = (let* J_H := solve_loaded_general M R e e in moveaxis 0 2 (tmap conjC J_H))%py.
  rewrite /full /solve_loaded_general /tadd /TorchShape.size {1}sM; cbn [List.nth_error bind].
  case: (tnorm_keep 0 M) => [nm|] //=; case: (tmul M _) => [M2|] //=; case: (tmul R _) => [R2|] //=.
  by case: (einsum _ _ _) => [G|] //=; case: (einsum _ _ _) => [Q|] //=; case: (tzip _ _ _).
have hs := slg_mat e e sM sR.
have aE b (f : 'I_F) (s : 'I_nS) (d : 'I_nC) : inr B b -> at_ A [:: nat_of_ord d, nat_of_ord s, nat_of_ord f & b] =
   (sg nS nC W b f *m C_XX (sg nC N X b) f + \sum_t taps_at F T nS nC H b f t *m C_XbarX (sg nC N X b) (xb_at F T N nC Xb b) f t) s d.
  move=> hb; have h : inr [:: nC, nS, F & B] [:: nat_of_ord d, nat_of_ord s, nat_of_ord f & b] by rewrite /= !ltn_ord.
  rewrite hA // hA1 // hA2 // [RHS]mxE [X in _ = X + _]mxE summxE; congr (_ + _).
    by apply: eq_bigr => k _; rewrite h1 // sigE.
  by apply: eq_bigr => t _; rewrite mxE; apply: eq_bigr => k _; rewrite h2 // tapsE.
have hg := gather_lift 0 (fun i er => @slg_err _ _ _ _ _ _ _ er) hs.
have hJ (JH : tensor) : sh JH = [:: nB, nS, F & B] -> lifts B [:: nS, F, nB & B] (moveaxis 0 2 (tmap conjC JH))
    (fun b => Ok ([ffun f : 'I_F => ctr (mat nS nB JH (nat_of_ord f :: b))] : filt C F nB nS)) (fun J b => sg nB nS J b).
  move=> sJ; rewrite /moveaxis /TorchShape.moveaxis /TorchShape.size; cbn [sh tmap]; rewrite sJ; cbn [List.nth_error bind].
  split=> // b hb; congr Ok; apply/ffunP => f; apply/matrixP => k s; rewrite sigE ffunE ctrE matE.
  by cbn [at_ tmap].
have hJ2 (JH : tensor) : sh JH = [:: nB, nS, F & B] -> lifts B [:: nS, F, nB & B] (moveaxis 0 2 (tmap conjC JH))
    (fun b => Ok ([ffun f : 'I_F => ctr (([ffun f : 'I_F => mat nS nB JH (nat_of_ord f :: b)] : {ffun 'I_F -> 'M[C]_(nS, nB)}) f)] : filt C F nB nS)) (fun J b => sg nB nS J b).
  by move=> /hJ; apply: eq_lifts => b hb; congr Ok; apply/ffunP => f; rewrite !ffunE.
have hk := @lifts_bind _ _ _ _ _ _ _ _ _ _ (fun b (JH : {ffun 'I_F -> 'M[C]_(nS, nB)}) => Ok ([ffun f => ctr (JH f)] : filt C F nB nS)) _ hg hJ2.
apply: eq_lifts hk => b hb.
rewrite /background_update.
pose g1 (f : 'I_F) := LinalgModel.solve_loaded_general (mat nS nS M (nat_of_ord f :: b)) (mat nS nB R (nat_of_ord f :: b)) e e.
rewrite -/g1; have eg f : background_f (sg nS nC W b f) (taps_at F T nS nC H b f) (C_XX (sg nC N X b) f) (C_XbarX (sg nC N X b) (xb_at F T N nC Xb b) f) e
   = (let* JH := g1 f in Ok (ctr JH))%py.
  rewrite /background_f /g1; set A0 := (_ + _).
  have -> : mat nS nS M (nat_of_ord f :: b) = lsubmx A0 by apply/matrixP => i j; rewrite matE hM mxE -aE.
  by have -> : mat nS nB R (nat_of_ord f :: b) = rsubmx A0 by apply/matrixP => i j; rewrite matE hR mxE -aE.
rewrite (eq_gather _ eg); case E: (gather 0 g1) => [JH|er].
  cbn [bind]; symmetry; apply: gather_ok => f; by rewrite (gather_inv E f).
have [f hf] := gather_err_inv E; cbn [bind].
have [f' [e' [-> h']]] := @gather_err _ _ 0 (fun f => let* JH := g1 f in Ok (ctr JH : 'M[C]_(nB, nS)))%py f er (congr1 (bind ^~ (fun JH => Ok (ctr JH))) hf).
move: h'; case E': (g1 f') => [//|e2] [<-]; by rewrite (slg_err E') (slg_err hf).
Qed.
End Run.
