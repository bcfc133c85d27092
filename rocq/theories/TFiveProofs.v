(* FIVE on whole tensors against the model of one batch element. *)
From Coq Require Import String Ascii ZArith.
From mathcomp Require Import all_ssreflect all_algebra.
From mathcomp Require Import zify.
From Verif Require TorchShape.
From Verif Require Import CAlg Py Batch LinalgModel TissModel FiveModel TensorModel TOpsModel TSpec TSepSpec TensorProofs TEinsum TOpsProofs TTissModel TIpModel TIpProofs TEighModel TEighProofs TIp2Proofs TFiveModel TFiveSpec.
Set Implicit Arguments. Unset Strict Implicit. Unset Printing Implicit Defensive.
Import GRing.Theory Num.Theory Order.TTheory.
Local Open Scope ring_scope.
Arguments clip : simpl never. Arguments TorchShape.bc2 : simpl never. Arguments Nat.eqb : simpl never.

Section Pw.
Variable C : numClosedFieldType.
Local Notation tensor := (tensor C).
Implicit Types (t u v : tensor).
Ltac es := rewrite /= ?bc2nn /= ?bcastss /= ?bc2nn /= ?bcastss /=.
Ltac shs := repeat match goal with h : sh ?t = _ |- context [sh ?t] => rewrite !h end.
Ltac start := intros; rewrite /einsum /TorchShape.einsum; cbn [map]; shs; es;
  eexists; split; [reflexivity|by []|]; intros; cbn [at_];
  rewrite /= ?take0 /= ?drop0 /=.
Ltac ends := repeat match goal with h : is_true (inr _ _) |- _ => move: h => /= h end;
  repeat match goal with h : is_true (_ && _) |- _ => let h1 := fresh in let h2 := fresh in case/andP: h => h1 h2 end;
  shs; rewrite !clip_id //= ?ltn_ord /=;
  repeat match goal with h : is_true _ |- _ => rewrite h; clear h end; rewrite //.
Lemma e_pow F c d B V x : sh V = [:: d, c, F & B] -> sh x = [:: d, F & B] ->
  exists t, [/\ einsum [:: "fcd"; "fd"]%string "fc" [:: V; x] = Ok t, sh t = [:: c, F & B] &
   forall b f k, inr [:: c, F & B] [:: k, f & b] ->
     at_ t [:: k, f & b] = \sum_(j < d) at_ V [:: nat_of_ord j, k, f & b] * at_ x [:: nat_of_ord j, f & b]].
Proof. start; apply: eq_bigr => ? _; ends. Qed.
Lemma e_dot F c B u v : sh u = [:: c, F & B] -> sh v = [:: c, F & B] ->
  exists t, [/\ einsum [:: "fc"; "fc"]%string "f" [:: u; v] = Ok t, sh t = (F :: B) &
   forall b f, inr (F :: B) (f :: b) -> at_ t (f :: b) = \sum_(j < c) at_ u [:: nat_of_ord j, f & b] * at_ v [:: nat_of_ord j, f & b]].
Proof. start; apply: eq_bigr => ? _; ends. Qed.
Lemma e_ext F N c B w X : sh w = [:: c, F & B] -> sh X = [:: N, F, c & B] ->
  exists t, [/\ einsum [:: "fc"; "cfn"]%string "fn" [:: w; X] = Ok t, sh t = [:: N, F & B] &
   forall b f n, inr [:: N, F & B] [:: n, f & b] ->
     at_ t [:: n, f & b] = \sum_(j < c) at_ w [:: nat_of_ord j, f & b] * at_ X [:: n, f, nat_of_ord j & b]].
Proof. start; apply: eq_bigr => ? _; ends. Qed.
(* the smaller tensor on the left *)
Lemma tzip_colL f t u a r : sh t = 1%N :: r -> sh u = a :: r -> exists v, [/\ tzip f t u = Ok v, sh v = a :: r &
  forall x i, inr (a :: r) (x :: i) -> at_ v (x :: i) = f (at_ t (0%N :: i)) (at_ u (x :: i))].
Proof.
move=> st su; rewrite (@tzipE _ _ _ _ (a :: r)); last by rewrite st su /= bc21n /= bcastss.
eexists; split; [reflexivity|by []|] => x i h; cbn [at_]; rewrite st su (clip_id h); congr (f (at_ t _) _).
have hi : inr r i by case/andP: h.
by rewrite -[clip _ _]/(0%N :: clip r i) clip_id.
Qed.
Lemma tzip_rowR f t u a b r : sh t = [:: a, b & r] -> sh u = [:: a, 1 & r]%N -> exists v, [/\ tzip f t u = Ok v, sh v = [:: a, b & r] &
  forall x y i, inr [:: a, b & r] [:: x, y & i] -> at_ v [:: x, y & i] = f (at_ t [:: x, y & i]) (at_ u [:: x, 0 & i]%N)].
Proof.
move=> st su; rewrite (@tzipE _ _ _ _ [:: a, b & r]); last by rewrite st su /= bc2nn bc2n1 /= bcastss.
eexists; split; [reflexivity|by []|] => x y i h; cbn [at_]; rewrite st su clip_id //; congr (f _ (at_ u _)).
have hi : inr r i by case/and3P: h.
have hx : (x < a)%N by case/and3P: h.
rewrite -[clip _ _]/[:: (if a == 1%N then 0%N else x), 0%N & clip r i] (clip_id hi).
by case: eqP hx => // -> ; case: x {h}.
Qed.
Lemma unsq0 t r : sh t = r -> exists u, [/\ unsq 0 t = Ok u, sh u = 1%N :: r & forall x i, at_ u (x :: i) = at_ t i].
Proof. by move=> st; rewrite unsqE //; eexists; split; [reflexivity|rewrite /= st|]. Qed.
Lemma unsq1 t a r : sh t = a :: r -> exists u, [/\ unsq 1 t = Ok u, sh u = [:: a, 1 & r]%N & forall x y i, at_ u [:: x, y & i] = at_ t (x :: i)].
Proof. by move=> st; rewrite unsqE ?st //; eexists; split; [reflexivity| |]. Qed.
Lemma selz0 t n r z : sh t = n :: r -> TorchShape.valid n z -> exists u, [/\ select 0 z t = Ok u, sh u = r & forall i, at_ u i = at_ t (zidx n z :: i)].
Proof. by move=> st v; rewrite (@selectE _ 0 z t n) ?st //; eexists; split; [reflexivity| |]. Qed.
Lemma selz1 t a n r z : sh t = [:: a, n & r] -> TorchShape.valid n z -> exists u, [/\ select 1 z t = Ok u, sh u = a :: r & forall x i, at_ u (x :: i) = at_ t [:: x, zidx n z & i]].
Proof. by move=> st v; rewrite (@selectE _ 1 z t n) ?st //; eexists; split; [reflexivity| |]. Qed.
Lemma tnorm1E t a b r : sh t = [:: a, b & r] -> exists u, [/\ tnorm_keep 1 t = Ok u, sh u = [:: a, 1 & r]%N &
  forall x y i, at_ u [:: x, y & i] = sqrtC (\sum_(k < b) `|at_ t [:: x, nat_of_ord k & i]| ^+ 2)].
Proof.
move=> st; rewrite /tnorm_keep (@tsum_keepE _ 1 _ b) /= ?st //; eexists; split; [reflexivity|by []|by []].
Qed.
Lemma flip_vec t n r : sh t = n :: r -> exists u, [/\ flip_last t = Ok u, sh u = n :: r & forall (k : 'I_n) i, at_ u (nat_of_ord k :: i) = at_ t (nat_of_ord (rev_ord k) :: i)].
Proof. by move=> st; rewrite /flip_last st; eexists; split; [reflexivity|by []|]. Qed.
(* ---- torch.linalg.inv *)
Lemma inv_at n r A : sh A = [:: n, n & r] -> lifts r [:: n, n & r] (t_inv A) (fun i => torch_inv (mat n n A i)) (fun t i => mat n n t i).
Proof.
move=> sA; rewrite /t_inv sA eqxx; case E: (mapb _ _ _) => [X|e]; cbn [bind]; last by have [i hi he] := mapb_err E; exists i.
split=> // i hi; rewrite (mapb_ok E hi); congr Ok; apply/matrixP => x y; by rewrite matE /= getE.
Qed.
Arguments clip : simpl nomatch.
Lemma inv_loaded_at n r A load : (0 < n)%N -> sh A = [:: n, n & r] ->
  lifts r [:: n, n & r] (t_inv_loaded A load) (fun i => inv_loaded (mat n n A i) load) (fun t i => mat n n t i).
Proof.
move=> n0 sA; rewrite /t_inv_loaded {1}sA /TorchShape.size; cbn [List.nth_error bind].
rewrite (@tmax_keep1 _ n n r) //; cbn [bind].
rewrite (@tmax_keep0 _ n (1%N :: r)) //; cbn [bind].
rewrite /tmul (@tzipE _ _ _ _ [:: n, n & r]); last by rewrite /= !bc21n /= bcast0r.
cbn [bind]; rewrite /tadd (@tzipE _ _ _ _ [:: n, n & r]); last by rewrite sA bcastss.
cbn [bind]; set Al := mkT _ _; have sAl : sh Al = [:: n, n & r] by [].
apply: eq_lifts (inv_at sAl) => i hi; rewrite /inv_loaded (gtn_eqF n0); congr torch_inv.
apply/matrixP => x y; rewrite [LHS]mxE [RHS]mxE; cbn [at_ sh Al].
rewrite sA (@clip_id [:: n, n & r]) /= ?ltn_ord // (clip_id hi).
rewrite !mxE; congr (_ + _); congr (_ * _).
  rewrite /load_factor /max_abs; congr clamp; congr (_ * _); apply: eq_bigr => j _; apply: eq_bigr => k _; by rewrite !mxE.
by rewrite !clip1 eq_sym.
Qed.
Arguments clip : simpl never.
End Pw.

Section Five.
Variable C : numClosedFieldType.
Local Notation tensor := (tensor C).
Variable eighO : forall n, eigh_oracle C n.
Variables (k F N : nat) (B : seq nat).
Local Notation nC := k.+1.
Local Notation sg t b := (sig_at F N nC t b).
Lemma hF b (f : 'I_F) : inr B b -> inr (F :: B) (nat_of_ord f :: b).
Proof. by rewrite /= ltn_ord. Qed.
(* half the sum of a tensor of matrices and its Hermitian transpose *)
Lemma half_at r (V : tensor) : sh V = [:: nC, nC & r] -> exists S, [/\ (let* h := hermite V in let* s := tadd V h in Ok (tscale (1 / 2%:R) s))%py = Ok S, sh S = [:: nC, nC & r] &
  forall i, inr r i -> mat nC nC S i = (1 / 2%:R) *: (mat nC nC V i + LinalgModel.hermite (mat nC nC V i))].
Proof.
move=> sV; have [H -> [sH eH]] := herm_at sV; cbn [bind].
have [S [e sS hS]] := tzip_same +%R sV sH; rewrite /tadd e; cbn [bind]; eexists; split; [reflexivity|by []|] => i hi.
rewrite -(eH i hi); apply/matrixP => c d; rewrite [LHS]mxE [RHS]mxE [in RHS]mxE; cbn [tscale tmap at_].
by rewrite hS ?matE //= !ltn_ord.
Qed.
Section Signal.
Variable X : tensor.
Hypothesis sX : sh X = [:: N, F, nC & B].
Lemma cov_at : exists Cx, [/\ t_five_cov X N = Ok Cx, sh Cx = [:: nC, nC, F & B] &
  forall b (f : 'I_F), inr B b -> mat nC nC Cx (nat_of_ord f :: b) = five_Cx (sg X b f)].
Proof.
rewrite /t_five_cov; have [V0 [-> sV0 hV0]] := e_fcd sX (sX : sh (tmap conjC X) = _); cbn [bind]; cbv zeta.
have [S [-> sS hS]] := half_at (sV0 : sh (tmap (fun x => x / N%:R) V0) = _); exists S; split=> // b f hb.
rewrite hS ?hF // /five_Cx.
have -> : mat nC nC (tmap (fun x => x / N%:R) V0) (nat_of_ord f :: b) = \matrix_(c, d) ((\sum_n sg X b f c n * (sg X b f d n)^* ) / N%:R) => //.
apply/matrixP => c d; rewrite [LHS]mxE [RHS]mxE; cbn [tmap at_]; rewrite hV0; last by rewrite /= !ltn_ord.
by congr (_ / _); apply: eq_bigr => n _; rewrite !sigE.
Qed.
Lemma fiveV_at (w : tensor) : sh w = [:: N, F & B] -> exists V, [/\ t_five_V w X = Ok V, sh V = [:: nC, nC, F & B] &
  forall b (f : 'I_F), inr B b -> mat nC nC V (nat_of_ord f :: b) = five_V (row f (mat F N w b)) (sg X b f)].
Proof.
move=> sw; rewrite /t_five_V; have [V0 [-> sV0 hV0]] := e_wcov sw sX (sX : sh (tmap conjC X) = _); cbn [bind].
have [S [-> sS hS]] := half_at sV0; exists S; split=> // b f hb.
rewrite hS ?hF // /five_V.
have -> : mat nC nC V0 (nat_of_ord f :: b) = \matrix_(c, d) \sum_n row f (mat F N w b) 0 n * sg X b f c n * (sg X b f d n)^* => //.
apply/matrixP => c d; rewrite [LHS]mxE [RHS]mxE hV0; last by rewrite /= !ltn_ord.
by apply: eq_bigr => n _; rewrite !sigE mxE matE.
Qed.
Lemma whiten_at (Cx : tensor) : sh Cx = [:: nC, nC, F & B] -> (forall b (f : 'I_F), inr B b -> mat nC nC Cx (nat_of_ord f :: b) = five_Cx (sg X b f)) ->
  exists Q Qi, [/\ t_five_whiten eighO Cx = Ok (Q, Qi), sh Q = [:: nC, nC, F & B], sh Qi = [:: nC, nC, F & B] &
  forall b (f : 'I_F), inr B b -> mat nC nC Q (nat_of_ord f :: b) = five_Q eighO (sg X b f) /\ mat nC nC Qi (nat_of_ord f :: b) = five_Qinv eighO (sg X b f)].
Proof.
move=> sC hC; rewrite /t_five_whiten; have [[ev V] -> [sev sV hV]] := eigh_at eighO sC; cbn [bind]; cbn [fst snd] in sev, sV, hV.
have [V1 [-> sV1 hV1]] := flip_vec sV; cbn [bind]; have [e1 [-> se1 he1]] := flip_vec sev; cbn [bind]; cbv zeta.
set sq := tmap _ e1; have ssq : sh sq = [:: nC, F & B] by [].
have [l [-> sl hl]] := unsq0 ssq; cbn [bind]; have [H -> [sH hH]] := herm_at sV1; cbn [bind].
have [Q [e2 sQ hQ]] := tzip_colL *%R (sl : sh (tmap (fun x => x^-1) l) = _) sH; rewrite {1}/tmul e2; cbn [bind].
have [r [-> sr hr]] := unsq1 ssq; cbn [bind].
have [Qi [e3 sQi hQi]] := tzip_rowR *%R sV1 sr; rewrite /tmul e3; cbn [bind].
exists Q, Qi; split=> // b f hb.
have vE : mat nC nC V1 (nat_of_ord f :: b) = five_vec eighO (sg X b f).
  apply/matrixP => i j; rewrite matE hV1 -matE (proj2 (hV _ (hF f hb))) hC // /five_vec mxE; by [].
have sE (j : 'I_nC) : at_ sq [:: nat_of_ord j, nat_of_ord f & b] = five_sqrt eighO (sg X b f) j.
  rewrite /sq; cbn [tmap at_]; rewrite he1 (proj1 (hV _ (hF f hb))) hC //; by [].
split; apply/matrixP => i j; rewrite matE [RHS]mxE.
  rewrite hQ; last by rewrite /= !ltn_ord.
  by cbn [tmap at_]; rewrite hl sE -[at_ H _]matE hH ?hF // vE.
rewrite hQi; last by rewrite /= !ltn_ord.
by rewrite hr sE -matE vE.
Qed.
Lemma white_at (Q : tensor) : sh Q = [:: nC, nC, F & B] -> (forall b (f : 'I_F), inr B b -> mat nC nC Q (nat_of_ord f :: b) = five_Q eighO (sg X b f)) ->
  exists Xw, [/\ einsum [:: "fcd"; "dfn"]%string "cfn" [:: Q; X] = Ok Xw, sh Xw = [:: N, F, nC & B] &
  forall b (f : 'I_F), inr B b -> sg Xw b f = five_white eighO (sg X b f)].
Proof.
move=> sQ hQ; have [Y [-> sY hY]] := e_unmix sQ sX; exists Y; split=> // b f hb.
apply/matrixP => c n; rewrite /five_white -hQ // sigE [RHS]mxE hY; last by rewrite /= !ltn_ord.
by apply: eq_bigr => e _; rewrite matE sigE.
Qed.
Lemma init_at (Q Cx Xw : tensor) z (mic : 'I_nC) : sh Q = [:: nC, nC, F & B] -> sh Cx = [:: nC, nC, F & B] -> sh Xw = [:: N, F, nC & B] ->
  (forall b (f : 'I_F), inr B b -> mat nC nC Q (nat_of_ord f :: b) = five_Q eighO (sg X b f)) ->
  (forall b (f : 'I_F), inr B b -> mat nC nC Cx (nat_of_ord f :: b) = five_Cx (sg X b f)) ->
  (forall b (f : 'I_F), inr B b -> sg Xw b f = five_white eighO (sg X b f)) ->
  TorchShape.valid nC z -> zidx nC z = mic ->
  exists Y, [/\ t_five_init (Some z) Xw Q Cx = Ok Y, sh Y = [:: N, F & B] &
  forall b, inr B b -> mat F N Y b = \matrix_(f, n) five_init eighO mic (sg X b f) 0 n].
Proof.
move=> sQ sC sXw hQ hC hXw vz ez; rewrite /t_five_init.
have [Y [-> sY hY]] := @sel2 _ _ _ _ _ _ 0 sXw isT; cbn [bind].
have [q [-> sq hq]] := @sel1 _ _ _ _ _ 0 sQ isT; cbn [bind]; have [q1 [-> sq1 hq1]] := unsq1 sq; cbn [bind].
have [c [-> sc hc]] := selz0 sC vz; cbn [bind]; have [c1 [-> sc1 hc1]] := unsq0 sc; cbn [bind].
have [zz [-> szz hzz]] := matmulE sq1 sc1; cbn [bind]; have [z1 [-> sz1 hz1]] := transpose21 szz; cbn [bind].
have [z2 [-> sz2 hz2]] := @sel2 _ _ _ _ _ _ 0 sz1 isT; cbn [bind].
have [Y1 [e sY1 hY1]] := tzip_colL *%R sz2 sY; rewrite /tmul e; exists Y1; split=> // b hb.
apply/matrixP => f n; rewrite matE [RHS]mxE [RHS]mxE hY1; last by rewrite /= !ltn_ord.
rewrite hY hz2 hz1 -(matE zz _ (@ord0 0) (@ord0 0)) hzz ?hF // mxE -hXw // sigE; congr (_ * _).
apply: eq_bigr => d _; rewrite -hQ // -hC // !matE; by rewrite hq1 hq hc1 hc ez.
Qed.
End Signal.
(* ---- the eigenvectors *)
Lemma sm_eigh_at (V : tensor) : sh V = [:: nC, nC, F & B] -> exists u, [/\ t_smallest_eigh eighO V = Ok u, sh u = [:: nC, F & B] &
  forall b (f : 'I_F), inr B b -> vec nC u (nat_of_ord f :: b) = smallest_eigh eighO (mat nC nC V (nat_of_ord f :: b))].
Proof.
move=> sV; rewrite /t_smallest_eigh; have [[ev W] -> [_ sW hW]] := wrapper_at eighO sV; cbn [bind]; cbn [fst snd] in sW, hW.
have [u [-> su hu]] := @sel0 _ _ _ _ 0 sW isT; exists u; split=> // b f hb.
apply/matrixP => i j; rewrite vecE hu /smallest_eigh [RHS]mxE -(proj2 (hW _ (hF f hb))) matE; by [].
Qed.
Lemma pstep_at (Vi x : tensor) : sh Vi = [:: nC, nC, F & B] -> sh x = [:: nC, F & B] -> exists y, [/\ t_power_step Vi x = Ok y, sh y = [:: nC, F & B] &
  forall b (f : 'I_F), inr B b -> vec nC y (nat_of_ord f :: b) = power_step (mat nC nC Vi (nat_of_ord f :: b)) (vec nC x (nat_of_ord f :: b))].
Proof.
move=> sV sx; rewrite /t_power_step; have [y [-> sy hy]] := e_pow sV sx; cbn [bind].
have [n [-> sn hn]] := tnormE sy; cbn [bind]; have [y1 [e sy1 hy1]] := tzip_col (fun x y => x / y) sy sn; rewrite /tdiv e; exists y1; split=> // b f hb.
have yE : vec nC y (nat_of_ord f :: b) = mat nC nC Vi (nat_of_ord f :: b) *m vec nC x (nat_of_ord f :: b).
  apply/matrixP => i j; rewrite vecE mxE hy; last by rewrite /= !ltn_ord.
  by apply: eq_bigr => c _; rewrite matE vecE.
rewrite /power_step -yE; apply/matrixP => i j; rewrite vecE [RHS]mxE vecE hy1; last by rewrite /= !ltn_ord.
rewrite mulrC hn; congr (_^-1 * _); rewrite /vnorm; congr sqrtC; apply: eq_bigr => c _; by rewrite vecE.
Qed.
Lemma ploop_at (Vi x : tensor) n : sh Vi = [:: nC, nC, F & B] -> sh x = [:: nC, F & B] -> exists y, [/\ t_iterate (t_power_step Vi) n x = Ok y, sh y = [:: nC, F & B] &
  forall b (f : 'I_F), inr B b -> vec nC y (nat_of_ord f :: b) = iter n (power_step (mat nC nC Vi (nat_of_ord f :: b))) (vec nC x (nat_of_ord f :: b))].
Proof.
move=> sV; elim: n x => [|n IH] x sx; first by exists x.
have [y [e sy hy]] := pstep_at sV sx; have [y1 [e1 sy1 hy1]] := IH _ sy.
exists y1; split=> //; first by cbn [t_iterate]; rewrite e.
by move=> b f hb; rewrite hy1 // hy // iterSr.
Qed.
Lemma inv_loaded_err (A : 'M[C]_nC) load er : inv_loaded A load = Err er -> er = LinAlgError.
Proof. by rewrite /inv_loaded /torch_inv; cbn [eqn eq_op Equality.op nat_eqMixin]; case: ifP => // _ [<-]. Qed.
Definition rdu (u : tensor) (b : seq nat) : {ffun 'I_F -> 'cV[C]_nC} := [ffun f : 'I_F => vec nC u (nat_of_ord f :: b)].
Section NonEmpty.
Hypothesis ne : exists b, inr B b.
Lemma sm_power_at (V : tensor) p : sh V = [:: nC, nC, F & B] ->
  lifts B [:: nC, F & B] (t_smallest_power V p) (fun b => smallest_power (fun f : 'I_F => mat nC nC V (nat_of_ord f :: b)) p) rdu.
Proof.
move=> sV; rewrite /t_smallest_power /TorchShape.square sV eqbE eqxx; cbn [negb].
have hg := gather_lift 0 (fun i er => @inv_loaded_err _ _ er) (inv_loaded_at (10%:R ^- 5) (ltn0Sn k) sV).
rewrite /smallest_power; apply: (lifts_bind hg) => Vi sVi.
have [x [-> sx hx]] := @sel0 _ _ _ _ 0 sVi isT; cbn [bind]; have [nr [-> snr hnr]] := tnorm1E sx; cbn [bind].
have nE b (c : 'I_nC) y : at_ nr [:: nat_of_ord c, y & b] = sqrtC (\sum_(f < F) `|[ffun f : 'I_F => mat nC nC Vi (nat_of_ord f :: b)] f c 0| ^+ 2).
  by rewrite hnr; congr sqrtC; apply: eq_bigr => f _; rewrite ffunE matE hx.
case: ifP => p1; first by have [b hb] := ne; exists b.
have hd : lifts B [:: nC, F & B] (tdiv_nan x nr) (fun b => if (0 < F)%N && [exists c : 'I_nC, sqrtC (\sum_(f < F) `|[ffun f : 'I_F => mat nC nC Vi (nat_of_ord f :: b)] f c 0| ^+ 2) == 0]
     then Err NotANumber else Ok [ffun f : 'I_F => \col_(c < nC) ([ffun f : 'I_F => mat nC nC Vi (nat_of_ord f :: b)] f c 0 / sqrtC (\sum_(f < F) `|[ffun f : 'I_F => mat nC nC Vi (nat_of_ord f :: b)] f c 0| ^+ 2))]) rdu.
  rewrite /tdiv_nan sx snr; have -> : TorchShape.bcast [:: nC, F & B] [:: nC, 1 & B]%N = Ok [:: nC, F & B] by rewrite /= bc2nn bc2n1 /= bcastss.
  cbn [bind].
  have cl c f b : inr [:: nC, F & B] [:: c, f & b] -> clip [:: nC, F & B] [:: c, f & b] = [:: c, f & b] /\ clip [:: nC, 1 & B]%N [:: c, f & b] = [:: c, 0 & b]%N.
    move=> h; split; first exact: clip_id.
    case/and3P: h => hc _ hb; rewrite -[clip _ _]/[:: (if nC == 1%N then 0%N else c), 0%N & clip B b] (clip_id hb).
    by case: eqP hc => // ->; case: c.
  case E: (mapb _ _ _) => [v|e]; cbn [bind].
    split=> // b hb; case: ifP => [/andP [F0 /existsP [c h0]]|_].
      have h : inr [:: nC, F & B] [:: nat_of_ord c, 0%N & b] by rewrite /= ltn_ord F0.
      have := mapb_ok E h; have [-> ->] := cl _ _ _ h; by rewrite nE h0.
    congr Ok; apply/ffunP => f; rewrite [LHS]ffunE [RHS]ffunE; apply/matrixP => c j; rewrite vecE mxE; cbn [at_].
    have h : inr [:: nC, F & B] [:: nat_of_ord c, nat_of_ord f & b] by rewrite /= !ltn_ord.
    have := mapb_ok E h; have [-> ->] := cl _ _ _ h; case: ifP => // _ [<-]; by rewrite nE [in LHS]ffunE matE hx.
  have [i hi he] := mapb_err E; case: i hi he => [//|c [|f b]]; first by rewrite /= andbF.
  move=> h; have [-> ->] := cl _ _ _ h; case: ifP => // h0 [<-]; exists b; first by case/and3P: h.
  have [hc hf] : (c < nC)%N /\ (f < F)%N by case/and3P: h.
  have -> // : (0 < F)%N && [exists c : 'I_nC, sqrtC (\sum_(f < F) `|[ffun f : 'I_F => mat nC nC Vi (nat_of_ord f :: b)] f c 0| ^+ 2) == 0].
  rewrite (leq_ltn_trans _ hf) //; apply/existsP; exists (Ordinal hc); by rewrite -(nE b (Ordinal hc) 0%N).
pose gk (b : seq nat) (x0 : {ffun 'I_F -> 'cV[C]_nC}) : result {ffun 'I_F -> 'cV[C]_nC} :=
  Ok [ffun f => (sgn (iter (p - 1) (power_step ([ffun f : 'I_F => mat nC nC Vi (nat_of_ord f :: b)] f)) (x0 f) 0 0))^* *:
                 iter (p - 1) (power_step ([ffun f : 'I_F => mat nC nC Vi (nat_of_ord f :: b)] f)) (x0 f)].
have hh := @lifts_bind C _ _ B _ _ _ _ _ (fun x => let* x := t_iterate (t_power_step Vi) (p - 1) x in let* x0 := select 0 Z0 x in let* s := unsq 0 (tmap (fun z => (sgn z)^*) x0) in tmul x s)%py gk rdu hd.
apply: eq_lifts (hh [:: nC, F & B] _) => [b hb|x0 sx0].
  case: ifP => // _; cbn [bind]; rewrite /gk; congr Ok; apply/ffunP => f; by rewrite ![in RHS]ffunE ![in LHS]ffunE.
have [x1 [-> sx1 hx1]] := ploop_at (p - 1) sVi sx0; cbn [bind].
have [y [-> sy hy]] := @sel0 _ _ _ _ 0 sx1 isT; cbn [bind]; have [s [-> ss hs]] := unsq0 (sy : sh (tmap (fun z => (sgn z)^*) y) = _); cbn [bind].
have [r [e sr hr]] := tzip_col *%R sx1 ss; rewrite /tmul e; apply: (@lifts_ok _ _ _ _ _ _ _ r) => // b hb.
apply/ffunP => f; rewrite ffunE [RHS]ffunE.
have -> : iter (p - 1) (power_step ([ffun f : 'I_F => mat nC nC Vi (nat_of_ord f :: b)] f)) (rdu x0 b f) = vec nC x1 (nat_of_ord f :: b) by rewrite !ffunE hx1.
apply/matrixP => c j; rewrite vecE [RHS]mxE hr; last by rewrite /= !ltn_ord.
by rewrite hs mulrC !vecE; cbn [tmap at_]; rewrite hy.
Qed.
End NonEmpty.
End Five.
