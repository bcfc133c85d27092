(* Facts about the tensor operations of TOpsModel.v, and about loops over tensors. *)
From Coq Require Import String Ascii ZArith.
From mathcomp Require Import all_ssreflect all_algebra.
From mathcomp Require Import zify.
From Verif Require TorchShape.
From Verif Require Import CAlg Py Batch LinalgModel TensorModel TOpsModel TSpec TSepSpec TensorProofs TEinsum.
Set Implicit Arguments. Unset Strict Implicit. Unset Printing Implicit Defensive.
Import GRing.Theory Num.Theory Order.TTheory.
Local Open Scope ring_scope.
Arguments clip : simpl never.
Arguments TorchShape.bc2 : simpl never.
Arguments Nat.eqb : simpl never.

(* ---- loops *)
Lemma for_fold (A S X : Type) (P : A -> Prop) (D : X -> Prop) (rd : A -> X -> S) n (body : Z -> A -> result A) (step : X -> S -> 'I_n -> S) (a : A) :
  (forall (k : 'I_n) a, P a -> exists a', [/\ body (Z.of_nat k) a = Ok a', P a' & forall x, D x -> rd a' x = step x (rd a x) k]) ->
  P a -> exists a', [/\ TorchShape.for_range body n a = Ok a', P a' & forall x, D x -> rd a' x = foldl (step x) (rd a x) (enum 'I_n)].
Proof.
move=> h; rewrite /TorchShape.for_range.
have -> : enum 'I_n = pmap insub (iota 0 n) by rewrite -val_enum_ord (map_pK valK).
suff loop m i a0 : (i + m <= n)%N -> P a0 -> exists a', [/\ TorchShape.loop_from body i m a0 = Ok a', P a' &
    forall x, D x -> rd a' x = foldl (step x) (rd a0 x) (pmap insub (iota i m))] by exact: loop.
elim: m i a0 => [|m IH] i a0 le p0 /=; first by exists a0.
have hi : (i < n)%N by lia.
have [a1 [e1 p1 r1]] := h (Ordinal hi) a0 p0; rewrite e1 /=.
have [|a2 [e2 p2 r2]] := IH i.+1 a1 _ p1; first by lia.
by exists a2; split=> // x dx; rewrite r2 // r1 // (insubT (fun x => x < n)%N hi).
Qed.
Lemma foldl_allpairs (S A B : Type) (f : S -> A * B -> S) (s : seq A) (t : seq B) x :
  foldl (fun x a => foldl (fun y b => f y (a, b)) x t) x s = foldl f x (allpairs pair s t).
Proof.
elim: s x => [|a s IH] x //=; rewrite IH foldl_cat; congr foldl.
by elim: t x {IH} => //= b t IH x; rewrite IH.
Qed.

Section T.
Variable C : numClosedFieldType.
Implicit Types (t u v : tensor C).

Ltac sel st lt := rewrite (@selectE _ _ _ _ _ _ (valid_nat lt)); [|by rewrite st];
  eexists; split; [reflexivity|by rewrite st|by intros; cbn [at_]; rewrite zidx_nat].
Lemma sel0 t n r k : sh t = n :: r -> (k < n)%N -> exists u, [/\ select 0 (Z.of_nat k) t = Ok u, sh u = r & forall i, at_ u i = at_ t (k :: i)].
Proof. by move=> st lt; sel st lt. Qed.
Lemma sel1 t a n r k : sh t = [:: a, n & r] -> (k < n)%N ->
  exists u, [/\ select 1 (Z.of_nat k) t = Ok u, sh u = a :: r & forall x i, at_ u (x :: i) = at_ t [:: x, k & i]].
Proof. by move=> st lt; sel st lt. Qed.
Lemma sel2 t a b n r k : sh t = [:: a, b, n & r] -> (k < n)%N ->
  exists u, [/\ select 2 (Z.of_nat k) t = Ok u, sh u = [:: a, b & r] & forall x y i, at_ u [:: x, y & i] = at_ t [:: x, y, k & i]].
Proof. by move=> st lt; sel st lt. Qed.
Lemma sel3 t a b c n r k : sh t = [:: a, b, c, n & r] -> (k < n)%N ->
  exists u, [/\ select 3 (Z.of_nat k) t = Ok u, sh u = [:: a, b, c & r] & forall x y z i, at_ u [:: x, y, z & i] = at_ t [:: x, y, z, k & i]].
Proof. by move=> st lt; sel st lt. Qed.
Lemma broadcast_same t s : sh t = s -> broadcast_to s t = Ok (mkT s (fun i => at_ t (clip s i))).
Proof. by move=> st; rewrite /broadcast_to /TorchShape.expand_to st bcastss /= seqbss. Qed.
Ltac asg st sv lt := rewrite /assign_select /TorchShape.select /TorchShape.size st; cbn [List.nth_error bind];
  rewrite (valid_nat lt); cbn [bind]; rewrite /TorchShape.del; cbn [List.firstn List.skipn List.app];
  rewrite (broadcast_same sv); cbn [bind]; eexists; split; [reflexivity|by []|];
  intros; cbn [at_ nth]; rewrite zidx_nat; case: eqP => // _; congr at_; rewrite /TorchShape.del; cbn [List.firstn List.skipn List.app];
  apply: clip_id.
Lemma asg0 t v n r k : sh t = n :: r -> sh v = r -> (k < n)%N -> exists u, [/\ assign_select 0 (Z.of_nat k) t v = Ok u, sh u = n :: r &
  forall x i, inr r i -> at_ u (x :: i) = if x == k then at_ v i else at_ t (x :: i)].
Proof. by move=> st sv lt; asg st sv lt. Qed.
Lemma asg1 t v a n r k : sh t = [:: a, n & r] -> sh v = a :: r -> (k < n)%N ->
  exists u, [/\ assign_select 1 (Z.of_nat k) t v = Ok u, sh u = [:: a, n & r] &
  forall x y i, inr (a :: r) (x :: i) -> at_ u [:: x, y & i] = if y == k then at_ v (x :: i) else at_ t [:: x, y & i]].
Proof. by move=> st sv lt; asg st sv lt. Qed.
Lemma slice_to0 t n k r : sh t = (k + n)%N :: r -> exists u, [/\ slice_to 0 k t = Ok u, sh u = k :: r & forall i, at_ u i = at_ t i].
Proof.
move=> st; rewrite /slice_to /TorchShape.slice_to /TorchShape.slice /TorchShape.size st /=.
by eexists; split; [reflexivity|rewrite /=; congr cons; lia|].
Qed.
Lemma slice_to2 t a b n k r : sh t = [:: a, b, (k + n)%N & r] -> exists u, [/\ slice_to 2 k t = Ok u, sh u = [:: a, b, k & r] & forall i, at_ u i = at_ t i].
Proof.
move=> st; rewrite /slice_to /TorchShape.slice_to /TorchShape.slice /TorchShape.size st /=.
by eexists; split; [reflexivity|rewrite /=; do 2 congr cons; congr cons; lia|].
Qed.
Lemma slice_from0 t n k r : sh t = (k + n)%N :: r -> exists u, [/\ slice_from 0 k t = Ok u, sh u = n :: r & forall x i, at_ u (x :: i) = at_ t ((k + x)%N :: i)].
Proof.
move=> st; rewrite /slice_from /TorchShape.slice_from /TorchShape.size st /=.
by eexists; split; [reflexivity|rewrite /=; congr cons; lia|].
Qed.
Lemma slice_from2 t a b n k r : sh t = [:: a, b, (k + n)%N & r] ->
  exists u, [/\ slice_from 2 k t = Ok u, sh u = [:: a, b, n & r] & forall x y z i, at_ u [:: x, y, z & i] = at_ t [:: x, y, (k + z)%N & i]].
Proof.
move=> st; rewrite /slice_from /TorchShape.slice_from /TorchShape.size st /=.
by eexists; split; [reflexivity|rewrite /=; do 2 congr cons; congr cons; lia|].
Qed.
Lemma assign_to0 t v n k r : sh t = (k + n)%N :: r -> sh v = k :: r -> exists u, [/\ assign_to 0 k t v = Ok u, sh u = (k + n)%N :: r &
  forall x i, inr r i -> at_ u (x :: i) = if (x < k)%N then at_ v (x :: i) else at_ t (x :: i)].
Proof.
move=> st sv; rewrite /assign_to /TorchShape.slice_to /TorchShape.slice /TorchShape.size st; cbn [List.nth_error bind].
rewrite (_ : TorchShape.set 0 _ _ = k :: r); last by rewrite /TorchShape.set /=; congr cons; lia.
rewrite (broadcast_same sv); cbn [bind]; eexists; split; [reflexivity|by []|].
by move=> x i hi; cbn [at_ nth]; case: ifP => // lt; rewrite clip_id //= lt.
Qed.
(* operands with the trailing dimensions of size one of a gain *)
Lemma tdivideE t u s eps : sh t = s -> sh u = s -> exists v, [/\ tdivide t u eps = Ok v, sh v = s & forall i, inr s i -> at_ v i = divide (at_ t i) (at_ u i) eps].
Proof. exact: tzip_same. Qed.
Lemma tzip_gain f t u a b r : sh t = [:: a, b & r] -> sh u = [:: 1, 1 & r]%N -> exists v, [/\ tzip f t u = Ok v, sh v = [:: a, b & r] &
  forall x y i, inr [:: a, b & r] [:: x, y & i] -> at_ v [:: x, y & i] = f (at_ t [:: x, y & i]) (at_ u [:: 0, 0 & i]%N)].
Proof.
move=> st su; rewrite (@tzipE _ _ _ _ [:: a, b & r]); last by rewrite st su /= !bc2n1 /= bcastss.
eexists; split; [reflexivity|by []|] => x y i h; cbn [at_]; rewrite st su clip_id //; congr (f _ (at_ u _)).
have hi : inr r i by case/and3P: h.
by rewrite -[clip _ _]/[:: 0, 0 & clip r i]%N clip_id.
Qed.
Lemma tzip_gain3 f t u a b c r : sh t = [:: a, b, c & r] -> sh u = [:: 1, 1, 1 & r]%N -> exists v, [/\ tzip f t u = Ok v, sh v = [:: a, b, c & r] &
  forall x y z i, inr [:: a, b, c & r] [:: x, y, z & i] -> at_ v [:: x, y, z & i] = f (at_ t [:: x, y, z & i]) (at_ u [:: 0, 0, 0 & i]%N)].
Proof.
move=> st su; rewrite (@tzipE _ _ _ _ [:: a, b, c & r]); last by rewrite st su /= !bc2n1 /= bcastss.
eexists; split; [reflexivity|by []|] => x y z i h; cbn [at_]; rewrite st su clip_id //; congr (f _ (at_ u _)).
have hi : inr r i by case/and4P: h.
by rewrite -[clip _ _]/[:: 0, 0, 0 & clip r i]%N clip_id.
Qed.
Lemma tmean2E t a b r : sh t = [:: a, b & r] -> exists u, [/\ tmean2_keep t = Ok u, sh u = [:: 1, 1 & r]%N &
  forall i, at_ u [:: 0, 0 & i]%N = (\sum_(f < b) \sum_(n < a) at_ t [:: nat_of_ord n, nat_of_ord f & i]) / (b * a)%:R].
Proof.
move=> st; rewrite /tmean2_keep (@tsum_keepE _ 0 t a); last by rewrite st.
cbn [bind]; rewrite (@tsum_keepE _ 1 _ b) /=; last by rewrite st.
by eexists; split; [reflexivity|rewrite /= st|move=> i; rewrite /= st].
Qed.

(* ---- a factor with last dimension one *)
Lemma tzip_col f t u a r : sh t = a :: r -> sh u = 1%N :: r -> exists v, [/\ tzip f t u = Ok v, sh v = a :: r &
  forall x i, inr (a :: r) (x :: i) -> at_ v (x :: i) = f (at_ t (x :: i)) (at_ u (0%N :: i))].
Proof.
move=> st su; rewrite (@tzipE _ _ _ _ (a :: r)); last by rewrite st su /= !bc2n1 /= bcastss.
eexists; split; [reflexivity|by []|] => x i h; cbn [at_]; rewrite st su clip_id //; congr (f _ (at_ u _)).
have hi : inr r i by case/andP: h.
by rewrite -[clip _ _]/(0%N :: clip r i) clip_id.
Qed.
Lemma tnormE t a r : sh t = a :: r -> exists u, [/\ tnorm_keep 0 t = Ok u, sh u = 1%N :: r &
  forall i, at_ u (0%N :: i) = sqrtC (\sum_(j < a) `|at_ t (nat_of_ord j :: i)| ^+ 2)].
Proof.
move=> st; rewrite /tnorm_keep (@tsum_keepE _ 0 _ a); last by rewrite /= st.
by cbn [bind]; eexists; split; [reflexivity|rewrite /= st|].
Qed.
Lemma slg_core m n k r (A b : tensor C) load eps (bb : seq nat -> 'M[C]_(m, k)) : sh A = [:: n, m & r] ->
  (forall u, sh u = [:: 1, m & r]%N -> exists b2, [/\ tmul b u = Ok b2, sh b2 = [:: k, m & r] &
     forall i (x : 'I_m) (y : 'I_k), inr r i -> at_ b2 [:: nat_of_ord y, nat_of_ord x & i] = bb i x y * at_ u [:: 0%N, nat_of_ord x & i]]) ->
  lifts r [:: k, n & r] (solve_loaded_general A b load eps)
    (fun i => LinalgModel.solve_loaded_general (mat m n A i) (bb i) load eps) (fun t i => mat n k t i).
Proof.
move=> sA hb; rewrite /solve_loaded_general.
have [nm [-> snm hnm]] := tnormE sA; cbn [bind]; cbv zeta.
rewrite /TorchShape.size {1}sA; cbn [List.nth_error bind].
set wt := tmap _ nm; have swt : sh wt = [:: 1, m & r]%N by [].
have [A2 [e2 sA2 hA2]] := tzip_col *%R sA swt; rewrite /tmul e2; cbn [bind].
have [b2 [eb sb2 hb2]] := hb wt swt; rewrite -/(tmul b wt) eb; cbn [bind].
have [G [-> sG hG]] := e_gram (sA2 : sh (tmap conjC A2) = _) sA2; cbn [bind].
have [R [-> sR hR]] := e_gram (sA2 : sh (tmap conjC A2) = _) sb2; cbn [bind].
rewrite /tadd (@tzipE _ _ _ _ [:: n, n & r]); last by rewrite sG /= !bc2nn /= bcast0r.
cbn [bind]; set L := mkT _ _.
have wE i (x : 'I_m) : at_ wt [:: 0%N, nat_of_ord x & i] = row_weight (mat m n A i) eps x.
  rewrite /wt; cbn [at_ tmap]; rewrite hnm /row_weight; congr (1 / clamp (sqrtC _) _); apply: eq_bigr => j _; by rewrite matE.
have mA2 i (x : 'I_m) (y : 'I_n) : inr r i -> at_ A2 [:: nat_of_ord y, nat_of_ord x & i] = mat m n A i x y * row_weight (mat m n A i) eps x.
  by move=> hi; rewrite hA2 ?wE ?matE //= !ltn_ord.
have := solve_mat (erefl : sh L = [:: n, n & r]) sR; apply: eq_lifts => i hi; rewrite /LinalgModel.solve_loaded_general; congr torch_solve.
  apply/matrixP => x y; rewrite matE /L; cbn [at_].
  have h : inr [:: n, n & r] [:: nat_of_ord y, nat_of_ord x & i] by rewrite /= !ltn_ord.
  rewrite [in LHS]sG (clip_id h) hG // [RHS]mxE [X in _ = X + _]mxE [X in _ = _ + X]mxE [1%:M _ _]mxE; congr (_ + _).
    by apply: eq_bigr => l _; cbn [at_ tmap]; rewrite !mA2 // !mxE.
  by rewrite /tscale; cbn [at_ tmap sh teye]; rewrite /clip /= !clip1 eq_sym.
apply/matrixP => x y; rewrite matE hR; last by rewrite /= !ltn_ord.
by rewrite mxE; apply: eq_bigr => l _; cbn [at_ tmap]; rewrite mA2 // hb2 // wE !mxE.
Qed.
Lemma slg_mat m n k r (A b : tensor C) load eps : sh A = [:: n, m & r] -> sh b = [:: k, m & r] ->
  lifts r [:: k, n & r] (solve_loaded_general A b load eps)
    (fun i => LinalgModel.solve_loaded_general (mat m n A i) (mat m k b i) load eps) (fun t i => mat n k t i).
Proof.
move=> sA sb; apply: slg_core => // u su; have [b2 [e s2 h2]] := tzip_col *%R sb su.
by exists b2; split=> // i x y hi; rewrite h2 ?matE //= !ltn_ord.
Qed.
(* a right-hand side without batch dimensions *)
Lemma slg_bc m n k r (A b : tensor C) load eps : sh A = [:: n, m & r] -> sh b = [:: k; m] ->
  lifts r [:: k, n & r] (solve_loaded_general A b load eps)
    (fun i => LinalgModel.solve_loaded_general (mat m n A i) (mat m k b [::]) load eps) (fun t i => mat n k t i).
Proof.
move=> sA sb; apply: slg_core => // u su.
rewrite /tmul (@tzipE _ _ _ _ [:: k, m & r]); last by rewrite sb su /= bc2n1 /= bc2nn.
eexists; split; [reflexivity|by []|] => i x y hi; cbn [at_]; rewrite sb su matE.
rewrite -[clip [:: 1, m & r]%N _]/[:: 0%N, (if m == 1%N then 0%N else nat_of_ord x) & clip r i] (clip_id hi).
by rewrite -[clip [:: k; m] _]/[:: if k == 1%N then 0%N else nat_of_ord y; if m == 1%N then 0%N else nat_of_ord x] !clip1.
Qed.

(* ---- composition for any result *)
Lemma gives_bind (A B U V : Type) (P : A -> Prop) (Q : B -> Prop) r (res : result A) (g : seq nat -> result U) rd (k : A -> result B) (gk : seq nat -> U -> result V) rd2 :
  gives P r res g rd -> (forall a, P a -> gives Q r (k a) (fun i => gk i (rd a i)) rd2) ->
  gives Q r (bind res k) (fun i => bind (g i) (gk i)) rd2.
Proof.
case: res => [a [pa h1]|e [i hi h1]] h2; last by exists i => //; rewrite h1.
move: (h2 a pa); rewrite /=; case: (k a) => [u [su h]|e [i hi h]].
  by split=> // i hi; rewrite h1 //= h.
by exists i => //; rewrite h1 //= h.
Qed.
Lemma eq_gives (A U : Type) (P : A -> Prop) r (res : result A) (g g' : seq nat -> result U) rd :
  (forall i, inr r i -> g i = g' i) -> gives P r res g rd -> gives P r res g' rd.
Proof.
move=> h; case: res => [t [st h1]|e [i hi h1]]; last by exists i => //; rewrite -h.
by split=> // i hi; rewrite -h // h1.
Qed.
Lemma gives_ok (A U : Type) (P : A -> Prop) r (res : result A) (g : seq nat -> U) rd a : res = Ok a -> P a ->
  (forall i, inr r i -> rd a i = g i) -> gives P r res (fun i => Ok (g i)) rd.
Proof. by move=> -> pa h; split=> // i /h ->. Qed.
Lemma lifts_gives (U : Type) r s (res : result (tensor C)) (g : seq nat -> result U) rd :
  lifts r s res g rd <-> gives (fun t => sh t = s) r res g rd.
Proof. by []. Qed.
Lemma gives_map (A A' U U' : Type) (P : A -> Prop) (P' : A' -> Prop) r res (g : seq nat -> result U) rd (h : A -> A') (k : seq nat -> U -> U') rd' :
  gives P r res g rd -> (forall a, P a -> P' (h a)) -> (forall a i, P a -> inr r i -> rd' (h a) i = k i (rd a i)) ->
  gives P' r (let* a := res in Ok (h a))%py (fun i => let* y := g i in Ok (k i y))%py rd'.
Proof.
move=> h1 h2 h3; apply: gives_bind h1 _ => a pa; split; first exact: h2.
by move=> i hi; rewrite h3.
Qed.
End T.
