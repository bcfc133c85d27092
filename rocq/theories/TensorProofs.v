(* Facts about the tensor operations of TensorModel.v. *)
From Coq Require Import String Ascii ZArith.
From mathcomp Require Import all_ssreflect all_algebra.
From mathcomp Require Import zify.
From Verif Require TorchShape.
From Verif Require Import CAlg Py Batch LinalgModel TensorModel TSpec.
Set Implicit Arguments. Unset Strict Implicit. Unset Printing Implicit Defensive.
Import GRing.Theory Num.Theory Order.TTheory.
Local Open Scope ring_scope.

Arguments TorchShape.bc2 : simpl never.
Arguments Nat.eqb : simpl never.
(* ---- shapes and index lists *)
Lemma bcastss s : TorchShape.bcast s s = Ok s.
Proof. by elim: s => //= n s IH; rewrite /TorchShape.bc2 Nat.eqb_refl /= IH. Qed.
Lemma eqbE m n : Nat.eqb m n = (m == n).
Proof. by case: eqP => [->|/eqP h]; [rewrite Nat.eqb_refl|apply/negbTE/negP => /Nat.eqb_spec e; rewrite e eqxx in h]. Qed.
Lemma bc2nn n : TorchShape.bc2 n n = Ok n.
Proof. by rewrite /TorchShape.bc2 Nat.eqb_refl. Qed.
Lemma bc2n1 n : TorchShape.bc2 n 1 = Ok n.
Proof. by rewrite /TorchShape.bc2 !eqbE; case: n => [|[|n]]. Qed.
Lemma bc21n n : TorchShape.bc2 1 n = Ok n.
Proof. by rewrite /TorchShape.bc2 !eqbE; case: n => [|[|n]]. Qed.
Lemma bcast0r s : TorchShape.bcast s [::] = Ok s.
Proof. by case: s. Qed.
Lemma seqbss s : TorchShape.seqb s s.
Proof. by elim: s => //= n s ->; rewrite Nat.eqb_refl. Qed.
Lemma clip_id s i : inr s i -> clip s i = i.
Proof.
elim: s i => [|n s IH] [|x i] //= /andP [h /IH ->]; congr cons.
by case: eqP h => // -> ; case: x.
Qed.
Lemma clip_app s u i j : size s = size i -> clip (s ++ u) (i ++ j) = clip s i ++ clip u j.
Proof. by elim: s i => [|n s IH] [|x i] //= [/IH ->]. Qed.
Lemma inr_cat s u i j : size s = size i -> inr (s ++ u) (i ++ j) = inr s i && inr u j.
Proof. by elim: s i => [|n s IH] [|x i] //= [/IH ->]; rewrite andbA. Qed.
Lemma inr_size s i : inr s i -> size i = size s.
Proof. by elim: s i => [|n s IH] [|x i] //= /andP [_ /IH ->]. Qed.
Lemma mem_idxs s i : (i \in idxs s) = inr s i.
Proof.
elim: s i => [|n s IH] [|x i] //=.
  by apply/negbTE/flattenP => -[l /mapP [j _ ->]] /mapP [].
apply/flattenP/andP.
  move=> [l /mapP [j hj ->]] /mapP [y]; rewrite mem_iota add0n => /andP [_ h] [-> ->]; by rewrite -IH.
move=> [h hi]; exists [seq y :: i | y <- iota 0 n]; first by apply/mapP; exists i; rewrite // IH.
by apply/mapP; exists x => //; rewrite mem_iota.
Qed.
Lemma numelE s : TorchShape.numel s = (\prod_(n <- s) n)%N.
Proof. by elim: s => [|n s IH]; rewrite ?big_nil ?big_cons //= IH. Qed.
Lemma unflatK s i : inr s i -> unflat s (flat s i) = i.
Proof.
elim: s i => [|n s IH] [|x i] //= /andP [h /IH e].
have n0 : (0 < n)%N by apply: leq_ltn_trans h.
by rewrite addnC mulnC modnMDl modn_small // divnMDl // divn_small // addn0 e.
Qed.
(* merging the last two dimensions of a part, and splitting them *)
Lemma unflat_split a b s x m : (0 < a)%N -> (x < b * a)%N ->
  unflat (a :: b :: s) (x + (b * a) * m)%N = (x %% a)%N :: (x %/ a)%N :: unflat s m.
Proof.
move=> a0 h /=; have b0 : (0 < b)%N by case: b h.
have e : (x + b * a * m = m * b * a + x)%N by rewrite addnC -mulnA [(a * m)%N]mulnC mulnA [(b * m)%N]mulnC.
have h' : (x %/ a < b)%N by rewrite ltn_divLR.
by rewrite e modnMDl divnMDl // modnMDl divnMDl // (modn_small h') (divn_small h') addn0.
Qed.
Lemma unflat_merge a b s x y m : (x < a)%N -> (y < b)%N ->
  unflat ((b * a)%N :: s) (x + a * (y + b * m))%N = (x + a * y)%N :: unflat s m.
Proof.
move=> h1 h2 /=; have h : (x + a * y < b * a)%N by nia.
have -> : (x + a * (y + b * m) = m * (b * a) + (x + a * y))%N by nia.
by rewrite modnMDl divnMDl ?(leq_ltn_trans _ h) // modn_small // divn_small // addn0.
Qed.

Section T.
Variable C : numClosedFieldType.
Implicit Types (t u : tensor C).
Local Notation tensor := (tensor C).

Lemma getE n k (M : 'M[C]_(n, k)) (i : 'I_n) (j : 'I_k) : get M i j = M i j.
Proof. by rewrite /get !valK. Qed.
Lemma mapb_ok (U : Type) (dflt : U) s g X : mapb dflt s g = Ok X -> forall i, inr s i -> g i = Ok (X i).
Proof.
rewrite /mapb; case E: (pmap _ _) => [|//] [<-] i; rewrite -mem_idxs => h.
suff [x ->] : exists x, g i = Ok x by [].
elim: (idxs s) E h => [|a l IH] //=; case Ea: (g a) => [x|//] /= /IH {}IH; rewrite inE => /orP [/eqP ->|/IH //].
by exists x.
Qed.
Lemma mapb_err (U : Type) (dflt : U) s g e : mapb dflt s g = Err e -> exists2 i, inr s i & g i = Err e.
Proof.
rewrite /mapb => h.
suff [i hi ge] : exists2 i, i \in idxs s & g i = Err e by exists i; rewrite -?mem_idxs.
elim: (idxs s) h => [|a l IH] //=; case E: (g a) => [x|e1] //=.
  by move/IH => [i hi ge]; exists i; rewrite // inE hi orbT.
by case=> <-; exists a; rewrite // inE eqxx.
Qed.

(* ---- torch.linalg.solve for matrices and vectors on the right *)
Lemma solve_mat n k r (A b : tensor) : sh A = [:: n, n & r] -> sh b = [:: k, n & r] ->
  lifts r [:: k, n & r] (solve A b) (fun i => torch_solve (mat n n A i) (mat n k b i)) (fun t i => mat n k t i).
Proof.
move=> sA sb; rewrite /solve sA sb.
have nv : TorchShape.is_vector_rhs [:: n, n & r] [:: k, n & r] = false.
  rewrite /TorchShape.is_vector_rhs /=; apply/negbTE/negP => /andP [/Nat.eqb_spec h _]; lia.
rewrite /TorchShape.solve /= !Nat.eqb_refl /= nv bcastss /=.
case E: (mapb _ _ _) => [X|e] /=; last first.
  have [i hi he] := mapb_err E; exists i => //; move: he; by rewrite clip_id.
split=> // i hi; have := mapb_ok E hi; rewrite clip_id // => ->.
by congr Ok; apply/matrixP => x y; rewrite !mxE /= getE.
Qed.
Lemma solve_vec n r (A b : tensor) : sh A = [:: n, n & r] -> sh b = n :: r ->
  lifts r (n :: r) (solve A b) (fun i => torch_solve (mat n n A i) (vec n b i)) (fun t i => vec n t i).
Proof.
move=> sA sb; rewrite /solve sA sb.
have iv : TorchShape.is_vector_rhs [:: n, n & r] (n :: r).
  by rewrite /TorchShape.is_vector_rhs /= Nat.eqb_refl seqbss /= Nat.eqb_refl orbT.
rewrite /TorchShape.solve /= !Nat.eqb_refl /= iv bcastss /=.
case E: (mapb _ _ _) => [X|e] /=; last first.
  have [i hi he] := mapb_err E; exists i => //; move: he; by rewrite clip_id.
split=> // i hi; have := mapb_ok E hi; rewrite clip_id // => ->.
by congr Ok; apply/matrixP => x y; rewrite !mxE /= ord1 (getE _ _ 0).
Qed.
(* a right-hand side without batch dimensions *)
Lemma solve_mat_bc n k a b' r (A b : tensor) : sh A = [:: n, n, a, b' & r] -> sh b = [:: k; n] ->
  lifts [:: a, b' & r] [:: k, n, a, b' & r] (solve A b) (fun i => torch_solve (mat n n A i) (mat n k b [::])) (fun t i => mat n k t i).
Proof.
move=> sA sb; rewrite /solve sA sb.
have -> : TorchShape.solve [:: n, n, a, b' & r] [:: k; n] = Ok [:: k, n, a, b' & r] by rewrite /TorchShape.solve /= !Nat.eqb_refl.
have -> : TorchShape.is_vector_rhs [:: n, n, a, b' & r] [:: k; n] = false by [].
cbn [bind]; case E: (mapb _ _ _) => [X|e]; cbn [bind]; last first.
  by have [i hi he] := mapb_err E; exists i => //; rewrite -he (clip_id hi).
split=> // i hi; have := mapb_ok E hi; rewrite (clip_id hi) => ->.
by congr Ok; apply/matrixP => x y; rewrite !mxE /= getE.
Qed.

(* ---- solve_loaded *)
Lemma tmax_keep1 m n r (A : tensor) : (0 < n)%N -> sh A = [:: m, n & r] ->
  tmax_keep 1 A = Ok (mkT [:: m, 1 & r]%N (fun i => \big[Num.max/0]_(k < n) at_ A (TorchShape.set 1 k i))).
Proof. by move=> n0 sA; rewrite /tmax_keep /TorchShape.amax_keep sA /TorchShape.size /= eqbE (gtn_eqF n0). Qed.
Lemma tmax_keep0 m r (A : tensor) : (0 < m)%N -> sh A = m :: r ->
  tmax_keep 0 A = Ok (mkT (1%N :: r) (fun i => \big[Num.max/0]_(k < m) at_ A (TorchShape.set 0 k i))).
Proof. by move=> n0 sA; rewrite /tmax_keep /TorchShape.amax_keep sA /TorchShape.size /= eqbE (gtn_eqF n0). Qed.
Lemma tzipE f (t u : tensor) s : TorchShape.bcast (sh t) (sh u) = Ok s ->
  tzip f t u = Ok (mkT s (fun i => f (at_ t (clip (sh t) i)) (at_ u (clip (sh u) i)))).
Proof. by rewrite /tzip => ->. Qed.
(* matrix products of every matrix *)
Lemma bmmE m n q r (A B : tensor) : sh A = [:: n, m & r] -> sh B = [:: q, n & r] -> exists t,
  [/\ bmm A B = Ok t, sh t = [:: q, m & r] & forall i, inr r i -> mat m q t i = LinalgModel.bmm (mat m n A i) (mat n q B i)].
Proof.
move=> sA sB.
have mm (f g : C -> C) : exists t, [/\ matmul (tmap f A) (tmap g B) = Ok t, sh t = [:: q, m & r] &
    forall i, inr r i -> mat m q t i = map_mx f (mat m n A i) *m map_mx g (mat n q B i)].
  rewrite /matmul; cbn [sh tmap]; rewrite sA sB; cbn [TorchShape.matmul]; rewrite Nat.eqb_refl bcastss; cbn [bind].
  eexists; split; [reflexivity|by []|] => i hi; apply/matrixP => x y; rewrite mxE [RHS]mxE; cbn [at_]; apply: eq_bigr => j _.
  by rewrite !clip_id // !mxE.
rewrite /bmm; cbv zeta.
have [rr [-> s1 h1]] := mm (fun z => 'Re z) (fun z => 'Re z); have [ii [-> s2 h2]] := mm (fun z => 'Im z) (fun z => 'Im z).
have [ri [-> s3 h3]] := mm (fun z => 'Re z) (fun z => 'Im z); have [ir [-> s4 h4]] := mm (fun z => 'Im z) (fun z => 'Re z).
cbn [bind]; rewrite /tsub /tadd !(@tzipE _ _ _ [:: q, m & r]) ?s1 ?s2 ?s3 ?s4 ?bcastss //; cbn [bind].
rewrite !(@tzipE _ _ _ [:: q, m & r]) ?bcastss //; eexists; split; [reflexivity|by []|] => i hi.
apply/matrixP => x y; rewrite mxE [RHS]mxE; cbn [at_ sh].
have h : inr [:: q, m & r] [:: nat_of_ord y, nat_of_ord x & i] by rewrite /= !ltn_ord.
rewrite ?s1 ?s2 ?s3 ?s4 !(clip_id h) -/(reM _) -/(imM _) /reM /imM -h1 // -h2 // -h3 // -h4 //.
by rewrite !mxE.
Qed.
Lemma clip1 n (x : 'I_n) : (if n == 1%N then 0%N else nat_of_ord x) = x.
Proof. by case: eqP x => // -> x; rewrite ord1. Qed.
Lemma loaded n r (A : tensor) load : (0 < n)%N -> sh A = [:: n, n & r] -> exists Al,
  [/\ forall b, solve_loaded A b load = solve Al b, sh Al = [:: n, n & r] &
   forall i, inr r i -> mat n n Al i = mat n n A i + load_factor (mat n n A i) load *: 1%:M].
Proof.
move=> n0 sA; rewrite /solve_loaded {1}sA /TorchShape.size; cbn [List.nth_error bind].
rewrite (@tmax_keep1 n n r) //; cbn [bind].
rewrite (@tmax_keep0 n (1%N :: r)) //; cbn [bind].
rewrite /tmul (@tzipE _ _ _ [:: n, n & r]); last by rewrite /= !bc21n /= bcast0r.
cbn [bind]; rewrite /tadd (@tzipE _ _ _ [:: n, n & r]); last by rewrite sA bcastss.
cbn [bind]; eexists; split; [by []|by []|].
move=> i hi; apply/matrixP => x y; rewrite [LHS]mxE [RHS]mxE; cbn [at_ sh].
rewrite sA (@clip_id [:: n, n & r]) /= ?ltn_ord // (clip_id hi).
rewrite !mxE; congr (_ + _); congr (_ * _).
  rewrite /load_factor /max_abs; congr clamp; congr (_ * _); apply: eq_bigr => j _; apply: eq_bigr => k _; by rewrite !mxE.
by rewrite !clip1 eq_sym.
Qed.
Lemma solve_loaded_mat n k r (A b : tensor) load : (0 < n)%N -> sh A = [:: n, n & r] -> sh b = [:: k, n & r] ->
  lifts r [:: k, n & r] (solve_loaded A b load) (fun i => LinalgModel.solve_loaded (mat n n A i) (mat n k b i) load) (fun t i => mat n k t i).
Proof.
move=> n0 sA sb; have [Al [-> sAl h]] := loaded load n0 sA.
have := solve_mat sAl sb; rewrite /lifts; case: (solve _ _) => [t|e].
  move=> [-> ht]; split=> // i hi; by rewrite /LinalgModel.solve_loaded (gtn_eqF n0) -h // ht.
by move=> [i hi e1]; exists i => //; rewrite /LinalgModel.solve_loaded (gtn_eqF n0) -h.
Qed.
Lemma solve_loaded_vec n r (A b : tensor) load : (0 < n)%N -> sh A = [:: n, n & r] -> sh b = n :: r ->
  lifts r (n :: r) (solve_loaded A b load) (fun i => LinalgModel.solve_loaded (mat n n A i) (vec n b i) load) (fun t i => vec n t i).
Proof.
move=> n0 sA sb; have [Al [-> sAl h]] := loaded load n0 sA.
have := solve_vec sAl sb; rewrite /lifts; case: (solve _ _) => [t|e].
  move=> [-> ht]; split=> // i hi; by rewrite /LinalgModel.solve_loaded (gtn_eqF n0) -h // ht.
by move=> [i hi e1]; exists i => //; rewrite /LinalgModel.solve_loaded (gtn_eqF n0) -h.
Qed.
Lemma solve_loaded_empty r (A b : tensor) load : sh A = [:: 0%N, 0%N & r] -> solve_loaded A b load = Err IndexError.
Proof.
move=> sA; rewrite /solve_loaded {1}sA /TorchShape.size; cbn [List.nth_error bind].
rewrite /tmax_keep /TorchShape.amax_keep; cbn [sh tmap]; by rewrite sA.
Qed.
End T.

(* ---- mxvec_index *)
Lemma index_pairs (S T : eqType) (s : seq S) (t : seq T) i j : i \in s -> j \in t ->
  index (i, j) [seq (x, y) | x <- s, y <- t] = (index i s * size t + index j t)%N.
Proof.
move=> hi hj; elim: s hi => [|x s IH] //=; rewrite inE index_cat size_map => h.
have e : ((i, j) \in [seq (x, y) | y <- t]) = (x == i).
  apply/mapP/eqP; first by move=> [y _ [-> _]].
  by move=> ->; exists j.
rewrite e; case: (x =P i) => [ex|ne]; first by rewrite -ex index_map // => y z [].
by move: h; rewrite eq_sym => /orP [/eqP //|h]; rewrite IH // mulSn addnA.
Qed.
Lemma mxvec_indexE m n (i : 'I_m) (j : 'I_n) : nat_of_ord (mxvec_index i j) = (j + n * i)%N.
Proof.
have -> : nat_of_ord (mxvec_index i j) = index (i, j) (enum (prod_finType (ordinal_finType m) (ordinal_finType n))).
  rewrite -[in RHS](nth_enum_rank (i, j) (i, j)) index_uniq ?enum_uniq // -cardE; exact: ltn_ord.
rewrite enumT unlock /= /prod_enum index_pairs ?mem_enum // !index_enum_ord size_enum_ord.
by rewrite addnC mulnC.
Qed.
Lemma mxvec_mod m n (i : 'I_m) (j : 'I_n) : (mxvec_index i j %% n)%N = j.
Proof. by rewrite mxvec_indexE addnC mulnC modnMDl modn_small. Qed.
Lemma mxvec_div m n (i : 'I_m) (j : 'I_n) : (mxvec_index i j %/ n)%N = i.
Proof. by rewrite mxvec_indexE addnC mulnC divnMDl ?divn_small ?addn0 // (leq_ltn_trans _ (ltn_ord j)). Qed.
Lemma numel_cons n s : TorchShape.numel (n :: s) = (n * TorchShape.numel s)%N.
Proof. by []. Qed.
Lemma reshapeE (C : numClosedFieldType) s (t : tensor C) : TorchShape.numel (sh t) = TorchShape.numel s ->
  reshape s t = Ok (mkT s (fun i => at_ t (unflat (sh t) (flat s i)))).
Proof. by move=> h; rewrite /reshape /TorchShape.reshape h Nat.eqb_refl. Qed.
(* gather of equal functions *)
Lemma eq_gather (I : finType) (T : Type) (d : T) (g g' : I -> result T) : g =1 g' -> gather d g = gather d g'.
Proof.
move=> h; rewrite /gather (eq_map h); case: (pmap _ _) => //; congr Ok; apply/ffunP => i; by rewrite !ffunE h.
Qed.
(* the exceptions of solve_loaded *)
Lemma solve_loaded_err (C : numClosedFieldType) n k (A : 'M[C]_n) (b : 'M[C]_(n, k)) load e : (0 < n)%N ->
  LinalgModel.solve_loaded A b load = Err e -> e = LinAlgError.
Proof. by move=> n0; rewrite /LinalgModel.solve_loaded (gtn_eqF n0) /torch_solve; case: ifP => // _ []. Qed.
(* element f of a batch over frequencies *)
Lemma gather_lift (C : numClosedFieldType) (U : Type) (d : U) F r s (res : result (tensor C)) (g : seq nat -> result U) rd e0 :
  (forall i e, g i = Err e -> e = e0) -> lifts (F :: r) s res g rd ->
  lifts r s res (fun b => gather d (fun f : 'I_F => g (nat_of_ord f :: b))) (fun t b => [ffun f : 'I_F => rd t (nat_of_ord f :: b)]).
Proof.
move=> he; rewrite /lifts; case: res => [t [-> h]|e [i hi ge]].
  split=> // b hb; apply: gather_ok => f; apply: h; by rewrite /= ltn_ord.
case: i hi ge => [//|x b] /= /andP [hx hb] ge; exists b => //.
have [f' [e' [-> h']]] := gather_err d (f := Ordinal hx) (g := fun f : 'I_F => g (nat_of_ord f :: b)) ge.
by rewrite (he _ _ h') (he _ _ ge).
Qed.
Lemma sigE (C : numClosedFieldType) nF nN nC (t : tensor C) b (f : 'I_nF) (c : 'I_nC) (n : 'I_nN) :
  sig_at nF nN nC t b f c n = at_ t [:: nat_of_ord n, nat_of_ord f, nat_of_ord c & b].
Proof. by rewrite ffunE mxE. Qed.

(* ---- indexing *)
Lemma zidx_lt n k : TorchShape.valid n k -> (zidx n k < n)%N.
Proof. rewrite /TorchShape.valid /zidx => /andP [/Z.leb_spec0 h1 /Z.ltb_spec0 h2]; case: Z.ltb_spec0 => h3; lia. Qed.
Lemma zidx_nat n k : zidx n (Z.of_nat k) = k.
Proof. rewrite /zidx; case: Z.ltb_spec0 => h; lia. Qed.
Lemma valid_nat n k : (k < n)%N -> TorchShape.valid n (Z.of_nat k).
Proof. move=> h; rewrite /TorchShape.valid; apply/andP; split; [apply/Z.leb_spec0|apply/Z.ltb_spec0]; lia. Qed.
Lemma invalid_nat n k : (n <= k)%N -> TorchShape.valid n (Z.of_nat k) = false.
Proof. move=> h; rewrite /TorchShape.valid; apply/negbTE/negP => /andP [_ /Z.ltb_spec0]; lia. Qed.
Section I.
Variable C : numClosedFieldType.
Implicit Types (t u : tensor C).
Lemma nth_errorE (s : seq nat) p n : List.nth_error s p = Some n -> nth 0%N s p = n.
Proof. elim: p s => [|p IH] [|x s] //=; [by case|exact: IH]. Qed.
Lemma selectE p k t n : List.nth_error (sh t) p = Some n -> TorchShape.valid n k ->
  select p k t = Ok (mkT (TorchShape.del p (sh t)) (fun i => at_ t (TorchShape.ins p (zidx n k) i))).
Proof. by move=> h v; rewrite /select /TorchShape.select /TorchShape.size h /= v /= (nth_errorE h). Qed.
Lemma select_err p k t n : List.nth_error (sh t) p = Some n -> TorchShape.valid n k = false -> select p k t = Err IndexError.
Proof. by move=> h v; rewrite /select /TorchShape.select /TorchShape.size h /= v. Qed.
Lemma pickE p k t n : List.nth_error (sh t) p = Some n -> TorchShape.valid n k ->
  pick p k t = Ok (mkT (TorchShape.set p 1 (sh t)) (fun i => at_ t (TorchShape.set p (zidx n k) i))).
Proof. by move=> h v; rewrite /pick /TorchShape.pick /TorchShape.size h /= v /= (nth_errorE h). Qed.
Lemma tsum_keepE p t n : List.nth_error (sh t) p = Some n ->
  tsum_keep p t = Ok (mkT (TorchShape.set p 1 (sh t)) (fun i => \sum_(k < n) at_ t (TorchShape.set p k i))).
Proof. by move=> h; rewrite /tsum_keep /TorchShape.reduce_keep /TorchShape.size h /= (nth_errorE h). Qed.
Lemma tsumE p t n : List.nth_error (sh t) p = Some n ->
  tsum p t = Ok (mkT (TorchShape.del p (sh t)) (fun i => \sum_(k < n) at_ t (TorchShape.ins p k i))).
Proof. by move=> h; rewrite /tsum /TorchShape.reduce /TorchShape.size h /= (nth_errorE h). Qed.
Lemma transpose10 t a b r : sh t = [:: a, b & r] -> exists u, [/\ transpose 1 0 t = Ok u, sh u = [:: b, a & r] &
  forall x y i, at_ u [:: x, y & i] = at_ t [:: y, x & i]].
Proof. by move=> st; rewrite /transpose /TorchShape.transpose /TorchShape.size st; eexists; split; [reflexivity|by []|]. Qed.
Lemma transpose21 t a b d r : sh t = [:: a, b, d & r] -> exists u, [/\ transpose 2 1 t = Ok u, sh u = [:: a, d, b & r] &
  forall x y w i, at_ u [:: x, y, w & i] = at_ t [:: x, w, y & i]].
Proof. by move=> st; rewrite /transpose /TorchShape.transpose /TorchShape.size st; eexists; split; [reflexivity|by []|]. Qed.
Lemma unsqE p t : (p <= size (sh t))%N -> unsq p t = Ok (mkT (TorchShape.ins p 1 (sh t)) (fun i => at_ t (TorchShape.del p i))).
Proof. by move=> h; rewrite /unsq /TorchShape.unsq (_ : Nat.leb _ _ = true) //; apply/Nat.leb_spec0; move: h; rewrite -[size _]/(List.length _); lia. Qed.
Lemma tzip_same f t u s : sh t = s -> sh u = s -> exists v, [/\ tzip f t u = Ok v, sh v = s & forall i, inr s i -> at_ v i = f (at_ t i) (at_ u i)].
Proof.
move=> st su; rewrite (@tzipE _ _ _ _ s); last by rewrite st su bcastss.
eexists; split; [reflexivity|by []|]; by move=> i hi; cbn [at_]; rewrite st su !clip_id.
Qed.
Lemma matE n k t b (i : 'I_n) (j : 'I_k) : mat n k t b i j = at_ t [:: nat_of_ord j, nat_of_ord i & b].
Proof. by rewrite mxE. Qed.
Lemma vecE n t b (i : 'I_n) j : vec n t b i j = at_ t (nat_of_ord i :: b).
Proof. by rewrite mxE. Qed.

(* ---- composition *)
Lemma lifts_bind (U V : Type) r s1 s2 (res : result (tensor C)) (g : seq nat -> result U) rd (k : tensor C -> result (tensor C)) (gk : seq nat -> U -> result V) rd2 :
  lifts r s1 res g rd -> (forall t : tensor C, sh t = s1 -> lifts r s2 (k t) (fun i => gk i (rd t i)) rd2) ->
  lifts r s2 (bind res k) (fun i => bind (g i) (gk i)) rd2.
Proof.
case: res => [t [st h1]|e [i hi h1]] h2; last by exists i => //; rewrite h1.
move: (h2 t st); rewrite /=; case: (k t) => [u [su h]|e [i hi h]].
  by split=> // i hi; rewrite h1 //= h.
by exists i => //; rewrite h1 //= h.
Qed.
Lemma lifts_ok (U : Type) r s (res : result (tensor C)) (g : seq nat -> U) rd t : res = Ok t -> sh t = s ->
  (forall i, inr r i -> rd t i = g i) -> lifts r s res (fun i => Ok (g i)) rd.
Proof. by move=> -> st h; split=> // i /h ->. Qed.
Lemma eq_lifts (U : Type) r s (res : result (tensor C)) (g g' : seq nat -> result U) rd :
  (forall i, inr r i -> g i = g' i) -> lifts r s res g rd -> lifts r s res g' rd.
Proof.
move=> h; case: res => [t [st h1]|e [i hi h1]]; last by exists i => //; rewrite -h.
by split=> // i hi; rewrite -h // h1.
Qed.
(* the batch includes pairs of a source and a frequency *)
Lemma gather_lift2 (U : Type) (d : U) S F r s (res : result (tensor C)) (g : seq nat -> result U) rd e0 :
  (forall i e, g i = Err e -> e = e0) -> lifts [:: F, S & r] s res g rd ->
  lifts r s res (fun b => gather d (fun sf : 'I_S * 'I_F => g [:: nat_of_ord sf.2, nat_of_ord sf.1 & b]))
    (fun t b => [ffun sf : 'I_S * 'I_F => rd t [:: nat_of_ord sf.2, nat_of_ord sf.1 & b]]).
Proof.
move=> he; rewrite /lifts; case: res => [t [-> h]|e [i hi ge]].
  split=> // b hb; apply: gather_ok => -[x y]; apply: h; by rewrite /= !ltn_ord.
case: i hi ge => [//|x [|y b]] /=; first by rewrite andbF.
move=> /and3P [hx hy hb] ge; exists b => //.
have [f' [e' [-> h']]] := gather_err d (f := (Ordinal hy, Ordinal hx)) (g := fun sf : 'I_S * 'I_F => g [:: nat_of_ord sf.2, nat_of_ord sf.1 & b]) ge.
by rewrite (he _ _ h') (he _ _ ge).
Qed.
End I.
