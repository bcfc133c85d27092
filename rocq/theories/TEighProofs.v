(* The 2 x 2 routines and eigh on whole tensors act on each matrix of the batch. *)
From Coq Require Import String Ascii ZArith.
From mathcomp Require Import all_ssreflect all_algebra.
From mathcomp Require Import zify.
From Verif Require TorchShape.
From Verif Require Import CAlg Py LinalgModel TensorModel TOpsModel TSpec TensorProofs TEinsum TOpsProofs TIpModel TIpProofs TEighModel.
Set Implicit Arguments. Unset Strict Implicit. Unset Printing Implicit Defensive.
Import GRing.Theory Num.Theory Order.TTheory.
Local Open Scope ring_scope.
Arguments clip : simpl never. Arguments TorchShape.bc2 : simpl never. Arguments Nat.eqb : simpl never.

Section Pw.
Variable C : numClosedFieldType.
Local Notation tensor := (tensor C).
Implicit Types (t u v A : tensor).
(* t has shape r and the values g *)
Definition has (r : seq nat) t (g : seq nat -> C) : Prop := sh t = r /\ forall i, inr r i -> at_ t i = g i.
Lemma has_map r t g f : has r t g -> has r (tmap f t) (fun i => f (g i)).
Proof. by move=> [s h]; split=> // i hi; rewrite /tmap /= h. Qed.
Lemma has_zip r t u g h f : has r t g -> has r u h -> exists2 v, tzip f t u = Ok v & has r v (fun i => f (g i) (h i)).
Proof.
by move=> [st et] [su eu]; have [v [e sv ev]] := tzip_same f st su; exists v => //; split=> // i hi; rewrite ev // et // eu.
Qed.
Lemma has_add r t u g h : has r t g -> has r u h -> exists2 v, tadd t u = Ok v & has r v (fun i => g i + h i).
Proof. exact: has_zip. Qed.
Lemma has_sub r t u g h : has r t g -> has r u h -> exists2 v, tsub t u = Ok v & has r v (fun i => g i - h i).
Proof. exact: has_zip. Qed.
Lemma has_mul r t u g h : has r t g -> has r u h -> exists2 v, tmul t u = Ok v & has r v (fun i => g i * h i).
Proof. exact: has_zip. Qed.
Lemma has_div r t u g h : has r t g -> has r u h -> exists2 v, tdiv t u = Ok v & has r v (fun i => g i / h i).
Proof. exact: has_zip. Qed.
Lemma has_entry n m r t (i : 'I_m) (j : 'I_n) : sh t = [:: n, m & r] ->
  exists2 v, entry (Z.of_nat i) (Z.of_nat j) t = Ok v & has r v (fun b => mat m n t b i j).
Proof.
move=> st; rewrite /entry; have [c [-> sc ec]] := sel0 st (ltn_ord j); cbn [bind].
have [v [-> sv ev]] := sel0 sc (ltn_ord i); exists v => //; split=> // b hb; by rewrite ev ec matE.
Qed.
(* t has shape a x r and row k the values g k *)
Definition rows a r t (g : nat -> seq nat -> C) : Prop := sh t = a :: r /\ forall k i, (k < a)%N -> inr r i -> at_ t (k :: i) = g k i.
Lemma rows_asg a r t g k v h : rows a r t g -> has r v h -> (k < a)%N -> exists2 u, assign_select 0 (Z.of_nat k) t v = Ok u &
  rows a r u (fun x i => if x == k then h i else g x i).
Proof.
move=> [st et] [sv ev] lt; have [u [e su eu]] := asg0 st sv lt; exists u => //; split=> // x i hx hi.
by rewrite eu //; case: eqP => _; [exact: ev|exact: et].
Qed.
Lemma rows_sel a r t g k : rows a r t g -> (k < a)%N -> exists2 u, select 0 (Z.of_nat k) t = Ok u & has r u (g k).
Proof. by move=> [st et] lt; have [u [e su eu]] := sel0 st lt; exists u => //; split=> // i hi; rewrite eu et. Qed.
Lemma rows0 a r : rows a r (tzeros C (a :: r)) (fun _ _ => 0).
Proof. by split. Qed.
Lemma rows_divc a r t g u h f : rows a r t g -> has r u h ->
  exists2 d, unsq 0 u = Ok d & exists2 v, tdiv t (tmap f d) = Ok v & rows a r v (fun k i => g k i / f (h i)).
Proof.
move=> [st et] [su eu]; have lt0 : (0 <= size (sh u))%N by []; rewrite (unsqE lt0).
eexists; first reflexivity; rewrite su.
have [v [e sv ev]] := @tzip_col C (fun x y => x / y) t (tmap f (mkT (TorchShape.ins 0 1 r) (fun i => at_ u (TorchShape.del 0 i)))) a r st erefl.
exists v => //; split=> // k i hk hi; rewrite ev; last by rewrite /= hk.
by rewrite (et k i hk hi); cbn [tmap at_ TorchShape.del List.firstn List.skipn List.app]; rewrite (eu i hi).
Qed.
(* t is a matrix of shape (m, n) at each index *)
Definition mats m n r t (g : seq nat -> 'M[C]_(m, n)) : Prop := sh t = [:: n, m & r] /\ forall b, inr r b -> mat m n t b = g b.
Lemma mats_self m n r t : sh t = [:: n, m & r] -> mats r t (mat m n t).
Proof. by []. Qed.
Lemma mats_asg m n r t g (i : 'I_m) (j : 'I_n) v h : mats r t g -> has r v h ->
  exists2 u, assign_entry (Z.of_nat i) (Z.of_nat j) t v = Ok u &
    mats r u (fun b => \matrix_(x, y) if (x == i) && (y == j) then h b else g b x y).
Proof.
move=> [st et] [sv ev]; rewrite /assign_entry /TorchShape.select /TorchShape.size st; cbn [List.nth_error bind].
rewrite (valid_nat (ltn_ord j)); cbn [bind]; rewrite /TorchShape.del; cbn [List.firstn List.skipn List.app List.nth_error bind].
rewrite (valid_nat (ltn_ord i)); cbn [bind List.firstn List.skipn List.app].
rewrite (broadcast_same sv); cbn [bind]; eexists; first reflexivity; split=> // b hb.
apply/matrixP => x y; rewrite [RHS]mxE [LHS]mxE; cbn [at_ nth drop]; rewrite !zidx_nat drop0 (clip_id hb) andbC -et // matE.
by rewrite -!(inj_eq val_inj) ev.
Qed.
Lemma mats0 m n r : mats r (tzeros C [:: n, m & r]) (fun _ => 0 : 'M_(m, n)).
Proof. by split=> // b hb; apply/matrixP => i j; rewrite !mxE. Qed.
Lemma mats_eq m n r t (g h : seq nat -> 'M[C]_(m, n)) : (forall b, inr r b -> g b = h b) -> mats r t g -> mats r t h.
Proof. by move=> e [s h1]; split=> // b hb; rewrite h1 // e. Qed.
Lemma mats_norm m n r t g f : mats r t g -> exists2 u, tsum_keep 1 (tmap f t) = Ok u &
  sh u = [:: n, 1 & r]%N /\ forall b (k : 'I_n), inr r b -> at_ u [:: nat_of_ord k, 0%N & b] = \sum_(i < m) f (g b i k).
Proof.
move=> [st et]; rewrite (@tsum_keepE C 1 (tmap f t) m) ?st //; eexists; first reflexivity; split; first by rewrite /= ?st.
move=> b k hb; cbn [at_]; apply: eq_bigr => i _; rewrite /tmap /=; by rewrite -et // matE.
Qed.
(* dividing the columns *)
Lemma mats_col m n r t g u f (h : seq nat -> 'I_n -> C) : mats r t g -> sh u = [:: n, 1 & r]%N ->
  (forall b k, inr r b -> at_ u [:: nat_of_ord k, 0%N & b] = h b k) ->
  exists2 v, tzip f t u = Ok v & mats r v (fun b => \matrix_(i < m, k < n) f (g b i k) (h b k)).
Proof.
move=> [st et] su eu; rewrite (@tzipE C f t u [:: n, m & r]); last first.
  by rewrite st su; cbn [TorchShape.bcast]; rewrite bc2nn bc2n1; cbn [bind]; rewrite bcastss.
eexists; first reflexivity; split=> // b hb; apply/matrixP => i k; rewrite [LHS]mxE [RHS]mxE; cbn [at_].
rewrite st su /clip -/clip clip_id // clip1 clip1 -eu // -et // matE; congr (f _ (at_ _ _)).
Qed.


Lemma has_stack r t u g h : has r t g -> has r u h -> exists2 v, stack2 t u = Ok v & rows 2 r v (fun k => if k == 0%N then g else h).
Proof.
move=> [st et] [su eu]; rewrite /stack2 /TorchShape.stack2 st su seqbss; cbn [bind]; eexists; first reflexivity.
by split=> // -[|[|//]] i _ hi; [exact: et|exact: eu].
Qed.
Lemma rows_stack r t u g h : rows 2 r t g -> rows 2 r u h ->
  exists2 v, stack2 t u = Ok v & mats r v (fun b => \matrix_(x, y) (if y == i0 then g x b else h x b) : 'M_(2, 2)).
Proof.
move=> [st et] [su eu]; rewrite /stack2 /TorchShape.stack2 st su seqbss; cbn [bind]; eexists; first reflexivity.
split=> // b hb; apply/matrixP => x y; rewrite [LHS]mxE [RHS]mxE; cbn [at_]; rewrite -(inj_eq val_inj).
by case: eqP => _; [exact: et|exact: eu].
Qed.
(* ---- inv_2x2 *)
Lemma mx22E (a b c d : C) (M : 'M[C]_2) : M i0 i0 = a -> M i0 i1 = b -> M i1 i0 = c -> M i1 i1 = d -> M = mx22 a b c d.
Proof.
move=> <- <- <- <-; apply/matrixP => i j; rewrite mxE.
have ii (k : 'I_2) : k = if k == i0 then i0 else i1 by apply/val_inj; case: k => -[|[|//]] /= lt.
by rewrite [in LHS](ii i) [in LHS](ii j); do 2 case: eqP => _.
Qed.
Lemma inv2_at r W eps : sh W = [:: 2, 2 & r]%N -> exists2 I, t_inv_2x2 W eps = Ok I & mats r I (fun b => inv_2x2 (mat 2 2 W b) eps).
Proof.
move=> sW; rewrite /t_inv_2x2 sW; cbn [eq_op Equality.op eqn negb orb andb].
have [w11 -> h11] := has_entry i0 i0 sW; have [w21 -> h21] := has_entry i1 i0 sW.
have [w12 -> h12] := has_entry i0 i1 sW; have [w22 -> h22] := has_entry i1 i1 sW; cbn [bind].
have [p -> hp] := has_mul h11 h22; have [q -> hq] := has_mul h12 h21; cbn [bind].
have [d -> hd] := has_sub hp hq; cbn [bind].
have [c0 -> hc0] := has_stack h22 (has_map -%R h21); have [c1 -> hc1] := has_stack (has_map -%R h12) h11; cbn [bind].
have [a -> [sa ea]] := rows_stack hc0 hc1; cbn [bind].
have [sd ed] := has_map (fun d => if `|d| < eps then eps else d) hd; move: sd ed; move: (tmap _ _) => d1 sd ed.
have l0 t : (0 <= size (sh t))%N by [].
rewrite (unsqE (l0 _)); cbn [bind]; rewrite (unsqE (l0 _)); cbn [bind sh at_].
have [v [e sv ev]] := @tzip_gain C (fun x y => x / y) a (mkT (TorchShape.ins 0 1 (TorchShape.ins 0 1 (sh d1))) (fun i => at_ d1 (TorchShape.del 0 (TorchShape.del 0 i))))
  2 2 r sa (congr1 (fun s => [:: 1, 1 & s]%N) sd).
exists v => //; split=> // b hb; rewrite /inv_2x2; apply/matrixP => x y; rewrite [LHS]mxE [RHS]mxE.

rewrite ev; last by rewrite /= !ltn_ord hb.
cbn [at_ TorchShape.del List.firstn List.skipn List.app]; rewrite (ed b hb); congr (_ / _).
rewrite -[LHS](matE a b x y) (ea b hb) [LHS]mxE [RHS]mxE -(inj_eq val_inj x).
by case: (x =P _ :> nat) => _; case: (y =P _) => _.
Qed.

(* the quantities of geigh_2x2 *)
Section G2.
Variables (eps : C) (A B : 'M[C]_2).
Definition g_dB : C := 'Re (B i0 i0) * 'Re (B i1 i1) - mag_sq (B i0 i1).
End G2.
Section G3.
Variables (eps : C) (A B : 'M[C]_2).
Definition g_b : C := 'Re (A i0 i0) * 'Re (B i1 i1) + 'Re (A i1 i1) * 'Re (B i0 i0) - 2%:R * ('Re (A i0 i1) * 'Re (B i0 i1) + 'Im (A i0 i1) * 'Im (B i0 i1)).
Definition g_s : C := sqrtC (clamp (g_b ^+ 2 - 4%:R * (g_dB A * g_dB B)) eps).
Definition g_e1 : C := 1 / 2%:R * (g_b - g_s) / clamp (g_dB B) eps.
Definition g_e2 : C := 1 / 2%:R * (g_b + g_s) / clamp (g_dB B) eps.
Lemma geigh_2x2E : geigh_2x2 A B eps = ((fun k => if k == i0 then g_e1 else g_e2),
  normalize_cols (mx22 (g_e1 * B i0 i1 - A i0 i1) (g_e2 * B i0 i1 - A i0 i1) (A i0 i0 - g_e1 * B i0 i0) (A i0 i0 - g_e2 * B i0 i0)) eps).
Proof. by []. Qed.
End G3.
Lemma g_b_at r a11 a12 a22 b11 b12 b22 (A B : seq nat -> 'M[C]_2) :
  has r a11 (fun i => A i i0 i0) -> has r a12 (fun i => A i i0 i1) -> has r a22 (fun i => A i i1 i1) ->
  has r b11 (fun i => B i i0 i0) -> has r b12 (fun i => B i i0 i1) -> has r b22 (fun i => B i i1 i1) ->
  exists2 b, t_secular a11 a12 a22 b11 b12 b22 = Ok b & has r b (fun i => g_b (A i) (B i)).
Proof.
move=> ha11 ha12 ha22 hb11 hb12 hb22; rewrite /t_secular.
have [ab -> hab] := has_mul (has_map (fun x : C => 'Re x) ha11) (has_map (fun x : C => 'Re x) hb22); cbn [bind].
have [ba -> hba] := has_mul (has_map (fun x : C => 'Re x) ha22) (has_map (fun x : C => 'Re x) hb11); cbn [bind].
have [p -> hp] := has_mul (has_map (fun x : C => 'Re x) ha12) (has_map (fun x : C => 'Re x) hb12); cbn [bind].
have [q -> hq] := has_mul (has_map (fun x : C => 'Im x) ha12) (has_map (fun x : C => 'Im x) hb12); cbn [bind].
have [rr -> hrr] := has_add hp hq; cbn [bind].
by have [b0 -> hb0] := has_add hab hba; cbn [bind]; have [b -> hb] := has_sub hb0 (has_map ( *%R 2%:R) hrr); exists b.
Qed.
Lemma g_det_at r b11 b12 b22 (B : seq nat -> 'M[C]_2) :
  has r b11 (fun i => B i i0 i0) -> has r b12 (fun i => B i i0 i1) -> has r b22 (fun i => B i i1 i1) ->
  exists2 d, t_det b11 b12 b22 = Ok d & has r d (fun i => g_dB (B i)).
Proof.
move=> hb11 hb12 hb22; rewrite /t_det.
have [p -> hp] := has_mul (has_map (fun x : C => 'Re x) hb11) (has_map (fun x : C => 'Re x) hb22); cbn [bind].
by have [d -> hd] := has_sub hp (has_map (@mag_sq C) hb12); exists d.
Qed.
Lemma has_eq r t g h : (forall i, inr r i -> g i = h i) -> has r t g -> has r t h.
Proof. by move=> e [s1 h1]; split=> // i hi; rewrite h1 // e. Qed.
(* ---- eigh_2x2: eigenvalues and eigenvectors at each index *)
Definition pairs n r (p : tensor * tensor) (g : seq nat -> ('I_n -> C) * 'M[C]_n) : Prop :=
  [/\ sh p.1 = n :: r, sh p.2 = [:: n, n & r] & forall b, inr r b -> (forall k : 'I_n, at_ p.1 (nat_of_ord k :: b) = (g b).1 k) /\ mat n n p.2 b = (g b).2].
Lemma norm2_at r V g eps : mats r V g -> exists2 sq, tsum_keep 1 (tmap (@mag_sq C) V) = Ok sq & exists2 V', tdivide V (tmap sqrtC sq) eps = Ok V' &
  mats r V' (fun b => normalize_cols (g b) eps).
Proof.
move=> hV; have [sq e0 [ss es]] := mats_norm (@mag_sq C) hV; exists sq => //.
have es2 b (k : 'I_2) : inr r b -> at_ (tmap sqrtC sq) [:: nat_of_ord k, 0%N & b] = sqrtC (mag_sq (g b i0 k) + mag_sq (g b i1 k)).
  by move=> hb; rewrite /tmap /=; rewrite (es b k hb) big_ord_recl big_ord1.
have [V' e hV'] := @mats_col 2 2 r V g (tmap sqrtC sq) (fun x y => divide x y eps) _ hV ss es2.
by exists V'.
Qed.
Lemma rows_eq a r t g h : (forall k b, (k < a)%N -> inr r b -> g k b = h k b) -> rows a r t g -> rows a r t h.
Proof. by move=> e [st et]; split=> // k i hk hi; rewrite et // e. Qed.
Lemma rows_two r t g h : rows 2 r t (fun x i => if x == 1%N then h i else if x == 0%N then g i else 0) -> rows 2 r t (fun k b => if k == 0%N then g b else h b).
Proof. by apply: rows_eq => -[|[|k]]. Qed.
Lemma two_sel0 r t g h : rows 2 r t (fun k i => if k == 0%N then g i else h i) -> exists2 u, select 0 Z0 t = Ok u & has r u g.
Proof. exact: (fun e => rows_sel e (isT : (0 < 2)%N)). Qed.
Lemma two_sel1 r t g h : rows 2 r t (fun k i => if k == 0%N then g i else h i) -> exists2 u, select 0 (Zpos xH) t = Ok u & has r u h.
Proof. exact: (fun e => rows_sel e (isT : (1 < 2)%N)). Qed.
Lemma rows_two_div r t (g h w : seq nat -> C) : rows 2 r t (fun k i => (if k == 0%N then g i else h i) / w i) ->
  rows 2 r t (fun k i => if k == 0%N then g i / w i else h i / w i).
Proof. by apply: rows_eq => -[|[|k]]. Qed.
Lemma fill_cols r V (a b c d : seq nat -> C) :
  mats r V (fun i => \matrix_(x, y) if (x == i0) && (y == i1) then b i else
    (\matrix_(x, y) if (x == i1) && (y == i1) then d i else
     (\matrix_(x, y) if (x == i0) && (y == i0) then a i else
      (\matrix_(x, y) if (x == i1) && (y == i0) then c i else (0 : 'M_2) x y) x y) x y) x y) ->
  mats r V (fun i => mx22 (a i) (b i) (c i) (d i)).
Proof. by apply: mats_eq => i hi; apply: mx22E; rewrite !mxE. Qed.
Lemma fill_rows r V (a b c d : seq nat -> C) :
  mats r V (fun i => \matrix_(x, y) if (x == i1) && (y == i1) then d i else
    (\matrix_(x, y) if (x == i0) && (y == i1) then b i else
     (\matrix_(x, y) if (x == i1) && (y == i0) then c i else
      (\matrix_(x, y) if (x == i0) && (y == i0) then a i else (0 : 'M_2) x y) x y) x y) x y) ->
  mats r V (fun i => mx22 (a i) (b i) (c i) (d i)).
Proof. by apply: mats_eq => i hi; apply: mx22E; rewrite !mxE. Qed.
Lemma pairs_of r ev V (x y : seq nat -> C) g V' eps : rows 2 r ev (fun k b => if k == 0%N then x b else y b) -> mats r V g -> mats r V' (fun b => normalize_cols (g b) eps) ->
  pairs r (ev, V') (fun b => ((fun k : 'I_2 => if k == i0 then x b else y b), normalize_cols (g b) eps)).
Proof.
move=> [se ee] _ [sV eV]; split=> // b hb; split=> [k|]; last exact: eV.
by rewrite ee //= -(inj_eq val_inj).
Qed.
Lemma eigh2_at r A eps : sh A = [:: 2, 2 & r]%N -> exists2 p, t_eigh_2x2 A None eps = Ok p & pairs r p (fun b => eigh_2x2 (mat 2 2 A b) eps).
Proof.
move=> sA; rewrite /t_eigh_2x2; have -> : is22 A by rewrite /is22 sA.
cbn [negb]; rewrite /t_eigh_2x2_raw sA; cbn [behead].
have [a00 -> h00] := has_entry i0 i0 sA; have [a11 -> h11] := has_entry i1 i1 sA.
have [a01 -> h01] := has_entry i0 i1 sA; have [a10 -> h10] := has_entry i1 i0 sA; cbn [bind].
have [tr -> htr] := has_add (has_map (fun x => 'Re x) h00) (has_map (fun x => 'Re x) h11); cbn [bind].
have [dt -> hdt] := g_det_at h00 h01 h11; cbn [bind].
have [de -> hde] := has_sub (has_map (fun x => x ^+ 2) htr) (has_map ( *%R 4%:R) hdt); cbn [bind].
have {}hde := has_map sqrtC (has_map (fun x => clamp x eps) hde).
have [x1 -> hx1] := has_sub htr hde; cbn [bind].
have [e1 -> he1] := rows_asg (rows0 2 r) (has_map ( *%R (1 / 2%:R)) hx1) (isT : (0 < 2)%N); cbn [bind].
have [x2 -> hx2] := has_add htr hde; cbn [bind].
have [e2 -> he2] := rows_asg he1 (has_map ( *%R (1 / 2%:R)) hx2) (isT : (1 < 2)%N); cbn [bind].
have {}he2 := rows_two he2.
have [V1 -> hV1] := mats_asg i1 i0 (mats0 2 2 r) h01; cbn [bind].
have [s1 -> hs1] := two_sel0 he2; cbn [bind].
have [y1 -> hy1] := has_sub hs1 h11; cbn [bind].
have [V2 -> hV2] := mats_asg i0 i0 hV1 hy1; cbn [bind].
have [s2 -> hs2] := two_sel1 he2; cbn [bind].
have [y2 -> hy2] := has_sub hs2 h00; cbn [bind].
have [V3 -> hV3] := mats_asg i1 i1 hV2 hy2; cbn [bind].
have [V4 -> hV4] := mats_asg i0 i1 hV3 h10; cbn [bind].
have {}hV4 := fill_cols hV4.
have [sq -> hq] := norm2_at eps hV4; cbn [bind]; have [V5 -> hV5] := hq; cbn [bind].
eexists; first reflexivity; exact: (pairs_of he2 hV4 hV5).
Qed.
Lemma g_vec_at r s1 s2 a11 a12 b11 b12 (e1 e2 f11 f12 h11 h12 : seq nat -> C) :
  has r s1 e1 -> has r s2 e2 -> has r a11 f11 -> has r a12 f12 -> has r b11 h11 -> has r b12 h12 ->
  exists2 V, t_gev_vectors [:: 2, 2 & r]%N s1 s2 a11 a12 b11 b12 = Ok V & mats r V (fun i => mx22 (e1 i * h12 i - f12 i) (e2 i * h12 i - f12 i)
    (f11 i - e1 i * h11 i) (f11 i - e2 i * h11 i)).
Proof.
move=> hs1 hs2 ha11 ha12 hb11 hb12; rewrite /t_gev_vectors.
have [y1 -> hy1] := has_mul hs1 hb12; cbn [bind]; have [z1 -> hz1] := has_sub hy1 ha12; cbn [bind].
have [V1 -> hV1] := mats_asg i0 i0 (mats0 2 2 r) hz1; cbn [bind].
have [y2 -> hy2] := has_mul hs1 hb11; cbn [bind]; have [z2 -> hz2] := has_sub ha11 hy2; cbn [bind].
have [V2 -> hV2] := mats_asg i1 i0 hV1 hz2; cbn [bind].
have [y3 -> hy3] := has_mul hs2 hb12; cbn [bind]; have [z3 -> hz3] := has_sub hy3 ha12; cbn [bind].
have [V3 -> hV3] := mats_asg i0 i1 hV2 hz3; cbn [bind].
have [y4 -> hy4] := has_mul hs2 hb11; cbn [bind]; have [z4 -> hz4] := has_sub ha11 hy4; cbn [bind].
have [V4 -> hV4] := mats_asg i1 i1 hV3 hz4; exists V4 => //; exact: (fill_rows hV4).
Qed.
Lemma gev_at r A' B' eps : sh A' = [:: 2, 2 & r]%N -> sh B' = [:: 2, 2 & r]%N ->
  exists ev V, [/\ t_gev A' B' eps = Ok (ev, V),
    rows 2 r ev (fun k i => if k == 0%N then g_e1 eps (mat 2 2 A' i) (mat 2 2 B' i) else g_e2 eps (mat 2 2 A' i) (mat 2 2 B' i)) &
    mats r V (fun i => let A := mat 2 2 A' i in let B := mat 2 2 B' i in mx22 (g_e1 eps A B * B i0 i1 - A i0 i1) (g_e2 eps A B * B i0 i1 - A i0 i1)
      (A i0 i0 - g_e1 eps A B * B i0 i0) (A i0 i0 - g_e2 eps A B * B i0 i0))].
Proof.
move=> sA sB; rewrite /t_gev.
have [a11 -> ha11] := has_entry i0 i0 sA; have [a12 -> ha12] := has_entry i0 i1 sA; have [a22 -> ha22] := has_entry i1 i1 sA; cbn [bind].
have [b11 -> hb11] := has_entry i0 i0 sB; have [b12 -> hb12] := has_entry i0 i1 sB; have [b22 -> hb22] := has_entry i1 i1 sB; cbn [bind].
have [b -> hb] := g_b_at ha11 ha12 ha22 hb11 hb12 hb22; cbn [bind].
have [dA -> hdA] := g_det_at ha11 ha12 ha22; have [dB -> hdB] := g_det_at hb11 hb12 hb22; cbn [bind].
have [c -> hc] := has_mul hdA hdB; cbn [bind].
have [de -> hde] := has_sub (has_map (fun x => x ^+ 2) hb) (has_map ( *%R 4%:R) hc); cbn [bind].
have {}hde : has r (tmap sqrtC (tmap (fun x => clamp x eps) de)) (fun i => g_s eps (mat 2 2 A' i) (mat 2 2 B' i)).
  exact: (has_map sqrtC (has_map (fun x => clamp x eps) hde)).
move: (tmap sqrtC _) hde => ds hde; rewrite sA; cbn [behead].
have [x1 -> hx1] := has_sub hb hde; cbn [bind].
have [e1 -> he1] := rows_asg (rows0 2 r) (has_map ( *%R (1 / 2%:R)) hx1) (isT : (0 < 2)%N); cbn [bind].
have [x2 -> hx2] := has_add hb hde; cbn [bind].
have [e2 -> he2] := rows_asg he1 (has_map ( *%R (1 / 2%:R)) hx2) (isT : (1 < 2)%N); cbn [bind].
have {}he2 := rows_two he2.
have [d -> hd] := rows_divc (fun x => clamp x eps) he2 hdB; cbn [bind]; have [ev -> hev0] := hd; cbn [bind].
have hev : rows 2 r ev (fun k i => if k == 0%N then g_e1 eps (mat 2 2 A' i) (mat 2 2 B' i) else g_e2 eps (mat 2 2 A' i) (mat 2 2 B' i)).
  exact: (rows_two_div hev0).
clear hev0 hd he2 he1 hde hc.
have [s1 -> hs1] := two_sel0 hev; have [s2 -> hs2] := two_sel1 hev; cbn [bind].
have [V4 -> hV4] := g_vec_at hs1 hs2 ha11 ha12 hb11 hb12; cbn [bind].
exists ev, V4; by split.
Qed.
Lemma geigh2_at r A B eps : sh A = [:: 2, 2 & r]%N -> sh B = [:: 2, 2 & r]%N ->
  exists2 p, t_eigh_2x2 A (Some B) eps = Ok p & pairs r p (fun b => geigh_2x2 (mat 2 2 A b) (mat 2 2 B b) eps).
Proof.
move=> sA sB; rewrite /t_eigh_2x2; have -> : is22 A by rewrite /is22 sA.
have -> : is22 B by rewrite /is22 sB.
cbn [negb]; rewrite /t_geigh_2x2_raw sA sB bcastss; cbn [bind].
rewrite (broadcast_same sA) (broadcast_same sB); cbn [bind].
move EA : (mkT _ (fun i => at_ A _)) => A'; move EB : (mkT _ (fun i => at_ B _)) => B'.
have cl i (x y : 'I_2) : inr r i -> clip [:: 2, 2 & r]%N [:: nat_of_ord x, nat_of_ord y & i] = [:: nat_of_ord x, nat_of_ord y & i].
  by move=> hi; rewrite clip_id //= !ltn_ord.
have mA i : inr r i -> mat 2 2 A' i = mat 2 2 A i by move=> hi; apply/matrixP => x y; rewrite -EA !mxE; cbn [at_]; rewrite cl.
have mB i : inr r i -> mat 2 2 B' i = mat 2 2 B i by move=> hi; apply/matrixP => x y; rewrite -EB !mxE; cbn [at_]; rewrite cl.
have {}sA : sh A' = [:: 2, 2 & r]%N by rewrite -EA.
have {}sB : sh B' = [:: 2, 2 & r]%N by rewrite -EB.
clear EA EB.
have [ev [V4 [-> hev hV4]]] := gev_at eps sA sB; cbn [bind].
have [sq -> hn] := norm2_at eps hV4; cbn [bind]; have [V5 -> hV5] := hn; cbn [bind].
eexists; first reflexivity.
have [t1 t2 t3] := pairs_of hev hV4 hV5; split; [exact: t1|exact: t2|move=> i hi].
rewrite -(mA i hi) -(mB i hi) geigh_2x2E; exact (t3 i hi).
Qed.

(* ---- torch.linalg.eigh and the generalised problem *)
Variable eighO : forall n, eigh_oracle C n.
Lemma wrapper_at n r V : sh V = [:: n, n & r] -> exists2 p, t_eigh_wrapper eighO V = Ok p & pairs r p (fun b => eighO (mat n n V b)).
Proof.
move=> sV; rewrite /t_eigh_wrapper sV eqxx; eexists; first reflexivity.
split=> // b hb; split=> [k|]; cbn [at_ fst snd]; first by rewrite valK.
by apply/matrixP => i j; rewrite [LHS]mxE; cbn [at_]; rewrite getE.
Qed.
Lemma herm_at m n r A : sh A = [:: n, m & r] -> exists2 H, hermite A = Ok H & mats r H (fun b => LinalgModel.hermite (mat m n A b)).
Proof.
move=> sA; rewrite /hermite; have [T [-> sT eT]] := transpose10 sA; cbn [bind]; eexists; first reflexivity.
by split=> // b hb; apply/matrixP => i j; rewrite !mxE; cbn [tmap at_]; rewrite eT.
Qed.
Lemma mmul_at m n q r A B f g : mats r A (f : seq nat -> 'M[C]_(m, n)) -> mats r B (g : seq nat -> 'M[C]_(n, q)) ->
  exists2 D, matmul A B = Ok D & mats r D (fun b => f b *m g b).
Proof.
by move=> [sA eA] [sB eB]; have [D [-> sD eD]] := matmulE sA sB; exists D => //; split=> // b hb; rewrite eD // eA // eB.
Qed.
Lemma geighn_at n r A B : n <> 2%N -> sh A = [:: n, n & r] -> sh B = [:: n, n & r] ->
  exists2 p, t_eigh eighO A (Some B) = Ok p & pairs r p (fun b => geigh_n (@eighO n) (mat n n A b) (mat n n B b)).
Proof.
move=> n2 sA sB; rewrite /t_eigh sA sB; cbn [TorchShape.size List.nth_error bind].
have -> : (n == 2%N) = false by apply/eqP.
rewrite seqbss; cbn [negb].
have [[bv bV] -> [sv sV eV]] := wrapper_at sB; cbn [bind fst snd] in sv, sV, eV |- *.
have l0 t : (0 <= size (sh t))%N by [].
rewrite (unsqE (l0 _)); cbn [bind]; have [H -> [sH eH]] := herm_at sV; cbn [bind].
set s := mkT _ _; have ss : sh (tmap (fun x => x^-1) s) = [:: 1, n & r]%N by rewrite /= sv.
have [M eM [sM eMM]] : exists2 M, tmul (tmap (fun x => x^-1) s) H = Ok M & mats r M (fun b => \matrix_(i, j)
    ((sqrtC (clamp ((eighO (mat n n B b)).1 i) (10%:R ^- 5)))^-1 * LinalgModel.hermite (eighO (mat n n B b)).2 i j)).
  rewrite /tmul (@tzipE C _ _ H [:: n, n & r]); last first.
    by rewrite ss sH; cbn [TorchShape.bcast]; rewrite bc2nn bc21n; cbn [bind]; rewrite bcastss.
  eexists; first reflexivity; split=> // b hb; apply/matrixP => i j; rewrite [LHS]mxE [RHS]mxE; cbn [at_].
  have [e1 e2] := eV b hb.
  rewrite ss sH /clip -/clip clip_id // !clip1 -[at_ H _]/(at_ H [:: nat_of_ord j, nat_of_ord i & b]) -(matE H b i j) eH // e2; congr (_ * _).
  by rewrite -e1.
rewrite eM; cbn [bind].
have hV : mats r bV (fun b => (eighO (mat n n B b)).2) by split=> // b hb; case: (eV b hb).
have [S -> hS] := mmul_at hV (conj sM eMM : mats r M _); cbn [bind].
have [Sh -> [sSh eSh]] := herm_at (proj1 hS); cbn [bind].
have hSh : mats r Sh (fun b => LinalgModel.hermite ((eighO (mat n n B b)).2 *m
   (\matrix_(i, j) ((sqrtC (clamp ((eighO (mat n n B b)).1 i) (10%:R ^- 5)))^-1 * LinalgModel.hermite (eighO (mat n n B b)).2 i j)))).
  by split=> // b hb; rewrite eSh // (proj2 hS b hb).
have [L1 -> hL1] := mmul_at hS (conj sA (fun _ _ => erefl) : mats r A (mat n n A)); cbn [bind].
have [L -> hL] := mmul_at hL1 hSh; cbn [bind].
have [[ev U] -> [se sU eU]] := wrapper_at (proj1 hL); cbn [bind fst snd] in se, sU, eU |- *.
have hU : mats r U (fun b => (eighO (mat n n L b)).2) by split=> // b hb; case: (eU b hb).
have [V -> hVV] := mmul_at hSh hU; cbn [bind].
rewrite /tnorm_keep; have [no -> [sn en]] := mats_norm (fun x => `|x| ^+ 2) hVV; cbn [bind].
have [V' e hV'] := @mats_col n n r V _ (tmap (fun x => clamp x (10%:R ^- 5)) (tmap sqrtC no)) (fun x y => x / y)
  (fun b k => clamp (sqrtC (\sum_(i < n) `|(LinalgModel.hermite ((eighO (mat n n B b)).2 *m
   (\matrix_(i, j) ((sqrtC (clamp ((eighO (mat n n B b)).1 i) (10%:R ^- 5)))^-1 * LinalgModel.hermite (eighO (mat n n B b)).2 i j))) *m
   (eighO (mat n n L b)).2) i k| ^+ 2)) (10%:R ^- 5)) hVV sn (fun b k hb => congr1 (fun x => clamp (sqrtC x) (10%:R ^- 5)) (en b k hb)).
rewrite /tdiv e; cbn [bind]; eexists; first reflexivity.
split; [exact: se|exact: (proj1 hV')|move=> b hb].
have [e1 e2] := eU b hb; have eL := proj2 hL b hb.
rewrite /geigh_n; case EB: (eighO (mat n n B b)) eL => [B1 B2]; cbn [fst snd] => eL; case EL: (eighO _) => [ev0 U0].
have {}eL : eighO (mat n n L b) = (ev0, U0) by rewrite eL.
split; first by move=> k; rewrite e1 eL.
by rewrite (proj2 hV' b hb); cbn [snd]; rewrite EB eL.
Qed.
(* eigh on a batch is LinalgModel.eigh and geigh on every matrix *)
Lemma eigh_at n r A : sh A = [:: n, n & r] -> exists2 p, t_eigh eighO A None = Ok p & pairs r p (fun b => eigh eighO (mat n n A b)).
Proof.
move=> sA; rewrite /t_eigh sA; cbn [TorchShape.size List.nth_error bind]; case: (n =P 2%N) => [n2|n2].
  by subst n; exact: eigh2_at.
by have [p -> h] := wrapper_at sA; exists p => //; move: n n2 sA h => [|[|[|n]]].
Qed.
Lemma geigh_at n r A B : sh A = [:: n, n & r] -> sh B = [:: n, n & r] ->
  exists2 p, t_eigh eighO A (Some B) = Ok p & pairs r p (fun b => geigh eighO (mat n n A b) (mat n n B b)).
Proof.
move=> sA sB; case: (n =P 2%N) => [n2|n2].
  by subst n; rewrite /t_eigh sA; cbn [TorchShape.size List.nth_error bind]; rewrite eqxx; exact: geigh2_at.
by have [p -> h] := geighn_at n2 sA sB; exists p => //; move: n n2 sA sB h => [|[|[|n]]].
Qed.
End Pw.
