From mathcomp Require Import all_ssreflect all_fingroup all_algebra.
From Verif Require Import Py UtilModel UtilSpec.
Set Implicit Arguments. Unset Strict Implicit. Unset Printing Implicit Defensive.
Import GRing.Theory Num.Theory Order.TTheory.
Local Open Scope ring_scope.

Section Select.
Variables (C : numClosedFieldType) (B : Type) (nC nN : nat).
Variable argsort : B -> ('I_nC -> C) -> {perm 'I_nC}.
Lemma powerE (x : 'M[C]_(nC, nN)) c : power x c = energy (row c x) / nN%:R.
Proof. by congr (_ / _); apply: eq_bigr => n _; rewrite mxE normCK. Qed.
Lemma energy_ge0 (x : 'rV[C]_nN) : 0 <= energy x.
Proof. by apply: sumr_ge0 => n _; rewrite -normCK exprn_ge0. Qed.
Lemma power_real (x : 'M[C]_(nC, nN)) c : power x c \is Num.real.
Proof. by apply: ger0_real; rewrite powerE divr_ge0 ?energy_ge0 ?ler0n. Qed.
Lemma power_le (x : 'M[C]_(nC, nN)) c d : (0 < nN)%N -> (power x c <= power x d) = (energy (row c x) <= energy (row d x)).
Proof. by move=> n0; rewrite !powerE ler_pmul2r // invr_gt0 ltr0n. Qed.
Lemma select_lemma (x : B -> 'M[C]_(nC, nN)) (num : int) b : (0 < nN)%N -> sorts_descending (argsort b) ->
  exists sel : 'I_(prefix_len nC num) -> 'I_nC,
   [/\ injective sel,
       forall j, row j (select_most_energetic argsort x num b) = row (sel j) (x b),
       forall i j : 'I_(prefix_len nC num), (i <= j)%N -> energy (row (sel j) (x b)) <= energy (row (sel i) (x b)) &
       forall c j, (forall i, sel i != c) -> energy (row c (x b)) <= energy (row (sel j) (x b))].
Proof.
move=> n0 srt; pose s := argsort b (power (x b)); exists (fun j => s (widen_ord (prefix_le nC num) j)); split.
- by move=> i j /perm_inj/(congr1 val)/= e; apply: val_inj.
- by move=> j; apply/rowP=> n; rewrite !mxE.
- by move=> i j ij; rewrite -power_le //; apply: (srt _ (@power_real _)).
- move=> c j nc; rewrite -power_le // -[c](permKV s); apply: (srt _ (@power_real _)) => /=.
  rewrite leqNgt; apply/negP=> h.
  have h' : (s^-1%g c < prefix_len nC num)%N by rewrite (ltn_trans h).
  move: (nc (Ordinal h')); rewrite (_ : widen_ord _ _ = s^-1%g c) ?permKV ?eqxx //.
  exact: val_inj.
Qed.
End Select.

Lemma dt_lemma : [/\ forall d c, dtype_f2cpx (DType d) = Ok c -> dtype_f2cpx (DType c) = Ok c /\ is_complex_type (DType c),
  forall d r, dtype_cpx2f (DType d) = Ok r -> dtype_cpx2f (DType r) = Ok r /\ ~~ is_complex_type (DType r),
  forall d c, dtype_f2cpx (DType d) = Ok c -> dtype_cpx2f (DType c) = dtype_cpx2f (DType d) &
  forall d r, dtype_cpx2f (DType d) = Ok r -> dtype_f2cpx (DType r) = dtype_f2cpx (DType d)].
Proof. by split=> -[] //= c [<-]. Qed.
Lemma dt_tensor d : [/\ is_complex_type (DTensor d) = is_complex_type (DType d),
  dtype_f2cpx (DTensor d) = dtype_f2cpx (DType d) & dtype_cpx2f (DTensor d) = dtype_cpx2f (DType d)].
Proof. by []. Qed.
Lemma dt_bad d : (exists c, dtype_f2cpx (DType d) = Ok c) <-> d = float32 \/ d = float64 \/ d = complex64 \/ d = complex128.
Proof. by split; [case=> c; case: d => //= _; tauto | case=> [->|[->|[->|->]]] /=; eexists]. Qed.
Lemma dt_bad2 d : dtype_f2cpx (DType d) = Err AssertionError /\ dtype_cpx2f (DType d) = Err AssertionError
  <-> ~ (d = float32 \/ d = float64 \/ d = complex64 \/ d = complex128).
Proof. by split; [case: d => //=; case=> // _ _; intuition | case: d => h //=; exfalso; apply: h; tauto]. Qed.
Lemma count_lemma nC (num : int) :
  (0 <= num -> prefix_len nC num = minn `|num|%N nC) /\ (num < 0 -> prefix_len nC num = (nC - `|num|%N)%N).
Proof. by case: num. Qed.
Lemma two_sort (C : numClosedFieldType) :
  sorts_descending (fun p : 'I_2 -> C => if p ord_max <= p ord0 then 1%g else tperm ord0 ord_max).
Proof.
move=> p pr i j.
have o2 (k : 'I_2) : k = ord0 \/ k = ord_max by case: k => -[|[|//]] h; [left|right]; apply: val_inj.
case: (boolP (p ord_max <= p ord0)) => h; case: (o2 i) => ->; case: (o2 j) => ->; rewrite ?perm1 ?tpermL ?tpermR // => _.
by move: h; rewrite -real_ltNge ?pr // => /ltW.
Qed.
Lemma dt_bits d : (forall c, dtype_f2cpx (DType d) = Ok c -> bits c = bits d) /\
  (forall r, dtype_cpx2f (DType d) = Ok r -> bits r = bits d).
Proof. by split; case: d => //= c [<-]. Qed.
