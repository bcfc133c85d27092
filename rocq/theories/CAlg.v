(* Exact complex linear algebra used by the numeric tier: a ring/field tactic
   for abstract fields, conjugate transposes, quadratic forms, positive
   (semi)definite matrices, completing the square.
   Nothing in this file models torchiva code; it is plain mathematics. *)
From Coq Require Import Ring Field.
From mathcomp Require Import all_ssreflect all_algebra.
Set Implicit Arguments. Unset Strict Implicit. Unset Printing Implicit Defensive.
Import GRing.Theory Num.Theory Order.TTheory.
Local Open Scope ring_scope.

(* ---------------------------------------------------------------------- *)
(* ring / field on an abstract field                                       *)
Section FieldReify.
Variable C : fieldType.
Definition fsort : Type := C.
Definition fzero : fsort := (0 : C).
Definition fone : fsort := (1 : C).
Definition fadd (x y : fsort) : fsort := (x : C) + (y : C).
Definition fmul (x y : fsort) : fsort := (x : C) * (y : C).
Definition fsub (x y : fsort) : fsort := (x : C) - (y : C).
Definition fopp (x : fsort) : fsort := - (x : C).
Definition finv (x : fsort) : fsort := (x : C)^-1.
Definition fdiv (x y : fsort) : fsort := (x : C) / (y : C).
Lemma f_rt : ring_theory fzero fone fadd fmul fsub fopp (@eq fsort).
Proof.
split=> //=; [exact: add0r|exact: addrC|exact: addrA|exact: mul1r|exact: mulrC
             |exact: mulrA|exact: mulrDl|exact: subrr].
Qed.
Lemma f_ft : field_theory fzero fone fadd fmul fsub fopp fdiv finv (@eq fsort).
Proof.
split=> //=; [exact: f_rt
  |move=> /eqP h; move: (oner_eq0 C); rewrite /fone /fzero in h; by rewrite h
  |by move=> x /eqP h; rewrite /fmul mulVf].
Qed.
End FieldReify.

Ltac fnorm F :=
  repeat match goal with
  | |- context [@GRing.add _ ?x ?y] => change (@GRing.add _ x y) with (@fadd F x y)
  | |- context [@GRing.mul _ ?x ?y] => change (@GRing.mul _ x y) with (@fmul F x y)
  | |- context [@GRing.opp _ ?x] => change (@GRing.opp _ x) with (@fopp F x)
  | |- context [@GRing.inv _ ?x] => change (@GRing.inv _ x) with (@finv F x)
  | |- context [@GRing.one _] => change (@GRing.one _) with (fone F)
  | |- context [@GRing.zero _] => change (@GRing.zero _) with (fzero F)
  end;
  match goal with |- @eq _ ?a ?b => change (@eq (fsort F) a b) | _ => idtac end.
(* give every maximal non-arithmetic subterm one name, up to conversion *)
Ltac fatoms_term t :=
  lazymatch t with
  | @fadd _ ?x ?y => fatoms_term x; fatoms_term y
  | @fmul _ ?x ?y => fatoms_term x; fatoms_term y
  | @fopp _ ?x => fatoms_term x
  | @finv _ ?x => fatoms_term x
  | fone _ => idtac
  | fzero _ => idtac
  | _ => first [is_var t | let v := fresh "atm" in try (set v := t)]
  end.
Ltac fatoms :=
  match goal with |- @eq _ ?a ?b => fatoms_term a; fatoms_term b | _ => idtac end.
Ltac fpre := rewrite ?exprS ?expr0 ?mulrS ?mulr0n.

(* ---------------------------------------------------------------------- *)
Section Herm.
Variable C : numClosedFieldType.
Implicit Types (m n p : nat).
Add Field CfieldHerm : (f_ft C).
Ltac cring := fpre; fnorm C; fatoms; ring.

(* entries of sums, differences, scalings (without unfolding products) *)
Lemma mxDE m n (A B : 'M[C]_(m,n)) i j : (A + B) i j = A i j + B i j.
Proof. by rewrite mxE. Qed.
Lemma mxNE m n (A : 'M[C]_(m,n)) i j : (- A) i j = - A i j.
Proof. by rewrite mxE. Qed.
Lemma mxBE m n (A B : 'M[C]_(m,n)) i j : (A - B) i j = A i j - B i j.
Proof. by rewrite !mxE. Qed.
Lemma mxZE m n a (A : 'M[C]_(m,n)) i j : (a *: A) i j = a * A i j.
Proof. by rewrite mxE. Qed.

Definition ctr m n (A : 'M[C]_(m,n)) : 'M[C]_(n,m) := map_mx conjC A^T.

Lemma ctrE m n (A : 'M[C]_(m,n)) i j : ctr A i j = (A j i)^*.
Proof. by rewrite !mxE. Qed.
Lemma ctrK m n (A : 'M[C]_(m,n)) : ctr (ctr A) = A.
Proof. by apply/matrixP=> i j; rewrite !ctrE conjCK. Qed.
Lemma ctrD m n (A B : 'M[C]_(m,n)) : ctr (A + B) = ctr A + ctr B.
Proof. by apply/matrixP=> i j; rewrite !mxE rmorphD. Qed.
Lemma ctrN m n (A : 'M[C]_(m,n)) : ctr (- A) = - ctr A.
Proof. by apply/matrixP=> i j; rewrite !mxE rmorphN. Qed.
Lemma ctrB m n (A B : 'M[C]_(m,n)) : ctr (A - B) = ctr A - ctr B.
Proof. by rewrite ctrD ctrN. Qed.
Lemma ctrZ m n a (A : 'M[C]_(m,n)) : ctr (a *: A) = a^* *: ctr A.
Proof. by apply/matrixP=> i j; rewrite !mxE rmorphM. Qed.
Lemma ctr0 m n : ctr (0 : 'M[C]_(m,n)) = 0.
Proof. by apply/matrixP=> i j; rewrite !mxE rmorph0. Qed.
Lemma ctrM m n p (A : 'M[C]_(m,n)) (B : 'M[C]_(n,p)) : ctr (A *m B) = ctr B *m ctr A.
Proof.
apply/matrixP=> i j; rewrite !mxE rmorph_sum; apply: eq_bigr => k _.
by rewrite !mxE rmorphM mulrC.
Qed.
Lemma ctr1 n : ctr (1%:M : 'M[C]_n) = 1%:M.
Proof. by apply/matrixP=> i j; rewrite !mxE eq_sym; case: eqP; rewrite ?rmorph1 ?rmorph0. Qed.
Lemma ctr_scalar n (a : C) : ctr (a%:M : 'M[C]_n) = (a^*)%:M.
Proof. by rewrite -scalemx1 ctrZ ctr1 scalemx1. Qed.
Lemma ctr_sum m n (I : Type) (r : seq I) (P : pred I) (F : I -> 'M[C]_(m,n)) :
  ctr (\sum_(i <- r | P i) F i) = \sum_(i <- r | P i) ctr (F i).
Proof. by apply: (big_morph (@ctr m n)); [exact: ctrD|exact: ctr0]. Qed.
Lemma ctr_inj m n : injective (@ctr m n).
Proof. by move=> A B h; rewrite -[A]ctrK h ctrK. Qed.

Lemma ctr_unit n (A : 'M[C]_n) : (ctr A \in unitmx) = (A \in unitmx).
Proof. by rewrite /ctr map_unitmx unitmx_tr. Qed.
Lemma ctr_inv n (A : 'M[C]_n) : ctr (invmx A) = invmx (ctr A).
Proof. by rewrite /ctr trmx_inv map_invmx. Qed.
Lemma det_ctr n (A : 'M[C]_n) : \det (ctr A) = (\det A)^*.
Proof. by rewrite /ctr det_map_mx det_tr. Qed.

(* quadratic form v^H A v and squared norm *)
Definition qf n (A : 'M[C]_n) (v : 'cV[C]_n) : C := (ctr v *m A *m v) 0 0.
Definition nrm2 n (v : 'cV[C]_n) : C := \sum_i `|v i 0| ^+ 2.

Lemma nrm2_ge0 n (v : 'cV[C]_n) : 0 <= nrm2 v.
Proof. by apply: sumr_ge0 => i _; rewrite exprn_ge0. Qed.
Lemma nrm2_eq0 n (v : 'cV[C]_n) : (nrm2 v == 0) = (v == 0).
Proof.
apply/idP/eqP => [|->]; last first.
  by rewrite /nrm2 big1 // => i _; rewrite mxE normr0 expr0n.
rewrite psumr_eq0 => [/allP h|i _]; last by rewrite exprn_ge0.
apply/matrixP=> i j; rewrite ord1 mxE; apply/eqP.
have := h i (mem_index_enum _); by rewrite /= sqrf_eq0 normr_eq0.
Qed.
Lemma nrm2_gt0 n (v : 'cV[C]_n) : (0 < nrm2 v) = (v != 0).
Proof. by rewrite lt_def nrm2_eq0 nrm2_ge0 andbT. Qed.
Lemma nrm2_ctr n (v : 'cV[C]_n) : nrm2 v = (ctr v *m v) 0 0.
Proof. by rewrite mxE; apply: eq_bigr => i _; rewrite ctrE normCK mulrC. Qed.

Lemma qf1 n (v : 'cV[C]_n) : qf 1%:M v = nrm2 v.
Proof. by rewrite /qf mulmx1 nrm2_ctr. Qed.
Lemma qfD n (A B : 'M[C]_n) v : qf (A + B) v = qf A v + qf B v.
Proof. by rewrite /qf mulmxDr mulmxDl mxE. Qed.
Lemma qfZ n a (A : 'M[C]_n) v : qf (a *: A) v = a * qf A v.
Proof. by rewrite /qf -scalemxAr -scalemxAl mxE. Qed.
Lemma qf_scalar n a (v : 'cV[C]_n) : qf a%:M v = a * nrm2 v.
Proof. by rewrite -scalemx1 qfZ qf1. Qed.
Lemma qf0v n (A : 'M[C]_n) : qf A 0 = 0.
Proof. by rewrite /qf mulmx0 mxE. Qed.
Lemma qf_sum n (I : Type) (r : seq I) (P : pred I) (F : I -> 'M[C]_n) v :
  qf (\sum_(i <- r | P i) F i) v = \sum_(i <- r | P i) qf (F i) v.
Proof.
elim/big_rec2: _ => [|i x y _ <-]; last by rewrite qfD.
by rewrite /qf mulmx0 mul0mx mxE.
Qed.
Lemma qf_vZ n (A : 'M[C]_n) a v : qf A (a *: v) = `|a| ^+ 2 * qf A v.
Proof.
by rewrite /qf ctrZ -!scalemxAl -!scalemxAr scalerA mxE normCK [a * _]mulrC.
Qed.

Definition herm n (A : 'M[C]_n) : Prop := ctr A = A.
Definition psd n (A : 'M[C]_n) : Prop := herm A /\ forall v, 0 <= qf A v.
Definition pd n (A : 'M[C]_n) : Prop := herm A /\ forall v, v != 0 -> 0 < qf A v.

Lemma pd_psd n (A : 'M[C]_n) : pd A -> psd A.
Proof.
move=> [h p]; split=> // v; case: (altP (v =P 0)) => [->|/p/ltW //].
by rewrite qf0v.
Qed.
Lemma psd0 n : psd (0 : 'M[C]_n).
Proof. by split; [rewrite /herm ctr0|move=> v; rewrite /qf mulmx0 mul0mx mxE]. Qed.
Lemma psdD n (A B : 'M[C]_n) : psd A -> psd B -> psd (A + B).
Proof.
move=> [hA pA] [hB pB]; split; first by rewrite /herm ctrD hA hB.
by move=> v; rewrite qfD addr_ge0.
Qed.
Lemma psdZ n (a : C) (A : 'M[C]_n) : 0 <= a -> psd A -> psd (a *: A).
Proof.
move=> a0 [hA pA]; split; last by move=> v; rewrite qfZ mulr_ge0.
by rewrite /herm ctrZ hA conj_Creal ?ger0_real.
Qed.
Lemma psd_sum n (I : Type) (r : seq I) (P : pred I) (F : I -> 'M[C]_n) :
  (forall i, P i -> psd (F i)) -> psd (\sum_(i <- r | P i) F i).
Proof. by move=> h; apply: big_rec => [|i x /h]; [exact: psd0|exact: psdD]. Qed.
Lemma psd_gram m n (A : 'M[C]_(m,n)) : psd (ctr A *m A).
Proof.
split; first by rewrite /herm ctrM ctrK.
by move=> v; rewrite /qf mulmxA -mulmxA -ctrM -nrm2_ctr nrm2_ge0.
Qed.
Lemma qf_gram m n (A : 'M[C]_(m,n)) v : qf (ctr A *m A) v = nrm2 (A *m v).
Proof. by rewrite /qf mulmxA -mulmxA -ctrM -nrm2_ctr. Qed.
Lemma psd_outer n (x : 'cV[C]_n) : psd (x *m ctr x).
Proof. by have := psd_gram (ctr x); rewrite ctrK. Qed.
Lemma pd_load n (A : 'M[C]_n) l : psd A -> 0 < l -> pd (A + l%:M).
Proof.
move=> [hA pA] l0; split.
  by rewrite /herm ctrD hA ctr_scalar conj_Creal ?gtr0_real.
move=> v v0; rewrite qfD qf_scalar ltr_paddl // mulr_gt0 // nrm2_gt0 //.
Qed.
Lemma pd_unit n (A : 'M[C]_n) : pd A -> A \in unitmx.
Proof.
move=> [_ p]; rewrite -row_free_unit -kermx_eq0; apply/eqP.
apply/row_matrixP=> i; rewrite row0; set u := row i _.
have hu : u *m A = 0 by apply/sub_kermxP; rewrite /u row_sub.
case: (altP (u =P 0)) => // u0.
have /p : ctr u != 0.
  by apply: contra u0 => /eqP h; rewrite -[u]ctrK h ctr0.
by rewrite /qf ctrK hu mul0mx mxE ltxx.
Qed.

Lemma psd_qf_real n (A : 'M[C]_n) v : psd A -> qf A v \is Num.real.
Proof. by case=> _ /(_ v) /ger0_real. Qed.

Lemma herm_inv n (A : 'M[C]_n) : herm A -> herm (invmx A).
Proof. by rewrite /herm ctr_inv => ->. Qed.
Lemma pd_inv n (A : 'M[C]_n) : pd A -> pd (invmx A).
Proof.
move=> hA; have uA := pd_unit hA; have [h p] := hA; split; first exact: herm_inv.
move=> v v0.
have e : qf (invmx A) v = qf A (invmx A *m v).
  rewrite /qf ctrM (herm_inv h) -!mulmxA; congr ((_ *m _) _ _).
  by rewrite mulKVmx.
rewrite e; apply: p; apply: contra v0 => /eqP h0.
by rewrite -[v](mulKVmx uA) h0 mulmx0.
Qed.

(* sesquilinear form *)
Definition sq n (A : 'M[C]_n) (u v : 'cV[C]_n) : C := (ctr u *m A *m v) 0 0.
Lemma sq_conj n (A : 'M[C]_n) u v : herm A -> (sq A u v)^* = sq A v u.
Proof.
move=> h; have -> : (sq A u v)^* = (ctr (ctr u *m A *m v)) 0 0 by rewrite ctrE.
by rewrite !ctrM h ctrK mulmxA.
Qed.
Lemma qf_add n (A : 'M[C]_n) u v :
  qf A (u + v) = qf A u + sq A u v + sq A v u + qf A v.
Proof.
by rewrite /qf /sq ctrD !mulmxDl !mulmxDr !mxE; cring.
Qed.
Lemma qf_sub n (A : 'M[C]_n) u v :
  qf A (u - v) = qf A u - sq A u v - sq A v u + qf A v.
Proof.
rewrite /qf /sq ctrB !mulmxBl !mulmxBr !mxE; cring.
Qed.

(* Completing the square: x0 solves A x0 = b, A Hermitian. *)
Lemma complete_square n (A : 'M[C]_n) (b x0 x : 'cV[C]_n) :
  herm A -> A *m x0 = b ->
  qf A x - (ctr x *m b) 0 0 - (ctr b *m x) 0 0
  = (qf A x0 - (ctr x0 *m b) 0 0 - (ctr b *m x0) 0 0) + qf A (x - x0).
Proof.
move=> h e; rewrite qf_sub /sq.
have -> : ctr x *m b = ctr x *m A *m x0 by rewrite -e mulmxA.
have -> : ctr b *m x = ctr x0 *m A *m x by rewrite -e ctrM h.
have -> : ctr b *m x0 = ctr x0 *m A *m x0 by rewrite -e ctrM h.
have -> : ctr x0 *m b = ctr x0 *m A *m x0 by rewrite -e mulmxA.
rewrite /qf; cring.
Qed.

(* clamp(x, min=lo) on reals: torch.clamp *)
Definition clamp (x lo : C) : C := if x < lo then lo else x.
Lemma clamp_ge x lo : x \is Num.real -> lo \is Num.real -> lo <= clamp x lo.
Proof.
by move=> rx rl; rewrite /clamp; case: (real_ltP rx rl).
Qed.
Lemma clamp_id x lo : lo <= x -> clamp x lo = x.
Proof. by move=> h; rewrite /clamp; case: ifP => // /lt_geF; rewrite h. Qed.
Lemma clamp_gt0 x lo : x \is Num.real -> 0 < lo -> 0 < clamp x lo.
Proof. by move=> rx l0; apply: lt_le_trans l0 (clamp_ge rx (gtr0_real l0)). Qed.
Lemma clamp_real x lo : x \is Num.real -> lo \is Num.real -> clamp x lo \is Num.real.
Proof. by rewrite /clamp; case: ifP. Qed.
Lemma clamp_geR x lo : x \is Num.real -> lo \is Num.real -> x <= clamp x lo.
Proof. by move=> rx rl; rewrite /clamp; case: (real_ltP rx rl) => // /ltW. Qed.
End Herm.
