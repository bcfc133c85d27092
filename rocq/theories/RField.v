(* The standard library's real numbers as a MathComp real closed field, so that the
   theorems over an arbitrary numClosedFieldType can be read over the usual complex
   numbers R[i].  Uses the axioms of Coq.Reals, Epsilon and functional extensionality. *)
From Coq Require Import Reals Epsilon FunctionalExtensionality Lra Psatz.
From mathcomp Require Import all_ssreflect all_algebra.
Set Implicit Arguments. Unset Strict Implicit. Unset Printing Implicit Defensive.
Import GRing.Theory.
Local Open Scope R_scope.

Definition eqr (x y : R) : bool := if Req_EM_T x y is left _ then true else false.
Lemma eqrP : Equality.axiom eqr.
Proof. by move=> x y; rewrite /eqr; case: Req_EM_T => h; constructor. Qed.
Definition R_eqMixin := EqMixin eqrP.
Canonical R_eqType := Eval hnf in EqType R R_eqMixin.

Definition pickR (P : pred R) (_ : nat) : option R :=
  let x := epsilon (inhabits R0) (fun x => P x = true) in if P x then Some x else None.
Fact pickR_some P n x : pickR P n = Some x -> P x.
Proof. by rewrite /pickR; case: (boolP (P _)) => // h [<-]. Qed.
Fact pickR_ex (P : pred R) : (exists x, P x) -> exists n, pickR P n.
Proof.
by move=> h; exists 0%N; rewrite /pickR (epsilon_spec (inhabits R0) (fun x => P x = true) h).
Qed.
Fact pickR_ext (P Q : pred R) : P =1 Q -> pickR P =1 pickR Q.
Proof. by move=> h n; have -> : P = Q by apply: functional_extensionality. Qed.
Definition R_choiceMixin : choiceMixin R := Choice.Mixin pickR_some pickR_ex pickR_ext.
Canonical R_choiceType := Eval hnf in ChoiceType R R_choiceMixin.

Fact RplusA : associative Rplus. Proof. by move=> x y z; lra. Qed.
Fact Rplus0 : left_id R0 Rplus. Proof. by move=> x; lra. Qed.
Fact RplusN : left_inverse R0 Ropp Rplus. Proof. by move=> x; lra. Qed.
Definition R_zmodMixin := ZmodMixin RplusA Rplus_comm Rplus0 RplusN.
Canonical R_zmodType := Eval hnf in ZmodType R R_zmodMixin.
Fact RmultA : associative Rmult. Proof. by move=> x y z; ring. Qed.
Fact R1n0 : R1 != R0. Proof. by apply/eqP; lra. Qed.
Fact RmultDl : left_distributive Rmult Rplus. Proof. by move=> x y z; ring. Qed.
Definition R_ringMixin := ComRingMixin RmultA Rmult_comm Rmult_1_l RmultDl R1n0.
Canonical R_ringType := Eval hnf in RingType R R_ringMixin.
Canonical R_comRingType := Eval hnf in ComRingType R Rmult_comm.

Definition Rinvx (x : R) := if x == R0 then R0 else / x.
Fact Rmulx x : x != R0 -> Rinvx x * x = R1.
Proof. by move=> h; rewrite /Rinvx (negbTE h); field; apply/eqP. Qed.
Fact Rinv00 : Rinvx R0 = R0. Proof. by rewrite /Rinvx eqxx. Qed.
Definition R_unitMixin := FieldUnitMixin Rmulx Rinv00.
Canonical R_unitRingType := Eval hnf in UnitRingType R R_unitMixin.
Canonical R_comUnitRingType := Eval hnf in [comUnitRingType of R].
Lemma R_fieldMixin : GRing.Field.mixin_of [unitRingType of R].
Proof. by []. Qed.
Canonical R_idomainType := Eval hnf in IdomainType R (FieldIdomainMixin R_fieldMixin).
Canonical R_fieldType := Eval hnf in FieldType R R_fieldMixin.

Definition Rleb (x y : R) : bool := if Rle_dec x y is left _ then true else false.
Definition Rltb (x y : R) : bool := if Rlt_dec x y is left _ then true else false.
Lemma RlebP x y : reflect (x <= y) (Rleb x y).
Proof. by rewrite /Rleb; case: Rle_dec => h; constructor. Qed.
Lemma RltbP x y : reflect (x < y) (Rltb x y).
Proof. by rewrite /Rltb; case: Rlt_dec => h; constructor. Qed.
Fact le_add x y : Rleb R0 x -> Rleb R0 y -> Rleb R0 (x + y).
Proof. by move=> /RlebP h1 /RlebP h2; apply/RlebP; lra. Qed.
Fact le_mul x y : Rleb R0 x -> Rleb R0 y -> Rleb R0 (x * y).
Proof. by move=> /RlebP h1 /RlebP h2; apply/RlebP; apply: Rmult_le_pos. Qed.
Fact le_anti x : Rleb R0 x -> Rleb x R0 -> x = R0.
Proof. by move=> /RlebP h1 /RlebP h2; lra. Qed.
Fact le_sub x y : Rleb R0 (y - x) = Rleb x y.
Proof. by apply/RlebP/RlebP; lra. Qed.
Fact le_tot x : Rleb R0 x || Rleb x R0.
Proof. by case: (RlebP R0 x) => //= h; apply/RlebP; lra. Qed.
Fact normN x : Rabs (- x) = Rabs x. Proof. exact: Rabs_Ropp. Qed.
Fact norm_ge x : Rleb R0 x -> Rabs x = x.
Proof. by move/RlebP => h; apply: Rabs_pos_eq. Qed.
Fact lt_def x y : Rltb x y = (y != x) && Rleb x y.
Proof.
apply/RltbP/andP => [h|[/eqP h /RlebP h2]]; last by lra.
by split; [apply/eqP; lra | apply/RlebP; lra].
Qed.
Definition R_leMixin := RealLeMixin le_add le_mul le_anti le_sub le_tot normN norm_ge lt_def.
Canonical R_porderType := Eval hnf in POrderType ring_display R R_leMixin.
Canonical R_latticeType := Eval hnf in LatticeType R R_leMixin.
Canonical R_distrLatticeType := Eval hnf in DistrLatticeType R R_leMixin.
Canonical R_orderType := Eval hnf in OrderType R R_leMixin.
Canonical R_numDomainType := Eval hnf in NumDomainType R R_leMixin.
Canonical R_normedZmodType := Eval hnf in NormedZmodType R R R_leMixin.
Canonical R_numFieldType := Eval hnf in [numFieldType of R].
Canonical R_realDomainType := Eval hnf in [realDomainType of R].
Canonical R_realFieldType := Eval hnf in [realFieldType of R].

Lemma horner_cont (p : {poly R}) : continuity (fun x => p.[x]%R).
Proof.
elim/poly_ind: p => [|p c ih].
  have -> : (fun x => (0 : {poly R}).[x]%R) = (fun=> R0).
    by apply: functional_extensionality => z; rewrite horner0.
  by move=> x; apply: continuity_pt_const.
have -> : (fun x => (p * 'X + c%:P).[x]%R) = (fun z => p.[z]%R * z + c).
  by apply: functional_extensionality => z; rewrite hornerMXaddC.
move=> x; apply: (@continuity_pt_plus (fun z => p.[z]%R * z) (fun=> c)); last exact: continuity_pt_const.
apply: (@continuity_pt_mult (fun z => p.[z]%R) id); first exact: ih.
by apply: derivable_continuous_pt; apply: derivable_pt_id.
Qed.
Lemma R_closed : Num.real_closed_axiom [numDomainType of R].
Proof.
move=> p a b ab /andP [pa pb].
have cp := horner_cont p.
have ab' : a <= b by apply/RlebP.
have pa' : p.[a]%R <= 0 by apply/RlebP.
have pb' : 0 <= p.[b]%R by apply/RlebP.
have [|z [[h1 h2] h3]] := @IVT_cor (fun x => p.[x]%R) a b cp ab'; first by nra.
by exists z; [apply/andP; split; apply/RlebP | apply/rootP].
Qed.
Canonical R_rcfType := Eval hnf in RcfType R R_closed.
