(* Norm of the eigenvectors of the closed-form 2x2 routine (C11). *)
From mathcomp Require Import all_ssreflect all_algebra.
From Verif Require Import CAlg Py LinalgModel LinalgSpec LinalgProofs LinalgBridge.
Set Implicit Arguments. Unset Strict Implicit. Unset Printing Implicit Defensive.
Import GRing.Theory Num.Theory Order.TTheory.
Local Open Scope ring_scope.

Section Unit.
Variable C : numClosedFieldType.
Lemma c11_unit (A B : 'M[C]_2) (eps : C) (k : 'I_2) :
  herm A -> pd B -> 0 <= eps -> eps <= \det B -> eps <= pencil_disc A B ->
  let r := (A - (geigh_2x2 A B eps).1 k *: B) *m e1 C in
  r != 0 -> eps ^+ 2 <= \sum_i `|r i 0| ^+ 2 -> \sum_i `|(geigh_2x2 A B eps).2 i k| ^+ 2 = 1.
Proof.
rewrite detE pencil_discE => hA hB e0 dB de; have [hB' _] := hB.
have [ev [V [h [h1 h2 h3 h4]]]] := geigh_2x2_main hA hB' e0 (pd_det2 hB) dB de.
rewrite h /= => r0 he; have [c c0 [hc [c1 [c2 c3]]]] := h4 k.
have rE i : ((A - ev k *: B) *m e1 C) i 0 = A i i0 - ev k * B i i0.
  by rewrite /e1 (_ : ord0 = i0) // -colE !mxE.
have nE : nrm2 (gvec A B (ev k)) = \sum_i `|((A - ev k *: B) *m e1 C) i 0| ^+ 2.
  rewrite /nrm2 !sum2 !rE !mxE /= addrC; congr (_ + _ ^+ 2).
  rewrite -opprB normrN -norm_conjC rmorphB rmorphM (CrealP (h1 k)).
  by rewrite (herm_off i0 i1 hA) (herm_off i0 i1 hB').
have -> : \sum_i `|V i k| ^+ 2 = nrm2 (col k V) by apply: eq_bigr => i _; rewrite mxE.
apply: c3.
  apply/eqP=> g0; case/eqP: r0; rewrite mulmxBl -scalemxAl; apply/eqP; rewrite subr_eq0; apply/eqP.
  exact: (proj1 (gvec0_iff hA hB' (h1 k)) g0).
have n0 : 0 <= nrm2 (gvec A B (ev k)) by exact: nrm2_ge0.
by rewrite -(@ler_pexpn2r _ 2) ?nnegrE ?sqrtC_ge0 // sqrtCK nE.
Qed.
End Unit.
