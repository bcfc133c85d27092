(* The stopping rule of minimum_distortion looks at the whole batch: what is computed for a
   recording depends on the other recordings. *)
From Coq Require Import String Ascii ZArith Ring Field.
From mathcomp Require Import all_ssreflect all_fingroup all_algebra.
From mathcomp Require Import zify.
From Verif Require TorchShape.
From Verif Require Import CAlg Py Batch LinalgModel LinalgProofs ScalingModel TensorModel TSpec TensorProofs TOpsModel TOpsProofs TScalingModel TScalingSpec TScalingProofs TScalingLoop TScalingRun TScalingBatch.
Set Implicit Arguments. Unset Strict Implicit. Unset Printing Implicit Defensive.
Import GRing.Theory Num.Theory Order.TTheory.
Local Open Scope ring_scope.

Section T.
Variable C : numClosedFieldType.
Variable pw : C -> C -> C.
Hypothesis pw1 : forall x, 0 <= x -> pw x 1 = x.
Add Field stopC : (f_ft C).
Ltac cfield := fpre; fnorm C; fatoms; field.
Definition wt (r c : C) : C := 1 / clamp (2%:R * `|r - c|) (10%:R ^- 5).
Definition stp (r : 'I_3 -> C) (c : C) : C := (\sum_n r n * wt (r n) c) / clamp (\sum_n wt (r n) c) (10%:R ^- 5).
Lemma elem_step (Y : spec C unit_finType 1 1 3) (ref : refs C unit_finType 1 3) cc W : (forall n, Y tt 0 0 0 n = 1) ->
  wf pw 1 None (md_error Y ref cc) = Ok W -> md_min Y ref W (tt, 0, 0) = stp (fun n => ref tt 0 0 n) (cc (tt, 0, 0)).
Proof.
move=> hY; rewrite /wf /lp_norm ltr01 ltr1n /= => -[<-].
have hw n : 1 / clamp (2%:R * pw `|md_error Y ref cc tt 0 0 0 n| (2%:R - 1)) (eps_gmdp C) = wt (ref tt 0 0 n) (cc (tt, 0, 0)).
  by rewrite /wt (_ : 2%:R - 1 = 1) ?pw1 // ?mxE ?hY ?mulr1 // [2%:R]mulr2n addrK.
rewrite /stp ffunE; congr (_ / clamp _ _); apply: eq_bigr => n _; rewrite mxE hw hY ?conjC1 ?normr1 ?expr1n ?mulr1 ?mul1r //.
Qed.
Lemma clamp_big (x e : C) : e <= x -> clamp x e = x.
Proof. by rewrite /clamp => /le_gtF ->. Qed.
Local Notation eps := (10%:R ^- 5 : C).
Lemma eps3 : eps <= 3%:R^-1.
Proof. by rewrite lef_pinv ?posrE ?exprn_gt0 ?ltr0n // -natrX ler_nat. Qed.
Lemma eps_gt0 : 0 < eps. Proof. by rewrite invr_gt0 exprn_gt0 ?ltr0n. Qed.
Definition rA (n : nat) : C := if n == 2%N then 3%:R else 0.
Lemma stpA c : 3%:R^-1 <= c -> c <= 1 -> stp (fun n : 'I_3 => rA n) c = 3%:R * c / (6%:R - c).
Proof.
move=> h1 h2; have c0 : 0 < c by apply: lt_le_trans h1; rewrite invr_gt0 ltr0n.
have d0 : 0 < 3%:R - c by rewrite subr_gt0 (le_lt_trans h2) // ltr1n.
have d6 : 0 < 6%:R - c by rewrite subr_gt0 (le_lt_trans h2) // ltr1n.
have w0 : wt 0 c = 1 / (2%:R * c).
  by rewrite /wt sub0r normrN (ger0_norm (ltW c0)) clamp_big // (le_trans eps3) // (le_trans h1) // ler_pmull // ler1n.
have w3 : wt 3%:R c = 1 / (2%:R * (3%:R - c)).
  rewrite /wt (ger0_norm (ltW d0)) clamp_big // (le_trans eps3) //.
  have : 1 <= 3%:R - c by rewrite ler_subr_addr; apply: (@le_trans _ _ (1 + 1)); [rewrite ler_add2l|rewrite -mulr2n ler_nat].
  move=> h; apply: (@le_trans _ _ 1); first by rewrite invf_le1 ?ltr0n ?ler1n.
  by rewrite (le_trans h) // ler_pmull // ler1n.
have e6 : (6%:R : C) - c = (3%:R - c) + (3%:R - c) + c by rewrite -addrA subrK addrAC -natrD.
have den : 1 / (2%:R * c) + 1 / (2%:R * c) + 1 / (2%:R * (3%:R - c)) = (6%:R - c) / (2%:R * c * (3%:R - c)).
  move: (3%:R - c) d0 e6 => d d0 ->; have t0 : (2%:R : C) != 0 by rewrite pnatr_eq0.
  move: (2%:R : C) t0 (lt0r_neq0 c0) (lt0r_neq0 d0) => t t0 cn dn; by cfield; repeat apply: conj; exact/eqP.
rewrite /stp !big_ord_recr !big_ord0 /= /rA /= w0 w3 !add0r !mul0r !add0r den clamp_big.
  move: (3%:R - c) d0 (6%:R - c) d6 => d d0 s s0; have t0 : (2%:R : C) != 0 by rewrite pnatr_eq0.
  move: (2%:R : C) t0 (3%:R : C) (lt0r_neq0 c0) (lt0r_neq0 d0) (lt0r_neq0 s0) => t t0 r cn dn sn; by cfield; repeat apply: conj; exact/eqP.
rewrite (le_trans eps3) // (le_trans (_ : _ <= 1)) ?invf_le1 ?ltr0n ?ler1n // ler_pdivl_mulr ?mulr_gt0 ?ltr0n // mul1r.
rewrite e6; apply: (@le_trans _ _ (3%:R - c + (3%:R - c))); last by rewrite ler_addl ltW.
have -> : 3%:R - c + (3%:R - c) = 2%:R * (3%:R - c) by rewrite mulr_natl mulr2n.
by rewrite -mulrA ler_pmul2l ?ltr0n // ler_pimull // ltW.
Qed.
Lemma stpB (c : C) : (c == 1) || (c == 100%:R) -> stp (fun=> 100%:R) c = 100%:R.
Proof.
move=> hc; have [w0 wb] : 0 < wt 100%:R c /\ eps <= wt 100%:R c *+ 3.
  case/orP: hc => /eqP ->; rewrite /wt.
    have -> : `|(100%:R : C) - 1| = 99%:R by rewrite -(natrB _ (isT : 1 <= 100)%N) normr_nat.
    have e1 : eps <= 2%:R * 99%:R by rewrite -natrM (le_trans eps3) // (@le_trans _ _ 1) // ?invf_le1 ?ltr0n ?ler1n.
    rewrite clamp_big // divr_gt0 ?ltr01 ?mulr_gt0 ?ltr0n //; split=> //.
    rewrite -natrM div1r; apply: (@le_trans _ _ (2 * 99)%:R^-1); first by rewrite lef_pinv ?posrE ?exprn_gt0 ?ltr0n // -natrX ler_nat.
    by rewrite mulrS ler_addl mulrn_wge0 // invr_ge0 ler0n.
  rewrite subrr normr0 mulr0 /clamp eps_gt0 divr_gt0 ?ltr01 ?eps_gt0 //; split=> //.
  rewrite div1r invrK -natrX -mulrnA; apply: (@le_trans _ _ 1); last by rewrite ler1n.
  by rewrite invf_le1 ?ltr0n ?ler1n.
have e3 (x : C) : x + x + x = x *+ 3 by rewrite !mulrS mulr0n addr0 addrA.
rewrite /stp !big_ord_recr !big_ord0 /= !add0r -mulrDr -mulrDr e3 clamp_big //.
by rewrite mulfK // mulrn_eq0 /= gt_eqF.
Qed.

Hypothesis pw_ge0 : forall x y, 0 <= x -> 0 <= pw x y.
Variable St : Type.
Lemma one_step B (Y Yt ref : tensor C) (st : St) c : sh Yt = [:: 3, 1, 1 & B]%N -> (forall x y w i, at_ Yt [:: x, y, w & i] = at_ Y [:: x, w, y & i]) ->
  sh ref = [:: 3, 1 & B]%N -> (forall i, at_ Y i = 1) -> sh c = [:: 1, 1 & B]%N -> exists E w c', [/\ t_error Yt ref c = Ok E,
    t_weights pw None (Some 1) None st E = Ok (w, st), t_min Yt ref w = Ok c', sh c' = [:: 1, 1 & B]%N &
    forall b, inr B b -> at_ c' [:: 0, 0 & b]%N = stp (fun n => at_ ref [:: nat_of_ord n, 0 & b]%N) (at_ c [:: 0, 0 & b]%N)].
Proof.
move=> s1 h1 sr hY sc; have hg : good_exponents 1 (None : option C) by rewrite /good_exponents ltr01 ltr1n.
have [E [w [c' [e1 e2 e3 s3 h3]]]] := step_batch s1 h1 sr (fits_refl B) pw_ge0 st hg sc.
exists E, w, c'; split=> // b hb; have [W hW e4] := h3 b hb.
have hY1 n : spec_at 1 1 3 Y b tt 0 0 0 n = 1 by rewrite mxE.
have := elem_step hY1 hW; rewrite -e4 !ffunE /= => ->.
rewrite /stp; congr (_ / clamp _ _); apply: eq_bigr => n _; by rewrite mxE bc_elem_id.
Qed.
Lemma nz n : (n.+1%:R : C) != 0. Proof. by rewrite pnatr_eq0. Qed.
Lemma qdiff : (3%:R : C) / 5%:R - 3%:R^-1 = 4%:R / 15%:R.
Proof.
apply: (mulIf (nz 14)); rewrite mulrBl divfK ?nz // (_ : 15%:R = 5%:R * 3%:R :> C) -?natrM // natrM mulrA divfK ?nz // [5%:R * _]mulrC mulKf ?nz //.
by rewrite -natrM -natrB.
Qed.
Lemma qA1 : (3%:R : C) * 1 / (6%:R - 1) = 3%:R / 5%:R.
Proof. by rewrite mulr1 -(natrB _ (isT : 1 <= 6)%N). Qed.
Lemma qA2 : (3%:R : C) * (3%:R / 5%:R) / (6%:R - 3%:R / 5%:R) = 3%:R^-1.
Proof.
have -> : (6%:R : C) - 3%:R / 5%:R = 27%:R / 5%:R by apply: (mulIf (nz 4)); rewrite mulrBl !divfK ?nz // -natrM -natrB.
by rewrite mulrA -natrM invf_div mulrA divfK ?nz // -[(3 * 3)%N]/9%N -[27%N]/(9 * 3)%N natrM invfM mulrA divff ?nz // mul1r.
Qed.
Lemma qA3 : (3%:R : C) * 3%:R^-1 / (6%:R - 3%:R^-1) = 3%:R / 17%:R.
Proof.
have -> : (6%:R : C) - 3%:R^-1 = 17%:R / 3%:R by apply: (mulIf (nz 2)); rewrite mulrBl divfK ?nz // mulVf ?nz // -natrM -(natrB _ (isT : 1 <= 18)%N).
by rewrite divff ?nz // mul1r invf_div.
Qed.
Lemma third5 : (3%:R^-1 : C) <= 3%:R / 5%:R.
Proof. by rewrite -subr_ge0 qdiff divr_ge0 ?ler0n. Qed.
Lemma le5 : (3%:R : C) / 5%:R <= 1.
Proof. by rewrite ler_pdivr_mulr ?ltr0n // mul1r ler_nat. Qed.
Lemma le3 : (3%:R^-1 : C) <= 1.
Proof. by rewrite invf_le1 ?ltr0n ?ler1n. Qed.
Definition two_Y : tensor C := mkT [:: 3; 1; 1; 2]%N (fun=> 1).
Definition two_ref : tensor C := mkT [:: 3; 1; 2]%N (fun i => if i is [:: n; _; b] then (if b == 0%N then rA n else 100%:R) else 0).
Local Notation rt := (100%:R^-1 : C).
Local Notation tmd := (@t_minimum_distortion C pw St None (Some 1) None rt).
Lemma nd : ((1 : C) == 2%:R) = false.
Proof. by rewrite eq_sym pnatr_eq1. Qed.
Lemma two_stop st : exists o, tmd two_Y two_ref 3 st = Ok (o, st) /\ at_ o [:: 0; 0; 0; 0]%N = 3%:R^-1.
Proof.
rewrite /t_minimum_distortion nd; cbn [andb].
have [Yt [e0 s0 h0]] := transpose21 (erefl : sh two_Y = [:: 3; 1; 1; 2]%N); rewrite e0; cbn [bind]; cbv zeta; rewrite [sh two_Y]/=; cbn [List.length].
have step := one_step st s0 h0 (erefl : sh two_ref = [:: 3; 1; 2]%N) (fun _ => erefl).
rewrite -[(_ < _)%N]/false s0; set c0 := mkT _ _; cbn [t_md_loop].
have [|E1 [w1 [c1 [-> e2 e3 s1 h1]]]] := step c0; first by [].
cbn [bind]; rewrite e2; cbn [bind]; rewrite e3; cbn [bind].
have [|E2 [w2 [c2 [-> e4 e5 s2 h2]]]] := step c1; first by [].
cbn [bind]; rewrite e4; cbn [bind]; rewrite e5; cbn [bind].
have a1 : at_ c1 [:: 0; 0; 0]%N = 3%:R / 5%:R by rewrite (h1 [:: 0%N] isT) -qA1; exact: (stpA le3 (lexx 1)).
have b1 : at_ c1 [:: 0; 0; 1]%N = 100%:R by rewrite (h1 [:: 1%N] isT); apply: (stpB (c := 1)); rewrite eqxx.
have a2 : at_ c2 [:: 0; 0; 0]%N = 3%:R^-1 by rewrite (h2 [:: 0%N] isT) a1 -qA2; exact: (stpA third5 le5).
have b2 : at_ c2 [:: 0; 0; 1]%N = 100%:R by rewrite (h2 [:: 1%N] isT) b1; apply: (stpB (c := 100%:R)); rewrite eqxx orbT.
have -> : t_small_step rt c2 c1 = Ok true.
  rewrite /t_small_step /tsub; have [d [-> sd hd]] := tzip_same (fun x y => x - y) s2 s1; cbn [bind].
  have p1 : 100%:R <= t_fro c1.
    rewrite /t_fro s1 /= !big_cons big_nil addr0 a1 b1 normr_nat -[X in X <= _](sqrCK (ler0n C 100)).
    by rewrite ler_sqrtC ?qualifE ?addr_ge0 ?exprn_ge0 ?ler0n ?normr_ge0 // ler_addr exprn_ge0.
  have d1 : t_fro d < 1.
    rewrite /t_fro sd /= !big_cons big_nil addr0 !hd // a1 b1 a2 b2 subrr normr0 expr0n addr0 sqrCK ?normr_ge0 // distrC qdiff.
    by rewrite ger0_norm ?divr_ge0 ?ler0n // ltr_pdivr_mulr ?ltr0n // mul1r ltr_nat.
  have p0 : 0 < t_fro c1 by apply: lt_le_trans p1; rewrite ltr0n.
  congr Ok; rewrite gt_eqF //= ltr_pdivr_mulr // (lt_le_trans d1) // mulrC ler_pdivl_mulr ?ltr0n // mul1r.
  by [].
cbn [bind]; have [o [eo so ho]] := finish (erefl : sh two_Y = [:: 3; 1; 1; 2]%N) s2.
exists o; split; first by move: eo => /=; case: (transpose 2 1 _) => //= u'; case: (tmul two_Y u') => //= o' [->].
by have := ho [:: 0%N] 0 0 0 isT; rewrite /= => ->; rewrite a2 mul1r.
Qed.
Lemma one_stop st : exists o, tmd (alone two_Y [:: 0%N]) (ref_alone two_ref [:: 0%N]) 3 st = Ok (o, st) /\ at_ o [:: 0; 0; 0]%N = 3%:R / 17%:R.
Proof.
rewrite /t_minimum_distortion nd; cbn [andb]; set Y := alone _ _; set ref := ref_alone _ _.
have sY : sh Y = [:: 3; 1; 1]%N by []. have sr : sh ref = [:: 3; 1]%N by [].
have [Yt [e0 s0 h0]] := transpose21 sY; rewrite e0; cbn [bind]; cbv zeta; rewrite sY; cbn [List.length].
have step := one_step st s0 h0 sr (fun _ => erefl).
rewrite -[(_ < _)%N]/false s0; set c0 := mkT _ _; cbn [t_md_loop].
have [|E1 [w1 [c1 [-> e2 e3 s1 h1]]]] := step c0; first by [].
cbn [bind]; rewrite e2; cbn [bind]; rewrite e3; cbn [bind].
have [|E2 [w2 [c2 [-> e4 e5 s2 h2]]]] := step c1; first by [].
cbn [bind]; rewrite e4; cbn [bind]; rewrite e5; cbn [bind].
have a1 : at_ c1 [:: 0; 0]%N = 3%:R / 5%:R by rewrite (h1 [::] isT) -qA1; exact: (stpA le3 (lexx 1)).
have a2 : at_ c2 [:: 0; 0]%N = 3%:R^-1 by rewrite (h2 [::] isT) a1 -qA2; exact: (stpA third5 le5).
have -> : t_small_step rt c2 c1 = Ok false.
  rewrite /t_small_step /tsub; have [d [-> sd hd]] := tzip_same (fun x y => x - y) s2 s1; cbn [bind].
  rewrite /t_fro s1 sd /= !big_cons !big_nil !addr0 !hd // a1 a2 !sqrCK ?normr_ge0 // distrC qdiff.
  have p0 : (0 : C) < 3%:R / 5%:R by rewrite divr_gt0 ?ltr0n.
  rewrite !ger0_norm ?divr_ge0 ?ler0n //; congr Ok; apply/negbTE; rewrite negb_and; apply/orP; right.
  have -> : (4%:R / 15%:R / (3%:R / 5%:R) : C) = 4%:R / 9%:R.
    by rewrite invf_div -[15%N]/(3 * 5)%N natrM mulrA mulrAC invfM !mulrA mulrAC mulfVK ?nz // -mulrA -invfM -natrM.
  rewrite -real_leNgt ?ger0_real ?divr_ge0 ?invr_ge0 ?ler0n //.
  by rewrite ler_pdivl_mulr ?ltr0n // mulrC ler_pdivr_mulr ?ltr0n // -natrM ler_nat.
cbn [bind].
have [|E3 [w3 [c3 [-> e6 e7 s3 h3]]]] := step c2; first by [].
cbn [bind]; rewrite e6; cbn [bind]; rewrite e7; cbn [bind].
have a3 : at_ c3 [:: 0; 0]%N = 3%:R / 17%:R by rewrite (h3 [::] isT) a2 -qA3; exact: (stpA (lexx _) le3).
have [sm -> ] : exists sm, t_small_step rt c3 c2 = Ok sm.
  by rewrite /t_small_step /tsub; have [d [-> sd hd]] := tzip_same (fun x y => x - y) s3 s2; eexists.
cbn [bind]; have [o [eo so ho]] := finish sY s3.
exists o; split; first by case: sm; move: eo => /=; case: (transpose 2 1 _) => //= u'; case: (tmul Y u') => //= o' [->].
by have := ho [::] 0 0 0 isT; rewrite /= => ->; rewrite a3 mul1r.
Qed.
Lemma stop_witness st : exists (Y ref o o1 : tensor C), [/\ sh Y = [:: 3; 1; 1; 2]%N /\ sh ref = [:: 3; 1; 2]%N,
    tmd Y ref 3 st = Ok (o, st), tmd (alone Y [:: 0%N]) (ref_alone ref [:: 0%N]) 3 st = Ok (o1, st) &
    at_ o [:: 0; 0; 0; 0]%N = 3%:R^-1 /\ at_ o1 [:: 0; 0; 0]%N = 3%:R / 17%:R].
Proof. by have [o [e h]] := two_stop st; have [o1 [e1 h1]] := one_stop st; exists two_Y, two_ref, o, o1. Qed.
End T.
