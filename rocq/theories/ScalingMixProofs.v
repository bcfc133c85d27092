(* C38: with p < q < 2 one update of minimum_distortion can increase the mixed error. *)
From Coq Require Import Ring Field.
From mathcomp Require Import all_ssreflect all_algebra all_fingroup.
From Verif Require Import CAlg LinalgProofs Py Batch LinalgModel ScalingModel PowSpec ScalingMixSpec.
Set Implicit Arguments. Unset Strict Implicit. Unset Printing Implicit Defensive.
Import GRing.Theory Num.Theory Order.TTheory.
Local Open Scope ring_scope.

Section Mix.
Variable C : numClosedFieldType.
Add Field CfieldMix : (f_ft C).
Ltac cring := fpre; fnorm C; fatoms; ring.
Ltac cfield := fpre; fnorm C; fatoms; field.
Let n2 : 2%:R != 0 :> C. Proof. by rewrite pnatr_eq0. Qed.
Let n3 : 3%:R != 0 :> C. Proof. by rewrite pnatr_eq0. Qed.
Let n6 : 6%:R != 0 :> C. Proof. by rewrite pnatr_eq0. Qed.
Lemma q_half : 2%:R - 3%:R / 2%:R = 2%:R^-1 :> C.
Proof. by apply: (mulIf n2); rewrite mulrBl divfK // mulVf // -natrM -natrB. Qed.
Lemma q_third : 1 - 1 / (3%:R / 2%:R) = 3%:R^-1 :> C.
Proof. by apply: (mulIf n3); rewrite div1r invf_div mulrBl divfK // mulVf // mul1r -natrB. Qed.
Lemma q_sum : 3%:R^-1 + 2%:R^-1 = 5%:R / 6%:R :> C.
Proof.
have h3 : 3%:R^-1 * 6%:R = 2%:R :> C by apply: (mulfI n3); rewrite mulVKf // -natrM.
have h2 : 2%:R^-1 * 6%:R = 3%:R :> C by apply: (mulfI n2); rewrite mulVKf // -natrM.
by apply: (mulIf n6); rewrite mulrDl divfK // h3 h2 -natrD.
Qed.
Variable pw : C -> C -> C.
Hypothesis hpw : pow_like pw.
Let pw_ge0 x t : 0 <= x -> 0 < t -> 0 <= pw x t. Proof. by case: hpw => h _; exact: h. Qed.
Let pw1 x : 0 <= x -> pw x 1 = x. Proof. by case: hpw => _ [h _]; exact: h. Qed.
Let pwD x s t : 0 <= x -> 0 < s -> 0 < t -> pw x (s + t) = pw x s * pw x t. Proof. by case: hpw => _ [_ [h _]]; exact: h. Qed.
Let pwM x y t : 0 <= x -> 0 <= y -> 0 < t -> pw (x * y) t = pw x t * pw y t. Proof. by case: hpw => _ [_ [_ [h _]]]; exact: h. Qed.
Let pwK x t : 0 <= x -> 0 < t -> pw (pw x t) t^-1 = x. Proof. by case: hpw => _ [_ [_ [_ [h _]]]]; exact: h. Qed.
Let pw_mono x y t : 0 <= x -> x < y -> 0 < t -> pw x t < pw y t. Proof. by case: hpw => _ [_ [_ [_ [_ [h _]]]]]; exact: h. Qed.

Let pw_bern x t : 0 <= x -> 0 < t < 1 -> pw x t <= 1 + t * (x - 1). Proof. by case: hpw => _ [_ [_ [_ [_ [_ h]]]]]; exact: h. Qed.
Lemma pwX x t n : 0 <= x -> 0 < t -> pw x t ^+ n.+1 = pw x (n.+1%:R * t).
Proof.
move=> x0 t0; elim: n => [|n IH]; first by rewrite expr1 mul1r.
by rewrite exprS IH -pwD ?mulr_gt0 ?ltr0n // -[n.+2]addn1 natrD mulrDl mul1r addrC.
Qed.
Lemma pwn x n : 0 <= x -> pw x n.+1%:R = x ^+ n.+1.
Proof. by move=> x0; rewrite -[n.+1%:R]mulr1 -pwX ?ltr01 // pw1. Qed.
Lemma pw_le x y t : 0 <= x -> x <= y -> 0 < t -> pw x t <= pw y t.
Proof. by move=> x0; rewrite le_eqVlt => /orP [/eqP -> //|xy t0]; exact/ltW/pw_mono. Qed.
Lemma pw_1 t : 0 < t -> pw 1 t = 1.
Proof.
move=> t0; have := pwM ler01 ler01 t0; rewrite mul1r => h.
have p0 : pw 1 t != 0 by rewrite gt_eqF //; apply: le_lt_trans (pw_mono (lexx 0) ltr01 t0); rewrite pw_ge0.
by apply: (mulfI p0); rewrite mulr1 -h.
Qed.
Lemma pw_4 : pw 4%:R (3%:R / 2%:R) = 8%:R.
Proof.
have t0 : 0 < 3%:R / 2%:R :> C by rewrite divr_gt0 ?ltr0n.
have := pwX 1 (ler0n C 4) t0; rewrite mulrCA divff ?mulr1 // pwn ?ler0n // => /eqP.
have -> : 4%:R ^+ 3 = 8%:R ^+ 2 :> C by rewrite -!natrX.
by rewrite eqr_expn2 ?ler0n ?pw_ge0 ?ler0n // => /eqP.
Qed.
(* 7^(5/6) >= 5 since 7^5 >= 5^6 *)
Lemma pw75 : 5%:R <= pw 7%:R (5%:R / 6%:R).
Proof.
have t0 : 0 < 5%:R / 6%:R :> C by rewrite divr_gt0 ?ltr0n.
have p0 : 0 <= pw 7%:R (5%:R / 6%:R) by rewrite pw_ge0 ?ler0n.
rewrite -(@ler_pexpn2r _ 6) ?nnegrE ?ler0n //.
rewrite pwX ?ler0n // mulrCA divff ?mulr1 ?pnatr_eq0 //.
rewrite pwn ?ler0n // -!natrX ler_nat; by vm_compute.
Qed.

Local Notation e := ((@GRing.natmul C 1 10) ^- 5).
Lemma e_gt0 : 0 < e. Proof. by rewrite invr_gt0 exprn_gt0 ?ltr0n. Qed.
Lemma e_le : e * 20%:R <= 1.
Proof. by rewrite ler_pdivr_mull ?exprn_gt0 ?ltr0n // mulr1 -natrX ler_nat; vm_compute. Qed.
Local Notation a := (1 - e). Local Notation b := (4%:R - e).
Lemma e_le1 : e <= 1.
Proof. by apply: le_trans e_le; rewrite ler_pmulr ?e_gt0 // ler1n. Qed.
Lemma a_ge0 : 0 <= a. Proof. by rewrite subr_ge0 e_le1. Qed.
Lemma b_ge0 : 0 <= b. Proof. by rewrite subr_ge0; apply: le_trans e_le1 _; rewrite ler1n. Qed.

(* the weight for an error of modulus r, one frequency, p = 1 and q = 3/2 *)
Definition mw (r : C) : C :=
  1 / clamp (2%:R * pw (pw (r + e) (3%:R / 2%:R) + e) (1 - 1 / (3%:R / 2%:R)) *
             pw (pw (r + e) (3%:R / 2%:R) + e) (2%:R - 3%:R / 2%:R)) e.
Lemma mwE r : 0 <= r -> 1 <= pw (r + e) (3%:R / 2%:R) ->
  mw r = (2%:R * pw (pw (r + e) (3%:R / 2%:R) + e) (5%:R / 6%:R))^-1.
Proof.
move=> r0 h; rewrite /mw -mulrA -pwD; first last.
- by rewrite q_half invr_gt0 ltr0n.
- by rewrite q_third invr_gt0 ltr0n.
- by apply: addr_ge0; [exact: le_trans ler01 h|exact/ltW/e_gt0].
rewrite q_half q_third q_sum.
rewrite clamp_id ?div1r //; apply: le_trans e_le1 _.
have t0 : 0 < 5%:R / 6%:R :> C by rewrite divr_gt0 ?ltr0n.
have p1 := pw_1 t0.
have p2 : 1 <= pw (pw (r + e) (3%:R / 2%:R) + e) (5%:R / 6%:R).
  by rewrite -[X in X <= _]p1; apply: pw_le; rewrite ?ler01 //; apply: le_trans h _; rewrite ler_addl ltW ?e_gt0.
by apply: (le_trans p2); rewrite ler_pmull ?ler1n //; exact: lt_le_trans ltr01 p2.
Qed.

Local Notation u := (mw a). Local Notation v := (mw b).
Let t56 : 0 < 5%:R / 6%:R :> C. Proof. by rewrite divr_gt0 ?ltr0n. Qed.
Let t32 : 0 < 3%:R / 2%:R :> C. Proof. by rewrite divr_gt0 ?ltr0n. Qed.
Lemma uE : u = (2%:R * pw (1 + e) (5%:R / 6%:R))^-1.
Proof. by rewrite mwE ?a_ge0 ?subrK ?pw_1. Qed.
Lemma vE : v = (2%:R * pw (8%:R + e) (5%:R / 6%:R))^-1.
Proof. by rewrite mwE ?b_ge0 ?subrK ?pw_4 ?ler1n. Qed.
Let e1_gt0 : 0 < 1 + e. Proof. by rewrite addr_gt0 ?ltr01 ?e_gt0. Qed.
Lemma pw_e_gt0 : 0 < pw (1 + e) (5%:R / 6%:R).
Proof. by apply: le_lt_trans (pw_mono (lexx 0) e1_gt0 t56); rewrite pw_ge0. Qed.
Lemma pw_e_le : pw (1 + e) (5%:R / 6%:R) <= 2%:R.
Proof.
apply: (le_trans (pw_bern (ltW e1_gt0) _)); first by rewrite t56 ltr_pdivr_mulr ?ltr0n // mul1r ltr_nat.
rewrite addrAC subrr add0r [2%:R]mulrS ler_add2l; apply: le_trans e_le1.
by rewrite ler_pimull ?(ltW e_gt0) // ler_pdivr_mulr ?ltr0n // mul1r ler_nat.
Qed.
Lemma pw_ratio : 5%:R * pw (1 + e) (5%:R / 6%:R) <= pw (8%:R + e) (5%:R / 6%:R).
Proof.
apply: (@le_trans _ _ (pw (7%:R * (1 + e)) (5%:R / 6%:R))).
  by rewrite pwM ?ler0n ?(ltW e1_gt0) // ler_wpmul2r ?(ltW pw_e_gt0) // pw75.
apply: pw_le; rewrite ?mulr_ge0 ?ler0n ?(ltW e1_gt0) //.
rewrite mulrDr mulr1 [8%:R]mulrSr -addrA ler_add2l.
rewrite [7%:R]mulrSr mulrDl mul1r.
rewrite ler_add2r; apply: le_trans e_le; rewrite mulrC ler_wpmul2l ?(ltW e_gt0) //; by rewrite ler_nat.
Qed.
Lemma u_gt0 : 0 < u. Proof. by rewrite uE invr_gt0 mulr_gt0 ?ltr0n ?pw_e_gt0. Qed.
Lemma v_gt0 : 0 < v.
Proof. by rewrite vE invr_gt0 mulr_gt0 ?ltr0n //; apply: lt_le_trans pw_ratio; rewrite mulr_gt0 ?ltr0n ?pw_e_gt0. Qed.
Lemma uv : 5%:R * v <= u.
Proof.
rewrite -[5%:R]invrK uE vE -invfM lef_pinv ?posrE; last 1 first.
- by rewrite mulr_gt0 ?ltr0n ?pw_e_gt0.
- by rewrite mulrCA ler_pmul2l ?ltr0n // ler_pdivl_mull ?ltr0n // pw_ratio.
by rewrite mulr_gt0 ?invr_gt0 ?ltr0n //; rewrite -invr_gt0 -vE v_gt0.
Qed.
Lemma u_ge : e <= u.
Proof.
apply: (@le_trans _ _ (20%:R^-1)); first by rewrite -[20%:R^-1]mul1r ler_pdivl_mulr ?ltr0n // e_le.
rewrite uE lef_pinv ?posrE ?ltr0n // ?mulr_gt0 ?ltr0n ?pw_e_gt0 //.
apply: (@le_trans _ _ (2%:R * 2%:R)); first by rewrite ler_pmul2l ?ltr0n // pw_e_le.
by rewrite -natrM ler_nat.
Qed.

(* the step *)
Definition dl : C := (a * u - b * v) / (3%:R * u + v).
Lemma s_gt0 : 0 < 3%:R * u + v. Proof. by apply: addr_gt0 v_gt0; apply: mulr_gt0 u_gt0; rewrite ltr0n. Qed.
Lemma dl_ge : 20%:R^-1 <= dl.
Proof.
rewrite /dl ler_pdivl_mulr ?s_gt0 // mulrC ler_pdivr_mulr ?ltr0n // -subr_ge0.
move: (uv) (v_gt0) (e_gt0) (e_le); rewrite -subr_ge0; move: (10%:R ^- 5) v u => z y x hd y0 z0 hz.
have -> : ((1 - z) * x - (4%:R - z) * y) * 20%:R - (3%:R * x + y) =
  4%:R * (y * (1 - z * 20%:R)) + (x - 5%:R * y) * (16%:R + (1 - z * 20%:R)) by cring.
have h1 : 0 <= 1 - z * 20%:R by rewrite subr_ge0.
by rewrite addr_ge0 // mulr_ge0 ?ler0n // ?mulr_ge0 ?(ltW y0) // addr_ge0 ?ler0n.
Qed.
Lemma dl_le : dl <= 1.
Proof.
rewrite /dl ler_pdivr_mulr ?s_gt0 // mul1r -subr_ge0.
move: (u_gt0) (v_gt0) (e_gt0) (b_ge0); move: (10%:R ^- 5) v u => z y x x0 y0 z0 hz.
have -> : 3%:R * x + y - ((1 - z) * x - (4%:R - z) * y) = 2%:R * x + z * x + y + (4%:R - z) * y by cring.
have X := ltW x0; have Y := ltW y0; have Z := ltW z0.
by apply: addr_ge0; [apply: addr_ge0 Y; apply: addr_ge0|]; apply: mulr_ge0 => //; rewrite ler0n.
Qed.
Lemma dl_real : dl \is Num.real. Proof. by rewrite ger0_real // (le_trans _ dl_ge) // invr_ge0 ler0n. Qed.
Lemma up : a + dl ^+ 2 / 4%:R <= `|'i * a - dl|.
Proof.
have ar : a \is Num.real by rewrite ger0_real ?a_ge0.
have d0 : 0 <= dl by rewrite (le_trans _ dl_ge) // invr_ge0 ler0n.
have l0 : 0 <= a + dl ^+ 2 / 4%:R by rewrite addr_ge0 ?a_ge0 ?divr_ge0 ?exprn_ge0 ?ler0n.
rewrite -(@ler_pexpn2r _ 2) ?nnegrE ?normr_ge0 //.
have -> : `|'i * a - dl| ^+ 2 = dl ^+ 2 + a ^+ 2.
  by rewrite addrC normC2_rect ?rpredN ?dl_real // sqrrN.
have h1 : a <= 1 by rewrite ler_subl_addr ler_addl ltW ?e_gt0.
have h2 : dl ^+ 2 / 4%:R <= 1.
  by rewrite ler_pdivr_mulr ?ltr0n // mul1r; apply: (@le_trans _ _ 1); rewrite ?ler1n // expr_le1 ?dl_le.
have d2 : 0 <= dl ^+ 2 / 4%:R by rewrite divr_ge0 ?exprn_ge0 ?ler0n.
have -> : dl ^+ 2 = 4%:R * (dl ^+ 2 / 4%:R) by rewrite mulrC divfK // pnatr_eq0.
rewrite [4%:R * _ / 4%:R]mulrAC divff ?pnatr_eq0 // mul1r.
rewrite -subr_ge0; move: h1 h2 d2; rewrite -[a <= _]subr_ge0 -[_ <= 1]subr_ge0; move: a (dl ^+ 2 / 4%:R) => x y hx hy y0.
have -> : 4%:R * y + x ^+ 2 - (x + y) ^+ 2 = y * (1 + (1 - x) + (1 - x) + (1 - y)) by cring.
by apply: mulr_ge0 => //; do 3! apply: addr_ge0 => //; exact: ler01.
Qed.
(* errors of the four frames *)
Definition er (n : nat) : C := match n with 0 => a | 1 => - b | 2 => 'i * a | _ => - ('i * a) end.
Lemma er_norm n : (n < 4)%N -> `|er n| = if n == 1%N then b else a.
Proof.
by case: n => [|[|[|[|]]]] // _; rewrite /er /= ?normrN ?normrM ?normCi ?mul1r ger0_norm ?a_ge0 ?b_ge0.
Qed.
Definition Ym : spec C unit_finType 1 1 4 := fun _ _ _ => const_mx 1.
Definition rm : refs C unit_finType 1 4 := fun _ _ => \row_n (1 + er n).
Lemma grows : a + b + a + a + 1000%:R^-1 <= `|a - dl| + `|- b - dl| + `|'i * a - dl| + `|- ('i * a) - dl|.
Proof.
have d0 : 0 <= dl by rewrite (le_trans _ dl_ge) // invr_ge0 ler0n.
have ar : a \is Num.real by rewrite ger0_real ?a_ge0.
have -> : `|- b - dl| = b + dl by rewrite -opprD normrN ger0_norm // addr_ge0 ?b_ge0.
have -> : `|- ('i * a) - dl| = `|'i * a - dl|.
  apply/eqP; rewrite -(@eqr_expn2 _ 2) ?normr_ge0 //.
  have -> : - ('i * a) - dl = - dl + 'i * - a by rewrite addrC mulrN.
  have -> : 'i * a - dl = - dl + 'i * a by rewrite addrC.
  by rewrite !normC2_rect ?rpredN ?dl_real // sqrrN [(- a) ^+ 2]sqrrN.
have h1 : a - dl <= `|a - dl| by apply: real_ler_norm; rewrite rpredB ?dl_real.
have h4 : 1000%:R^-1 <= dl ^+ 2 / 4%:R + dl ^+ 2 / 4%:R.
  have q : 20%:R^-1 ^+ 2 <= dl ^+ 2 by rewrite ler_pexpn2r ?nnegrE ?invr_ge0 ?ler0n ?dl_ge.
  have -> : dl ^+ 2 / 4%:R + dl ^+ 2 / 4%:R = dl ^+ 2 / 2%:R.
    by apply: (mulIf n2); rewrite divfK // mulrDl (_ : 4%:R = 2%:R * 2%:R) -?natrM // natrM invfM mulrA divfK // -mulr2n -mulr_natr divfK.
  apply: (@le_trans _ _ (20%:R^-1 ^+ 2 / 2%:R)); last by rewrite ler_pmul2r ?invr_gt0 ?ltr0n.
  by rewrite exprVn -invfM lef_pinv ?posrE ?ltr0n ?mulr_gt0 ?exprn_gt0 ?ltr0n // -natrX -natrM ler_nat; vm_compute.
apply: (@le_trans _ _ ((a - dl) + (b + dl) + (a + dl ^+ 2 / 4%:R) + (a + dl ^+ 2 / 4%:R))); last first.
  by rewrite !ler_add ?up.
rewrite -subr_ge0 in h4; rewrite -subr_ge0.
move: h4; move: a b dl (dl ^+ 2 / 4%:R) (1000%:R^-1) => x y z t k h4.
by have -> : x - z + (y + z) + (x + t) + (x + t) - (x + y + x + x + k) = t + t - k by cring.
Qed.
Lemma mixed1 nN (ref y : 'I_1 -> 'rV[C]_nN) : mixed_error pw 1 (3%:R / 2%:R) ref y = \sum_n `|ref 0 0 n - y 0 0 n|.
Proof. by apply: eq_bigr => n _; rewrite big_ord1 div1r pwK ?normr_ge0. Qed.
Lemma wE (n : 'I_4) : mw `|er n| = if n == 1%N :> nat then v else u.
Proof. by rewrite er_norm // (fun_if mw). Qed.
Lemma sumw : \sum_(n < 4) mw `|er n| = 3%:R * u + v.
Proof. by rewrite !big_ord_recl big_ord0 !wE /=; move: v u => y x; cring. Qed.
Lemma sumrw : \sum_(n < 4) (1 + er n) * mw `|er n| = 3%:R * u + v + (a * u - b * v).
Proof. by rewrite !big_ord_recl big_ord0 !wE /er /=; move: v u a b 'i => y x c d i; cring. Qed.
Lemma ccE : (\sum_(n < 4) (1 + er n) * mw `|er n|) / clamp (\sum_(n < 4) mw `|er n|) e = 1 + dl.
Proof.
have h : e <= 3%:R * u + v.
  apply: (le_trans u_ge); rewrite -subr_ge0; have -> : 3%:R * u + v - u = 2%:R * u + v by move: v u => y x; cring.
  by apply: addr_ge0 (ltW v_gt0); apply: mulr_ge0 (ltW u_gt0); rewrite ler0n.
by rewrite sumw sumrw (clamp_id h) [LHS]mulrDl divff // gt_eqF ?s_gt0.
Qed.
Lemma mixed_witness rtol : exists out, minimum_distortion pw Ym rm (Some 1) (Some (3%:R / 2%:R)) rtol 1 = Ok out /\
  mixed_error pw 1 (3%:R / 2%:R) (rm tt) (Ym tt 0) + 1000%:R^-1 <= mixed_error pw 1 (3%:R / 2%:R) (rm tt) (out tt 0).
Proof.
have ne12 : (1 == 3%:R / 2%:R :> C) = false.
  by rewrite lt_eqF // ltr_pdivl_mulr ?ltr0n // mul1r ltr_nat.
have ne2 : (1 == 2%:R :> C) = false by rewrite (eqr_nat C 1 2).
rewrite /minimum_distortion ne2 ne12 /= /lpq_norm ltr01 /=.
have -> : (1 <= 3%:R / 2%:R :> C) && (3%:R / 2%:R <= 2%:R :> C).
  by rewrite ler_pdivl_mulr ?ltr0n // mul1r ler_nat /= ler_pdivr_mulr ?ltr0n // -natrM ler_nat.
eexists; split; first by reflexivity.
rewrite !mixed1.
have en n : rm tt 0 0 n - Ym tt 0 0 0 n = er n by rewrite !mxE addrAC subrr add0r.
have -> : \sum_n `|rm tt 0 0 n - Ym tt 0 0 0 n| = a + b + a + a.
  rewrite (eq_bigr (fun n : 'I_4 => if n == 1%N :> nat then b else a)); last by move=> n _; rewrite en er_norm.
  by rewrite !big_ord_recl big_ord0 /= addr0 !addrA.
apply: (le_trans grows).
rewrite (eq_bigr (fun n : 'I_4 => `|er n - dl|)).
  by rewrite !big_ord_recl big_ord0 /er /= addr0 !addrA.
move=> n _; rewrite !mxE mul1r ffunE.
have eE k : md_error Ym rm [ffun=> 1] tt 0 0 0 k = er k by rewrite !mxE ffunE mul1r addrAC subrr add0r.
rewrite (eq_bigr (fun k : 'I_4 => (1 + er k) * mw `|er k|)); last first.
  by move=> k _; rewrite [in X in _ * X]mxE big_ord1 eE !mxE rmorph1 mulr1.
rewrite [in clamp _ _](eq_bigr (fun k : 'I_4 => mw `|er k|)); last first.
  by move=> k _; rewrite [in X in _ * X]mxE big_ord1 eE !mxE normr1 expr1n mul1r.
rewrite [X in _ - X]ccE; congr (`|_|); move: (er n) dl => x y; cring.
Qed.
End Mix.
