(* minimum_distortion on batches: the whole function, with and without a model. *)
From Coq Require Import String Ascii ZArith.
From mathcomp Require Import all_ssreflect all_algebra.
From mathcomp Require Import zify.
From Verif Require TorchShape.
From Verif Require Import CAlg Py Batch LinalgModel ScalingModel TensorModel TSpec TensorProofs TOpsModel TOpsProofs TScalingModel TScalingSpec TScalingProofs TScalingLoop.
Set Implicit Arguments. Unset Strict Implicit. Unset Printing Implicit Defensive.
Import GRing.Theory Num.Theory Order.TTheory.
Local Open Scope ring_scope.
Arguments TorchShape.bc2 : simpl never.
Arguments Nat.eqb : simpl never.
Arguments clip : simpl never.

Section T.
Variable C : numClosedFieldType.
Variable pw : C -> C -> C.
Variable St : Type.
Lemma finish K F N B (Y c : tensor C) : sh Y = [:: N, F, K & B] -> sh c = [:: K, F & B] ->
  exists o, [/\ (let* c := unsq 0 c in let* c := transpose 2 1 c in tmul Y c)%py = Ok o, sh o = [:: N, F, K & B] &
    forall b (x : 'I_K) (f : 'I_F) (n : 'I_N), inr B b -> at_ o [:: nat_of_ord n, nat_of_ord f, nat_of_ord x & b] =
      at_ Y [:: nat_of_ord n, nat_of_ord f, nat_of_ord x & b] * at_ c [:: nat_of_ord x, nat_of_ord f & b]].
Proof.
move=> sY sc; have [c1 [-> s1 h1]] := unsq0 c; cbn [bind]; rewrite sc in s1; have [c2 [-> s2 h2]] := transpose21 s1; cbn [bind].
have [|o [e3 s3 h3]] := @zip_bc C *%R Y c2 _ _ [:: N, F, K & B] sY s2; first by rewrite /= bc2n1 !bc2nn /= bcastss.
exists o; split=> // b x f n hb.
have i2 : inr [:: F, K & B] [:: nat_of_ord f, nat_of_ord x & b] by rewrite /= !ltn_ord.
have i3 : inr [:: N, F, K & B] [:: nat_of_ord n, nat_of_ord f, nat_of_ord x & b] by rewrite /= !ltn_ord.
by rewrite h3 (clip_id i3) clip1l (clip_id i2) h2 h1.
Qed.

Section Exponents.
Hypothesis pw_ge0 : forall x y, 0 <= x -> 0 <= pw x y.
Variables (K F N : nat) (B R : seq nat) (Y ref : tensor C).
Hypothesis sY : sh Y = [:: N, F, K & B].
Hypothesis sr : sh ref = [:: N, F & R].
Hypothesis hR : fits R B.
Local Notation Yb b := (spec_at K F N Y b).
Local Notation rb b := (ref_at F N ref (bc_elem R b)).
Variables (p : C) (q : option C).
Local Notation tmd rtol := (@t_minimum_distortion C pw St None (Some p) q rtol).
Lemma no_dispatch : good_exponents p q -> (p == 2%:R) && (if q is Some q then p == q else true) = false.
Proof.
rewrite /good_exponents; case: q => [q'|].
  by case: (p == q'); rewrite ?andbF // andbT => /andP [_ /lt_eqF ->].
by rewrite andbT => /andP [_ /lt_eqF ->].
Qed.
Lemma md_start c0 rtol n (st : St) : good_exponents p q -> c0 = mkT [:: K, F & B] (fun _ => 1) ->
  exists Yt, [/\ sh Yt = [:: N, K, F & B], forall x y w i, at_ Yt [:: x, y, w & i] = at_ Y [:: x, w, y & i] &
  tmd rtol Y ref n st = (let* (c, st) := t_md_loop pw None (Some p) q rtol Yt ref n c0 None st in
    let* c := unsq 0 c in let* c := transpose 2 1 c in let* o := tmul Y c in Ok (o, st))%py].
Proof.
move=> hg ->; have [Yt [e1 s1 h1]] := transpose21 sY; exists Yt; split=> //.
by rewrite /t_minimum_distortion no_dispatch // sY /= e1 /= s1.
Qed.
Lemma ones_at b (c0 : tensor C) : c0 = mkT [:: K, F & B] (fun _ => 1) -> coef_at K F c0 b = [ffun=> 1].
Proof. by move=> ->; apply/ffunP => x; rewrite !ffunE. Qed.
Lemma md_batch (rtol : C) n (st : St) : good_exponents p q -> exists k o, [/\ tmd rtol Y ref n st = Ok (o, st),
  sh o = [:: N, F, K & B], (minn 2 n <= k <= n)%N, rtol <= 0 -> k = n &
  forall b, inr B b -> exists2 out, minimum_distortion pw (Yb b) (rb b) (Some p) q 0 k = Ok out &
    forall c f (m : 'I_N), at_ o [:: nat_of_ord m, nat_of_ord f, nat_of_ord c & b] = out tt c f 0 m].
Proof.
move=> hg; set c0 : tensor C := mkT [:: K, F & B] (fun _ => 1).
have [Yt [sYt hYt ->]] := md_start rtol n st hg (erefl c0).
have [k [c [-> sc hk hr hc]]] := loop_batch sYt hYt sr hR pw_ge0 rtol n st hg (erefl : sh c0 = _) (prev := None) I.
cbn [bind]; have [o [e so ho]] := finish sY sc; exists k, o; split=> //.
  by move: e; case: (unsq 0 c) => //= c1; case: (transpose 2 1 c1) => //= c2 ->.
move=> b hb; rewrite /minimum_distortion no_dispatch //.
have := hc b hb; rewrite (ones_at b (erefl c0)) /wf => -> /=; eexists; [reflexivity|] => x f m.
by rewrite ho // mxE ffunE mxE.
Qed.
Lemma md_single (rtol : C) n (st : St) : B = [::] -> good_exponents p q -> exists2 o, tmd rtol Y ref n st = Ok (o, st) &
  sh o = [:: N; F; K] /\ exists2 out, minimum_distortion pw (Yb [::]) (rb [::]) (Some p) q rtol n = Ok out &
    forall c f (m : 'I_N), at_ o [:: nat_of_ord m; nat_of_ord f; nat_of_ord c] = out tt c f 0 m.
Proof.
move=> eB hg; set c0 : tensor C := mkT [:: K, F & B] (fun _ => 1).
have [Yt [sYt hYt ->]] := md_start rtol n st hg (erefl c0).
have s0 : sh c0 = [:: K; F] by rewrite /c0 eB.
have [c [-> sc hc]] := single_loop sYt hYt sr hR pw_ge0 rtol n st eB hg s0 (prev := None) I.
have sc' : sh c = [:: K, F & B] by rewrite eB.
cbn [bind]; have [o [e so ho]] := finish sY sc'; exists o; first by move: e; case: (unsq 0 c) => //= c1; case: (transpose 2 1 c1) => //= c2 ->.
split; first by rewrite so eB.
rewrite /minimum_distortion no_dispatch //.
move: hc; rewrite (ones_at [::] (erefl c0)) /wf => -> /=; eexists; [reflexivity|] => x f m.
by rewrite ho ?eB // mxE ffunE mxE.
Qed.
Lemma md_bad_exponents (rtol : C) n (st : St) : ~~ good_exponents p q -> ~~ ((p == 2%:R) && (if q is Some q then p == q else true)) ->
  tmd rtol Y ref n.+1 st = Err AssertionError.
Proof.
move=> hb /negbTE hd; rewrite /t_minimum_distortion hd sY /=; have [Yt [-> s1 h1]] := transpose21 sY; cbn [bind].
set c0 := mkT _ _; have s0 : sh c0 = [:: K, F & B] by rewrite /c0 /= s1.
have [E [-> _ _]] := error_batch s1 h1 sr hR s0; cbn [bind].
by move: (weights_bad pw st E hb); rewrite /t_weights /= => ->.
Qed.
End Exponents.

Lemma md_default (p q : option C) rtol Y ref n (st : St) : (if p is Some p then (p == 2%:R) && (if q is Some q then p == q else true) else true) ->
  t_minimum_distortion pw None p q rtol Y ref n st = (let* o := t_md_l2 Y ref in Ok (o, st))%py.
Proof. by rewrite /t_minimum_distortion => ->. Qed.

(* ---- a model *)
Section Model.
Variables (K F N : nat) (Y ref : tensor C) (R B : seq nat).
Variable m : St -> tensor C -> result (tensor C * St).
Variables (p q : option C) (rtol : C).
Hypothesis hY : sh Y = [:: N, F, K & B].
Hypothesis sr : sh ref = [:: N, F & R].
Hypothesis hR : fits R B.
Hypothesis hm : forall st e, sh e = [:: N, F, K & B] -> exists w st', m st e = Ok (w, st') /\ sh w = [:: N, F, K & B].
Local Notation tmd := (@t_minimum_distortion C pw St (Some m) p q rtol).
Lemma model_start n (st : St) : exists Yt E w st', [/\ sh Yt = [:: N, K, F & B], forall x y w i, at_ Yt [:: x, y, w & i] = at_ Y [:: x, w, y & i],
  t_error Yt ref (mkT (behead (sh Yt)) (fun _ => 1)) = Ok E, sh w = [:: N, K, F & B] &
  tmd Y ref n.+1 st = (let* c :=
   (let* w := select 3 Z0 w in let* w := select 2 Z0 w in let* norm := tsum_keep 0 w in
    let norm := tmap (fun x => clamp x (10%:R ^- 5)) norm in let* w := tdiv w norm in
    let* c := t_min Yt ref w in t_md_loop pw (Some m) p q rtol Yt ref n c (Some c) st') in let: (c, st) := c in
    let* c := unsq 0 c in let* c := transpose 2 1 c in let* o := tmul Y c in Ok (o, st))%py].
Proof.
have [Yt [e1 s1 h1]] := transpose21 hY.
pose c0 : tensor C := mkT (behead (sh Yt)) (fun _ => 1); have s0 : sh c0 = [:: K, F & B] by rewrite /c0 /= s1.
have [E [e2 s2 h2]] := error_batch s1 h1 sr hR s0; have [Et [e3 s3 h3]] := transpose21 s2.
have [w [st' [e4 s4]]] := hm st s3; have [wt [e5 s5 h5]] := transpose21 s4.
exists Yt, E, wt, st'; split=> //; rewrite /t_minimum_distortion hY /= e1; cbn [bind]; rewrite -/c0 e2; cbn [bind].
rewrite /t_weights e3; cbn [bind]; rewrite e4; cbn [bind]; rewrite e5; cbn [bind].
case: (select 3 Z0 wt) => //= w1; case: (select 2 Z0 w1) => //= w2; case: (tsum_keep 0 w2) => //= nm; by case: (tdiv _ _).
Qed.
Lemma model_axes n st : B = [::] -> tmd Y ref n.+1 st = Err IndexError.
Proof. by move=> eB; have [Yt [E [w [st' [_ _ _ sw ->]]]]] := model_start n st; rewrite /select /TorchShape.select /TorchShape.size sw eB. Qed.
Lemma model_two_batch n st M1 M2 r : B = [:: M1, M2 & r] -> (0 < M1)%N -> (0 < F)%N -> F <> 1%N -> M2 <> 1%N -> F <> M2 ->
  tmd Y ref n.+1 st = Err RuntimeError.
Proof.
move=> eB m0 f0 f1 m1 fm; have [Yt [E [w [st' [sYt hYt _ sw ->]]]]] := model_start n st; rewrite eB in sw.
have [w1 [e1 s1 _]] := sel3 sw m0; rewrite (e1 : select 3 Z0 w = _); cbn [bind].
have [w2 [e2 s2 _]] := sel2 s1 f0; rewrite (e2 : select 2 Z0 w1 = _); cbn [bind].
rewrite (@tsum_keepE _ 0 _ N) ?s2 //; cbn [bind]; cbv zeta; set nm := tmap _ _.
have [|w3 [e3 s3 _]] := @zip_bc C (fun x y => x / y) w2 nm _ _ [:: N, K, M2 & r] s2 (erefl : sh nm = _).
  by rewrite /nm /= bc2n1 !bc2nn /= bcastss.
rewrite /tdiv e3; cbn [bind]; rewrite /t_min; have [r1 [-> s4 _]] := unsq1 sr; cbn [bind].
have [|a1 [e5 s5 _]] := @zip_bc C *%R r1 (tmap conjC Yt) _ _ [:: N, K, F & B] s4 sYt; first by rewrite /= bc21n !bc2nn /= (fits_bcast hR).
rewrite /tmul e5; cbn [bind]; rewrite /tzip s5 s3 /= !bc2nn /= /TorchShape.bc2 !eqbE.
by case: eqP => // _; case: eqP => // _; case: eqP.
Qed.

(* four axes: all elements and frequencies use the weights of element 0, frequency 0 *)
Variable M : nat.
Hypothesis eB : B = [:: M].
Hypothesis F0 : (0 < F)%N.
Hypothesis M0 : (0 < M)%N.
Local Notation yrow b f c := (spec_at K F N Y [:: nat_of_ord (b : 'I_M)] tt c f).
Local Notation rrow b f := (ref_at F N ref (bc_elem R [:: nat_of_ord (b : 'I_M)]) tt f).
Lemma model_step Yt c st : sh Yt = [:: N, K, F & B] -> (forall x y w i, at_ Yt [:: x, y, w & i] = at_ Y [:: x, w, y & i]) -> sh c = [:: K, F & B] ->
  exists E w st' c' e v, [/\ t_error Yt ref c = Ok E /\ t_weights pw (Some m) p q st E = Ok (w, st'), t_min Yt ref w = Ok c' /\ sh c' = [:: K, F & B],
    m st e = Ok (v, st'),
    sh e = [:: N, F, K & B] /\ (forall (b : 'I_M) f k (n : 'I_N), at_ e [:: nat_of_ord n; nat_of_ord f; nat_of_ord k; nat_of_ord b] =
       rrow b f 0 n - at_ c [:: nat_of_ord k; nat_of_ord f; nat_of_ord b] * yrow b f k 0 n) &
    forall b f k, weighted_fit (first_weights K N v k) (rrow b f) (yrow b f k) (at_ c' [:: nat_of_ord k; nat_of_ord f; nat_of_ord b])].
Proof.
move=> s1 h1 s0; have [E [e2 s2 h2]] := error_batch s1 h1 sr hR s0; have [e [e3 s3 h3]] := transpose21 s2.
have [v [st' [e4 s4]]] := hm st s3; have [wt [e5 s5 h5]] := transpose21 s4.
have s5' : sh wt = [:: N; K; F; M] by rewrite s5 eB.
have [w1 [e6 s6 h6]] := sel3 s5' M0; have [w2 [e7 s7 h7]] := sel2 s6 F0.
have hw2 x y : at_ w2 [:: x; y] = at_ v [:: x; 0%N; y; 0%N] by rewrite h7 h6 h5.
have [nm e8] : exists nm, tsum_keep 0 w2 = Ok nm /\ sh nm = [:: 1%N; K] /\ forall x y, at_ nm [:: x; y] = \sum_(j < N) at_ v [:: nat_of_ord j; 0%N; y; 0%N].
  rewrite (@tsum_keepE _ 0 _ N) ?s7 //; eexists; split; [reflexivity|split=> //] => x y; by apply: eq_bigr => j _; rewrite -hw2.
case: e8 => e8 [s8 h8]; set nc := tmap (fun x => clamp x (10%:R ^- 5)) nm.
have [|w [e9 s9 h9]] := @zip_bc C (fun x y => x / y) w2 nc _ _ [:: N; K] s7 (s8 : sh nc = _); first by rewrite /= bc2n1 !bc2nn.
have hw (k : 'I_K) (n : 'I_N) : at_ w [:: nat_of_ord n; nat_of_ord k] = first_weights K N v k 0 n.
  have i0 : inr [:: N; K] [:: nat_of_ord n; nat_of_ord k] by rewrite /= !ltn_ord.
  have i1 : inr [:: 1%N; K] [:: 0%N; nat_of_ord k] by rewrite /= !ltn_ord.
  rewrite h9 (clip_id i0) (_ : clip [:: 1%N; K] _ = clip [:: 1%N; K] [:: 0%N; nat_of_ord k]) // (clip_id i1) hw2 /nc; cbn [at_ tmap].
  by rewrite h8 mxE.
rewrite /t_min; have [r1 [e10 s10 h10]] := unsq1 sr.
have [|a1 [e11 s11 h11]] := @zip_bc C *%R r1 (tmap conjC Yt) _ _ [:: N, K, F & B] s10 s1; first by rewrite /= bc21n !bc2nn /= (fits_bcast hR).
have [|a2 [e12 s12 h12]] := @zip_bc C *%R a1 w _ _ [:: N, K, F & B] s11 s9; first by rewrite /= !bc2nn.
have [num [e13 s13 h13]] := tsum0 s12.
have [|a3 [e14 s14 h14]] := @zip_bc C *%R (tmap (fun x => `|x| ^+ 2) Yt) w _ _ [:: N, K, F & B] s1 s9; first by rewrite /= !bc2nn.
have [den [e15 s15 h15]] := tsum0 s14.
have [|c' [e16 s16 h16]] := @zip_bc C (fun x d => x / clamp d (@t_eps_gmdp C)) num den _ _ [:: K, F & B] s13 s15; first exact: bcastss.
exists E, w, st', c', e, v; split.
- split=> //; rewrite /t_weights e3; cbn [bind]; rewrite e4; cbn [bind]; rewrite e5; cbn [bind]; rewrite (e6 : select 3 Z0 wt = _); cbn [bind].
  by rewrite (e7 : select 2 Z0 w1 = _); cbn [bind]; rewrite e8; cbn [bind]; rewrite /tdiv e9.
- by rewrite e10; cbn [bind]; rewrite /tmul e11; cbn [bind]; rewrite e12; cbn [bind]; rewrite e13; cbn [bind]; rewrite e14; cbn [bind]; rewrite e15; cbn [bind].
- exact: e4.
- split=> // b f k n; rewrite h3 h2; last by rewrite eB /= ltn_ord.
  by rewrite !mxE ffunE.
move=> b f k.
have hb : inr B [:: nat_of_ord b] by rewrite eB /= ltn_ord.
have i2 : inr [:: K, F & B] [:: nat_of_ord k; nat_of_ord f; nat_of_ord b] by rewrite /= !ltn_ord.
have cw (n : 'I_N) : clip [:: N; K] [:: nat_of_ord n; nat_of_ord k; nat_of_ord f; nat_of_ord b] = [:: nat_of_ord n; nat_of_ord k] by rewrite -[LHS]/[:: (if N == 1%N then 0%N else nat_of_ord n); (if K == 1%N then 0%N else nat_of_ord k)] !clip1.
have i3 (n : 'I_N) : inr [:: N, K, F & B] [:: nat_of_ord n; nat_of_ord k; nat_of_ord f; nat_of_ord b] by rewrite /= !ltn_ord.
have hn : at_ num [:: nat_of_ord k; nat_of_ord f; nat_of_ord b] = \sum_n rrow b f 0 n * (yrow b f k 0 n)^* * first_weights K N v k 0 n.
  rewrite h13; apply: eq_bigr => n _; rewrite h12 (clip_id (i3 n)) h11 (clip_id (i3 n)) cw hw; cbn [at_ tmap]; rewrite h1 !mxE; congr (_ * _ * _).
  by rewrite -clip_fits /clip /= !clip1 h10.
have hd : at_ den [:: nat_of_ord k; nat_of_ord f; nat_of_ord b] = \sum_n `|yrow b f k 0 n| ^+ 2 * first_weights K N v k 0 n.
  by rewrite h15; apply: eq_bigr => n _; rewrite h14 (clip_id (i3 n)) cw hw; cbn [at_ tmap]; rewrite h1 !mxE.
rewrite /weighted_fit h16 !(clip_id i2) hn hd -/(clamp _ _) divfK //.
rewrite /clamp; case: ifP => h; first by rewrite invr_eq0 expf_eq0 pnatr_eq0.
by apply/negP => /eqP z0; move: h; rewrite z0 invr_gt0 exprn_gt0 ?ltr0n.
Qed.
Definition cval (c : tensor C) (b : 'I_M) (f : 'I_F) (k : 'I_K) : C := at_ c [:: nat_of_ord k; nat_of_ord f; nat_of_ord b].
Local Notation sstep := (@shared_step C K F N M R Y ref St m).
Lemma model_loop Yt fuel c prev st : sh Yt = [:: N, K, F & B] -> (forall x y w i, at_ Yt [:: x, y, w & i] = at_ Y [:: x, w, y & i]) ->
  sh c = [:: K, F & B] -> (if prev is Some pr then sh pr = [:: K, F & B] else True) ->
  exists k c' (cs : nat -> tensor C) (sts : nat -> St), [/\ t_md_loop pw (Some m) p q rtol Yt ref fuel c prev st = Ok (c', sts k), sh c' = [:: K, F & B],
    (minn (if prev is None then 2 else 1) fuel <= k <= fuel)%N, [/\ sts 0%N = st, cs 0%N = c & cs k = c'] &
    forall j, (j < k)%N -> sstep (sts j) (sts j.+1) (cval (cs j)) (cval (cs j.+1))].
Proof.
move=> sYt hYt; elim: fuel c prev st => [|n IH] c prev st sc sp.
  by exists 0%N, c, (fun _ => c), (fun _ => st); split=> //; rewrite minn0.
have [E [w [st' [c1 [e [v [[e1 e2] [e3 s1] e4 [s5 h5] h6]]]]]]] := model_step st sYt hYt sc.
have hs : sstep st st' (cval c) (cval c1) by exists e, v; rewrite s5 hY.
cbn [t_md_loop]; rewrite e1; cbn [bind]; rewrite e2; cbn [bind]; rewrite e3; cbn [bind].
have go (prev' : option (tensor C)) : sh c1 = [:: K, F & B] -> exists k c' (cs : nat -> tensor C) (sts : nat -> St),
    [/\ t_md_loop pw (Some m) p q rtol Yt ref n c1 (Some c1) st' = Ok (c', sts k), sh c' = [:: K, F & B],
    (minn (if prev' is None then 2 else 1) n.+1 <= k <= n.+1)%N, [/\ sts 0%N = st, cs 0%N = c & cs k = c'] &
    forall j, (j < k)%N -> sstep (sts j) (sts j.+1) (cval (cs j)) (cval (cs j.+1))].
  move=> _; have [k [c2 [cs [sts [e7 s7 hk [z1 z2 z3] h7]]]]] := IH c1 (Some c1) st' s1 s1.
  exists k.+1, c2, (fun j => if j is i.+1 then cs i else c), (fun j => if j is i.+1 then sts i else st); split=> //.
    by rewrite !minnE in hk *; case: (prev'); lia.
  by case=> [|j] hj; [rewrite z1 z2|exact: h7].
case: prev sp => [pr|] sp; last exact: (go None s1).
have [s [es _]] := small_shape rtol s1 sp; rewrite es; cbn [bind]; case: s es => es; last exact: (go (Some pr) s1).
exists 1%N, c1, (fun j => if j is i.+1 then c1 else c), (fun j => if j is i.+1 then st' else st); split=> //; first by rewrite minnE; lia.
by case.
Qed.
Lemma model_shared n st : exists k (cs : nat -> 'I_M -> 'I_F -> 'I_K -> C) (sts : nat -> St) o,
  [/\ tmd Y ref n st = Ok (o, sts k), (minn 2 n <= k <= n)%N, sts 0%N = st /\ (forall b f c, cs 0%N b f c = 1),
    forall j, (j < k)%N -> sstep (sts j) (sts j.+1) (cs j) (cs j.+1) &
    sh o = sh Y /\ forall (b : 'I_M) f c (x : 'I_N), at_ o [:: nat_of_ord x; nat_of_ord f; nat_of_ord c; nat_of_ord b] = cs k b f c * at_ Y [:: nat_of_ord x; nat_of_ord f; nat_of_ord c; nat_of_ord b]].
Proof.
have [Yt [e1 s1 h1]] := transpose21 hY.
pose c0 : tensor C := mkT [:: K, F & B] (fun _ => 1).
have [k [c' [cs [sts [e2 s2 hk [z1 z2 z3] h2]]]]] := @model_loop Yt n c0 None st s1 h1 erefl I.
have [o [e3 s3 h3]] := finish hY s2.
exists k, (fun j => cval (cs j)), sts, o; split=> //.
- rewrite /t_minimum_distortion hY /= e1 /= s1 /= -/c0 e2; cbn [bind]; cbv iota beta.
  by move: e3 => /=; case: (transpose 2 1 _) => //= u'; case: (tmul Y u') => //= o' [->].
- by split=> // b f c; rewrite /cval z2.
split; first by rewrite s3 hY.
by move=> b f c x; rewrite h3 ?eB /= ?ltn_ord // mulrC /cval z3.
Qed.
End Model.
End T.
