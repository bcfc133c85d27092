From Coq Require Import String.
From mathcomp Require Import all_ssreflect all_algebra.
From mathcomp.solvable Require Import cyclic.
From mathcomp.field Require Import separable.
From mathcomp Require Import zify.
From Verif Require Import CAlg Py FftModel FftSpec.
Set Implicit Arguments. Unset Strict Implicit. Unset Printing Implicit Defensive.
Import GRing.Theory Num.Theory Order.TTheory.
Local Open Scope ring_scope.

Section Roots.
Variable C : numClosedFieldType.
Lemma separable_Xn1 n : n%:R != 0 :> C -> separable_poly ('X^n - 1 : {poly C}).
Proof.
case: n => [|n nz_n]; first by rewrite eqxx.
by rewrite /separable_poly linearB /= derivC subr0 derivXn -scaler_nat coprimepZr //= exprS -scaleN1r
  coprimep_sym coprimep_addl_mul coprimepZr ?coprimep1 // (signr_eq0 _ 1).
Qed.
Lemma prim_root_ex n : (0 < n)%N -> {z : C | n.-primitive_root z}.
Proof.
move=> n0; set p : {poly C} := 'X^n - 1.
have [r Dp] := closed_field_poly_normal p.
have lp : lead_coef p = 1 by rewrite lead_coefDl ?lead_coefXn // size_polyXn size_opp size_poly1.
rewrite lp scale1r in Dp.
have sp : size p = n.+1 by rewrite size_addl ?size_polyXn // size_opp size_poly1.
have sr : size r = n by move: sp; rewrite Dp size_prod_XsubC => -[].
have ur : uniq r.
  by rewrite -separable_prod_XsubC -Dp separable_Xn1 // pnatr_eq0 -lt0n.
have ar : all n.-unity_root r.
  apply/allP=> z zr; rewrite unity_rootE -subr_eq0.
  have /eqP: p.[z] = 0 by apply/rootP; rewrite Dp root_prod_XsubC.
  by rewrite /p !hornerE hornerXn.
have h : has n.-primitive_root r by apply: has_prim_root => //; rewrite sr.
by exists (nth 0 r (find n.-primitive_root r)); exact: nth_find.
Qed.
Lemma unit_roots_ex : exists root : nat -> C, unit_roots root.
Proof.
exists (fun n => if n is n'.+1 then sval (prim_root_ex (ltn0Sn n')) else 1).
by case=> [//|n] _; exact: svalP (prim_root_ex (ltn0Sn n)).
Qed.
Lemma root_conj n (w : C) : n.-primitive_root w -> w^* = w^-1.
Proof.
move=> h; have n0 := prim_order_gt0 h.
have w1 : `|w| = 1.
  apply/eqP; rewrite -(@pexpr_eq1 _ _ n) ?normr_ge0 // -normrX (prim_expr_order h) normr1 eqxx //.
by rewrite [w^-1]invC_norm w1 expr1n invr1 mul1r.
Qed.
Lemma root_neq0 n (w : C) : n.-primitive_root w -> w != 0.
Proof.
move=> h; apply/negP=> /eqP w0; have := prim_expr_order h.
by rewrite w0 expr0n gtn_eqF ?(prim_order_gt0 h) // => /eqP; rewrite eq_sym oner_eq0.
Qed.
(* orthogonality *)
Lemma ortho n (w : C) a b : n.-primitive_root w ->
  \sum_(k < n) w ^+ (a * k) * w^-1 ^+ (b * k) = (if (a %% n == b %% n)%N then n%:R else 0).
Proof.
move=> h; have w0 := root_neq0 h.
have E k : w ^+ (a * k) * w^-1 ^+ (b * k) = (w ^+ a / w ^+ b) ^+ k by rewrite !exprM exprMn exprVn.
rewrite (eq_bigr (fun k : 'I_n => (w ^+ a / w ^+ b) ^+ k)); last by move=> k _; exact: E.
have wb : w ^+ b != 0 by rewrite expf_neq0.
case: ifP => [eab|nab].
  have /eqP -> : w ^+ a == w ^+ b by rewrite (eq_prim_root_expr h).
  rewrite divff // (eq_bigr (fun=> 1)); last by move=> k _; rewrite expr1n.
  by rewrite sumr_const card_ord.
set z := _ / _; have z1 : z - 1 != 0.
  rewrite subr_eq0 /z -[X in _ == X](divff wb) (inj_eq (mulIf _)) ?invr_neq0 //.
  by rewrite (eq_prim_root_expr h) nab.
have : (z - 1) * (\sum_(k < n) z ^+ k) = 0.
  by rewrite -subrX1 /z exprMn exprVn -!exprM mulnC (mulnC b) !exprM !(prim_expr_order h) !expr1n divr1 subrr.
by move/eqP; rewrite mulf_eq0 (negPf z1) => /eqP.
Qed.
End Roots.

Section Fft.
Variable C : numClosedFieldType.
Variable root : nat -> C.
Hypothesis Hroot : unit_roots root.
Implicit Types (x y : seq C) (n k t : nat).

Lemma rfft_conj n (x : nat -> C) k : (k < n)%N -> (forall j, x j \is Num.real) ->
  (rfft root n x (n - k))^* = rfft root n x k.
Proof.
move=> kn xr; have n0 : (0 < n)%N by exact: leq_ltn_trans kn.
have h := Hroot n0; have w0 := root_neq0 h.
rewrite /rfft rmorph_sum; apply: eq_bigr => j _; rewrite rmorphM rmorphX (root_conj h) conj_Creal //.
congr (_ * _); rewrite exprVn; apply: (mulfI (expf_neq0 (j * (n - k)) w0)).
rewrite divff ?expf_neq0 // -exprD -mulnDr subnK ?(ltnW kn) // mulnC exprM (prim_expr_order h) expr1n //.
Qed.
(* the half spectrum of a real signal determines the full one *)
Lemma irfft_real n (X : nat -> C) t : (0 < n)%N -> (forall k, (0 < k < n)%N -> (X (n - k)%N)^* = X k) -> 
  irfft root n X t = 'Re ((\sum_(k < n) X k * (root n)^-1 ^+ (t * k)) / n%:R).
Proof.
move=> n0 h; rewrite /irfft; congr ('Re (_ / _)); apply: eq_bigr => k _; case: ifP => // kn.
by rewrite h // ltn_ord andbT lt0n; apply: contraFN kn => /eqP ->.
Qed.
Lemma irfft_rfft n (x : nat -> C) t : (t < n)%N -> (forall j, x j \is Num.real) ->
  irfft root n (rfft root n x) t = x t.
Proof.
move=> tn xr; have n0 : (0 < n)%N by exact: leq_ltn_trans tn.
rewrite irfft_real //; last by move=> k /andP[_ kn]; exact: rfft_conj.
have nC : n%:R != 0 :> C by rewrite pnatr_eq0 -lt0n.
rewrite (eq_bigr (fun k : 'I_n => \sum_(j < n) x j * (root n ^+ (j * k) * (root n)^-1 ^+ (t * k)))); last first.
  by move=> k _; rewrite /rfft mulr_suml; apply: eq_bigr => j _; rewrite mulrA.
rewrite exchange_big /= (eq_bigr (fun j : 'I_n => if j == Ordinal tn then x t * n%:R else 0)); last first.
  move=> j _; rewrite -mulr_sumr (ortho _ _ (Hroot n0)) !modn_small // -val_eqE /=.
  by case: eqP => [->|]; rewrite ?mulr0.
by rewrite -big_mkcond big_pred1_eq mulfK // (Creal_ReP _ _).
Qed.
Lemma conv_real x y t : real_signal x -> real_signal y -> conv x y t \is Num.real.
Proof. by move=> xr yr; rewrite rpred_sum // => i _; rewrite rpred_sum // => j _; exact: rpredM. Qed.
Lemma big_nth0 n (x : seq C) (F : nat -> C -> C) : (size x <= n)%N -> (forall j, F j 0 = 0) ->
  \sum_(j < n) F j x`_j = \sum_(j < size x) F j x`_j.
Proof.
move=> sn F0; rewrite (big_ord_widen n (fun j => F j x`_j) sn) [LHS](bigID (fun j : 'I_n => j < size x)%N) /=.
rewrite [X in _ + X]big1 ?addr0 // => j; rewrite -leqNgt => jx; by rewrite nth_default.
Qed.
Lemma fft_conv x y t : (0 < size x)%N -> (0 < size y)%N -> real_signal x -> real_signal y ->
  let n := (size x + size y - 1)%N in (t < n)%N ->
  irfft root n (fun k => rfft root n (nth 0 x) k * rfft root n (nth 0 y) k) t = conv x y t.
Proof.
move=> x0 y0 xr yr n tn; have n0 : (0 < n)%N by exact: leq_ltn_trans tn.
rewrite irfft_real //; last by move=> k /andP[_ kn]; rewrite rmorphM !rfft_conj.
have nC : n%:R != 0 :> C by rewrite pnatr_eq0 -lt0n.
have sx : (size x <= n)%N by rewrite /n; case: (size y) y0 => // m _; rewrite addnS subn1 leq_addr.
have sy : (size y <= n)%N by rewrite /n; case: (size x) x0 => // m _; rewrite addSn subn1 leq_addl.
have ER z k : (size z <= n)%N -> rfft root n (nth 0 z) k = \sum_(j < size z) z`_j * root n ^+ (j * k).
  by move=> sz; apply: (big_nth0 (F := fun j c => c * root n ^+ (j * k)) sz) => j; rewrite mul0r.
rewrite (eq_bigr (fun k : 'I_n => \sum_(i < size x) \sum_(j < size y)
   x`_i * y`_j * (root n ^+ ((i + j) * k) * (root n)^-1 ^+ (t * k)))); last first.
  move=> k _; rewrite !ER // mulr_suml mulr_suml; apply: eq_bigr => i _.
  rewrite mulr_sumr mulr_suml; apply: eq_bigr => j _.
  by rewrite mulnDl exprD !mulrA; congr (_ * _); rewrite -!mulrA; congr (_ * _); rewrite mulrCA.
rewrite exchange_big /= (eq_bigr (fun i : 'I_(size x) => (\sum_(j < size y | (i + j)%N == t) x`_i * y`_j) * n%:R)); last first.
  move=> i _; rewrite exchange_big /= mulr_suml [RHS]big_mkcond; apply: eq_bigr => j _.
  rewrite -mulr_sumr (ortho _ _ (Hroot n0)) !modn_small //; last first.
    rewrite /n; case: (size x) (size y) i j x0 y0 => [|a] [|b] // i j _ _.
    by rewrite addnS subn1 /= addSn ltnS leq_add // -ltnS.
  by case: ifP; rewrite ?mulr0.
by rewrite -mulr_suml mulfK // (Creal_ReP _ _) // conv_real.
Qed.
Lemma conv_out x y t : (0 < size x)%N -> (0 < size y)%N -> (size x + size y - 1 <= t)%N -> conv x y t = 0.
Proof.
move=> x0 y0 h; rewrite /conv big1 // => i _; rewrite big_pred0 // => j; apply/negbTE; rewrite neq_ltn.
apply/orP; left; apply: leq_trans h; case: (size x) (size y) i j x0 y0 => [|a] [|b] // i j _ _.
by rewrite addnS subn1 /= addSn ltnS leq_add // -ltnS.
Qed.
Lemma slice_mkseq (f : nat -> C) n a l : (a + l <= n)%N -> slice (mkseq f n) a (a + l) = mkseq (fun t => f (a + t)%N) l.
Proof.
move=> h; rewrite /slice addKn /mkseq -map_drop -map_take drop_iota add0n take_iota (minn_idPl _).
  by rewrite -[X in iota X _]addn0 iotaDl -map_comp; apply: eq_map.
by rewrite leq_subRL // (leq_trans (leq_addr _ _) h).
Qed.
Lemma fft_full x y : (0 < size x)%N -> (0 < size y)%N -> real_signal x -> real_signal y ->
  fftconvolve root x y "full" = Ok (mkseq (conv x y) (size x + size y - 1)).
Proof.
move=> x0 y0 xr yr; rewrite /fftconvolve /=; congr Ok; rewrite -[X in slice _ _ X]add0n slice_mkseq ?add0n //.
by apply/eq_in_map => t; rewrite mem_iota => /andP[_ ht]; rewrite add0n fft_conv.
Qed.
Lemma fft_same x y : (0 < size x)%N -> (0 < size y)%N -> real_signal x -> real_signal y ->
  fftconvolve root x y "same" = Ok (mkseq (fun t => conv x y ((size y - 1) %/ 2 + t)) (size x)).
Proof.
move=> x0 y0 xr yr; rewrite /fftconvolve /=; congr Ok.
have E : (size x + size y - 1 - size x = size y - 1)%N by rewrite -addnBA // addKn.
have L : ((size y - 1) %/ 2 + size x <= size x + size y - 1)%N.
  by rewrite addnC -addnBA // leq_add2l leq_div.
rewrite E slice_mkseq //.
apply/eq_in_map => t; rewrite mem_iota add0n => /andP[_ ht]; rewrite fft_conv //.
by apply: leq_trans L; rewrite ltn_add2l.
Qed.
Lemma fft_valid x y : (0 < size x)%N -> (0 < size y)%N -> real_signal x -> real_signal y ->
  fftconvolve root x y "valid" = Ok (mkseq (fun t => conv x y (minn (size x) (size y) - 1 + t))
    (maxn (size x) (size y) - minn (size x) (size y) + 1)).
Proof.
move=> x0 y0 xr yr; rewrite /fftconvolve /=; congr Ok.
set a := minn _ _; set b := maxn _ _.
have ab : (a <= b)%N by rewrite /a /b geq_min leq_max leqnn.
have sab : (size x + size y = a + b)%N by rewrite /a /b addn_min_max.
have a0 : (0 < a)%N by rewrite leq_min x0.
have E : (a + b - 1 - (b - a + 1) = (a - 1) * 2)%N by lia.
have -> : ((size x + size y - 1 - (b - a + 1)) %/ 2 = a - 1)%N by rewrite sab E mulnK.
have L : (a - 1 + (b - a + 1) <= size x + size y - 1)%N by rewrite sab; lia.
rewrite slice_mkseq //.
apply/eq_in_map => t; rewrite mem_iota add0n => /andP[_ ht]; rewrite fft_conv //.
by apply: leq_trans L; rewrite ltn_add2l.
Qed.
(* where the shorter signal is completely covered, every product counts *)
Lemma conv_valid x y t : (size y <= size x)%N -> (0 < size y)%N -> (t <= size x - size y)%N ->
  conv x y (size y - 1 + t) = \sum_(j < size y) x`_(size y - 1 + t - j) * y`_j.
Proof.
move=> yx y0 ht; rewrite /conv (exchange_big_dep xpredT) //=; apply: eq_bigr => j _.
have jl : (size y - 1 + t - j < size x)%N by lia.
rewrite (big_pred1 (Ordinal jl)) // => i; rewrite /= -val_eqE /=; apply/eqP/eqP; have := ltn_ord j; lia.
Qed.
Lemma fft_bad_mode x y m : ~ List.In m [:: "full"; "same"; "valid"]%string -> fftconvolve root x y m = Err ValueError.
Proof.
move=> h; rewrite /fftconvolve; do 3 (case: String.eqb_spec => [E|_]; first by case: h; rewrite E /=; tauto).
by [].
Qed.
End Fft.
