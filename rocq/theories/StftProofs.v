From mathcomp Require Import all_ssreflect all_algebra zify.
From Verif Require Import CAlg Py FftModel FftSpec FftProofs StftModel StftSpec.
Set Implicit Arguments. Unset Strict Implicit. Unset Printing Implicit Defensive.
Import GRing.Theory Num.Theory Order.TTheory.
Local Open Scope ring_scope.

Section MapM.
Variables (S : Type) (T : eqType) (f : S -> result T).
Lemma mapM_ok l g : (forall x, f x = Ok (g x)) -> mapM f l = Ok [seq g x | x <- l].
Proof. by move=> h; elim: l => //= x l ->; rewrite h. Qed.
End MapM.
Lemma mapM_ok_in (S : eqType) (T : Type) (f : S -> result T) l g :
  {in l, forall x, f x = Ok (g x)} -> mapM f l = Ok [seq g x | x <- l].
Proof.
elim: l => //= x l IH h; rewrite h ?mem_head //= IH // => y yl; apply: h; by rewrite in_cons yl orbT.
Qed.
Lemma mapM_all (S T : Type) (f : S -> result T) l : (forall x, List.In x l -> exists y, f x = Ok y) ->
  exists ys, mapM f l = Ok ys /\ size ys = size l.
Proof.
elim: l => [|x l IH] h /=; first by exists [::].
have [y ->] := h x (or_introl erefl); have [|ys [-> s]] := IH; first by move=> z zl; apply: h; right.
by exists (y :: ys); rewrite /= s.
Qed.

Section Stft.
Variable C : numClosedFieldType.
Variable root : nat -> C.
Hypothesis Hroot : unit_roots root.
Variables (n_fft : nat) (hop_length : option nat) (window : nat -> C).
Local Notation hop := (hop n_fft hop_length).
Local Notation half := (half n_fft).
Local Notation covers := (covers n_fft hop_length).
Local Notation oladd := (overlap_add n_fft hop_length).
Local Notation stft := (stft root n_fft hop_length window).
Local Notation istft := (istft root n_fft hop_length window).
Local Notation rec := (recovered n_fft hop).

Lemma fit_size n (y : seq C) : size (fit n y) = n.
Proof. rewrite /fit; case: ltngtP => h //; [rewrite size_cat size_nseq|rewrite size_take h]; lia. Qed.
Lemma forward_size sep n xs ys : sep_forward root n_fft hop_length window sep n xs = Ok ys ->
  forall y, y \in ys -> size y = n.
Proof.
rewrite /sep_forward; case: (mapM _ xs) => //= X; case: (sep X) => //= Y; case: (mapM _ Y) => //= y [<-] z.
by case/mapP => u _ ->; exact: fit_size.
Qed.
Lemma stft_short x : (size x <= half)%N -> stft x = Err RuntimeError.
Proof. by rewrite /StftModel.stft => ->; rewrite orbT. Qed.
Lemma forward_short sep n x xs : (size x <= half)%N ->
  sep_forward root n_fft hop_length window sep n (x :: xs) = Err RuntimeError.
Proof. by move=> h; rewrite /sep_forward /= stft_short. Qed.
Lemma forward_hop0 sep n x xs : hop = 0%N ->
  sep_forward root n_fft hop_length window sep n (x :: xs) = Err RuntimeError.
Proof. by move=> h; rewrite /sep_forward /= /StftModel.stft h. Qed.
Lemma istft_hop X : (n_fft < hop)%N -> istft X = Err RuntimeError.
Proof. by case: X => nf X; rewrite /StftModel.istft => ->; rewrite orbT. Qed.

(* number of frames and of samples *)
Lemma half_bounds : (half + half <= n_fft <= half + half + 1)%N.
Proof. by rewrite /StftModel.half; have := divn_eq n_fft 2; have := ltn_pmod n_fft (isT : 0 < 2)%N; lia. Qed.
Lemma half_odd : n_fft = (half + half + odd n_fft)%N.
Proof. by rewrite /StftModel.half divn2 {1}(esym (odd_double_half n_fft)) -addnn; lia. Qed.
Definition frames (n : nat) := (1 + (n + 2 * half - n_fft) %/ hop)%N.
Lemma out_len n : (half < n)%N -> (n_fft + hop * (frames n - 1) - 2 * half = rec n)%N.
Proof.
move=> hn; rewrite /frames addKn /recovered; have h := half_odd.
case: (odd n_fft) h => /= h.
  have -> : (n + 2 * half - n_fft = n - 1)%N by lia.
  by set q := muln _ _; lia.
have -> : (n + 2 * half - n_fft = n)%N by lia.
by set q := muln _ _; lia.
Qed.
Lemma rec_le n : (half < n)%N -> (rec n <= n)%N.
Proof.
move=> hn; rewrite /recovered; case: ifP => _; rewrite mulnC.
  by have := leq_trunc_div (n - 1) hop; lia.
exact: leq_trunc_div.
Qed.
Hypothesis Hw : good_window n_fft hop window.
Lemma win_real j : window j \is Num.real. Proof. by case: Hw. Qed.
Lemma sq_ge0 j : 0 <= window j ^+ 2.
Proof. by rewrite real_exprn_even_ge0 ?win_real. Qed.
Lemma hop_bounds : (0 < hop <= n_fft)%N.
Proof. case: Hw => _ [h0 [a [_ _ h3 _]]]; lia. Qed.
Lemma env_big nf t : (0 < nf)%N -> (t < n_fft + hop * (nf - 1) - 2 * half)%N ->
  10%:R ^- 11 < oladd nf (fun _ j => window j ^+ 2) (half + t).
Proof.
move=> nf0 ht; case: Hw => _ [_ [a [h1 h2 h3 h4]]]; have /andP[hop0 hopn] := hop_bounds; have hb := half_bounds.
rewrite -/half in h1 h2.
set m := ((half + t - a) %/ hop)%N.
have d1 : (m * hop <= half + t - a)%N by exact: leq_trunc_div.
have d2 : (half + t - a < m * hop + hop)%N by rewrite -mulSnr; exact: ltn_ceil.
have mnf : (m < nf)%N.
  rewrite ltn_divLR //; apply: (leq_trans (n := n_fft - half - a + hop * (nf - 1))%N); first by lia.
  by case: (nf) nf0 ht => // k _ _; rewrite subn1 /= mulSn mulnC; lia.
rewrite /overlap_add (bigD1 (Ordinal mnf)) /=; last by rewrite /StftModel.covers; lia.
apply: (@lt_le_trans _ _ (window (half + t - m * hop)%N ^+ 2)); first by apply: h4; lia.
by rewrite ler_addl sumr_ge0 // => i _; exact: sq_ge0.
Qed.
Lemma istft_ok nf (X : nat -> nat -> C) : (0 < nf)%N -> (0 < n_fft + hop * (nf - 1) - 2 * half)%N ->
  istft (nf, X) = Ok (mkseq (fun t => oladd nf (fun m j => irfft root n_fft (fun k => X k m) j * window j) (half + t)
     / oladd nf (fun _ j => window j ^+ 2) (half + t)) (n_fft + hop * (nf - 1) - 2 * half)).
Proof.
move=> nf0 l0; have /andP[hop0 hopn] := hop_bounds.
rewrite /StftModel.istft !gtn_eqF // ltnNge hopn /=.
case: hasP => // -[t]; rewrite mem_iota add0n => /andP[_ tl] /negP[].
have h := env_big nf0 tl; apply: lt_le_trans h _; rewrite real_ler_norm // ger0_real //.
by rewrite sumr_ge0 // => i _; exact: sq_ge0.
Qed.
Lemma stft_ok x : (half < size x)%N -> stft x = Ok (frames (size x),
   fun k m => rfft root n_fft (fun j => window j * reflect n_fft x (m * hop + j)) k).
Proof.
move=> h; have /andP[hop0 _] := hop_bounds; by rewrite /StftModel.stft gtn_eqF // leqNgt h.
Qed.
Lemma reflect_real (x : seq C) t : real_signal x -> reflect n_fft x t \is Num.real.
Proof. by move=> xr; rewrite /reflect; case: ifP => _; last case: ifP => _; exact: xr. Qed.
Lemma istft_stft x : real_signal x -> (half < size x)%N -> (0 < rec (size x))%N ->
  bind (stft x) istft = Ok (take (rec (size x)) x).
Proof.
move=> xr hx r0; rewrite stft_ok //; etransitivity; first by apply: istft_ok; rewrite ?out_len.
rewrite out_len //; congr Ok.
apply: (@eq_from_nth _ 0); first by rewrite size_mkseq size_take; have := rec_le hx; case: ltngtP; lia.
move=> t; rewrite size_mkseq => tl; rewrite nth_mkseq // nth_take //.
set env := oladd _ (fun _ j => window j ^+ 2) _.
have env0 : env != 0.
  have h : 10%:R ^- 11 < env by apply: (@env_big (frames (size x)) t); rewrite ?out_len.
  apply: lt0r_neq0; apply: lt_trans h; by rewrite invr_gt0 exprn_gt0 // ltr0n.
apply: (mulIf env0); rewrite divfK // /env /overlap_add mulr_sumr; apply: eq_bigr => m /andP[c1 c2].
rewrite irfft_rfft //; [|lia|by move=> j; rewrite rpredM ?win_real ?reflect_real].
have -> : (m * hop + (half + t - m * hop) = half + t)%N by lia.
have tx : (t < size x)%N by apply: leq_trans tl (rec_le hx).
by rewrite /reflect ltnNge leq_addr /= addKn tx expr2 [_ * x`_t]mulrC -mulrA.
Qed.
Lemma round_trip n xs : (half < n)%N -> (0 < rec n)%N -> (forall x, x \in xs -> real_signal x /\ size x = n) ->
  sep_forward root n_fft hop_length window (fun X => Ok X) n xs = Ok [seq take (rec n) x ++ nseq (n - rec n) 0 | x <- xs].
Proof.
move=> hn r0 hx; have rn := rec_le hn.
suff: forall l, (forall x, x \in l -> real_signal x /\ size x = n) ->
  exists X, mapM stft l = Ok X /\ mapM istft X = Ok [seq take (rec n) x | x <- l].
  move=> /(_ _ hx) [X [e1 e2]]; rewrite /sep_forward e1 /= e2 /=; congr Ok; rewrite -map_comp.
  apply/eq_in_map => x xl /=; have [_ sx] := hx _ xl; have st : size (take (rec n) x) = rec n.
    by rewrite size_take sx; move: rn; case: ltngtP; lia.
  rewrite /fit st; move: rn; case: ltngtP => // e _.
  by rewrite e subnn cats0.
elim=> [|x l IH] h /=; first by exists [::].
have [xr sx] := h x (mem_head _ _); have [|X [-> e2]] := IH.
  by move=> y yl; apply: h; rewrite in_cons yl orbT.
have := istft_stft xr; rewrite sx => /(_ hn r0); case: (stft x) => //= s E.
by exists (s :: X); rewrite /= E /= e2.
Qed.
Lemma stft_all n (xs : seq (seq C)) : (half < n)%N -> (forall x, x \in xs -> size x = n) ->
  exists X, [/\ mapM stft xs = Ok X, size X = size xs & forall s, List.In s X -> s.1 = frames n].
Proof.
move=> hn; elim: xs => [|x l IH] h /=; first by exists [::].
have [|X [-> s f]] := IH; first by move=> y yl; apply: h; rewrite in_cons yl orbT.
rewrite stft_ok h ?mem_head //=; eexists; split; [by []|by rewrite /= s|].
by move=> u /= [<-|/f].
Qed.
Lemma round_trip_empty n (xs : seq (seq C)) : (half < n)%N -> rec n = 0%N -> (forall x, x \in xs -> size x = n) -> xs != [::] ->
  sep_forward root n_fft hop_length window (fun X => Ok X) n xs = Err RuntimeError.
Proof.
move=> hn r0 hx; have [X [e s f]] := stft_all hn hx; rewrite /sep_forward e /=.
case: xs s {hx e} => // x xs; case: X f => //= -[nf Z] X f _ _.
have /= -> := f _ (or_introl erefl); rewrite out_len // r0 /=; by case: ifP.
Qed.
Lemma no_failure sep n (xs : seq (seq C)) : (half < n)%N -> (0 < rec n)%N -> (forall x, x \in xs -> size x = n) ->
  (forall X, size X = size xs -> (forall s, List.In s X -> s.1 = frames n) ->
     exists Y, sep X = Ok Y /\ forall s, List.In s Y -> s.1 = frames n) ->
  exists ys, sep_forward root n_fft hop_length window sep n xs = Ok ys.
Proof.
move=> hn r0 hx hs.
have [X [e1 s f]] := stft_all hn hx; have [Y [e2 g]] := hs X s f.
have [|ys [e3 _]] := @mapM_all _ _ istft Y.
  by move=> [nf Z] /g /= ->; eexists; apply: istft_ok; rewrite ?out_len.
by eexists; rewrite /sep_forward e1 /= e2 /= e3.
Qed.
End Stft.
