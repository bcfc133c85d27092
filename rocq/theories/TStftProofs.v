(* Proofs for TStftModel.v. *)
From Coq Require Import ZArith.
From mathcomp Require Import all_ssreflect all_algebra.
From Verif Require TorchShape.
From Verif Require Import CAlg Py FftModel StftModel TensorModel TSpec TensorProofs TOpsModel TOpsProofs TTissModel TIpModel TStftModel TStftSpec.
From mathcomp Require Import zify.
Set Implicit Arguments. Unset Strict Implicit. Unset Printing Implicit Defensive.
Import GRing.Theory Num.Theory.
Local Open Scope ring_scope.

Lemma flat_lt s i : inr s i -> (flat s i < TorchShape.numel s)%N.
Proof.
elim: s i => [|n s IH] [|x i] //; rewrite numel_cons => /andP [hx hi]; cbn [flat].
have h := IH _ hi; apply: (@leq_trans (n * (flat s i).+1)); last by rewrite leq_mul2l h orbT.
by rewrite mulnS ltn_add2r.
Qed.

Section Proofs.
Variable C : numClosedFieldType.
Local Notation tensor := (tensor C).
Variable root : nat -> C.
Variables (n_fft : nat) (hop_length : option nat) (window : nat -> C).
Local Notation stft := (stft root n_fft hop_length window).
Local Notation istft := (istft root n_fft hop_length window).
Local Notation half := (half n_fft).
Local Notation hop := (hop n_fft hop_length).
Local Notation frames := (frames_of n_fft hop_length).
Local Notation t_stft := (t_stft root n_fft hop_length window).
Local Notation t_istft := (t_istft root n_fft hop_length window).
Local Notation t_bss_forward := (t_bss_forward root n_fft hop_length window).

(* value of a transform *)
Definition sval (x : seq C) k m : C := if stft x is Ok s then s.2 k m else 0.
Definition ival (X : spec C) t : C := if istft X is Ok y then y`_t else 0.
Definition bad (n : nat) : bool := (hop == 0)%N || (n <= half)%N.
Lemma stftE x : stft x = if bad (size x) then Err RuntimeError else Ok (frames (size x), fun k m => sval x k m).
Proof. rewrite /bad /sval /StftModel.stft; by case: ifP. Qed.
Lemma reshape2 (x : tensor) n r : sh x = n :: r -> exists y, [/\ reshape [:: n; TorchShape.numel r] x = Ok y,
  sh y = [:: n; TorchShape.numel r] & forall t q, (t < n)%N -> at_ y [:: t; q] = at_ x (t :: unflat r q)].
Proof.
move=> sx; rewrite reshapeE; last by rewrite sx !numel_cons muln1.
eexists; split; [reflexivity|by []|]; move=> t q ht; cbn [at_]; rewrite sx /= muln0 addn0.
by rewrite mulnC addnC modnMDl modn_small // divnMDl ?(leq_ltn_trans _ ht) // divn_small // addn0.
Qed.
Lemma stft_at x n r : sh x = n :: r -> if bad n then t_stft x = Err RuntimeError else
  exists X, [/\ t_stft x = Ok X, sh X = [:: frames n, half.+1 & r] &
    forall m k i, (m < frames n)%N -> (k < half.+1)%N -> inr r i -> at_ X [:: m, k & i] = sval (mkseq (fun t => at_ x (t :: i)) n) k m].
Proof.
move=> sx; rewrite /t_stft /TStftModel.t_stft sx.
case: eqP => [->|/eqP n0]; first by rewrite /bad leq0n orbT.
have [y [-> sy hy]] := reshape2 sx; cbn [bind].
rewrite /torch_stft sy stftE size_nseq; case bn: (bad n); first by [].
cbn [bind fst sh take cat].
rewrite reshapeE; last by rewrite !numel_cons muln1.
eexists; split; [reflexivity|by []|].
move=> m k i hm hk hi; cbn [at_ sh unflat flat].
have e1 a b q : (a < b)%N -> ((a + b * q) %% b)%N = a by move=> ab; rewrite mulnC addnC modnMDl modn_small.
have e2 a b q : (a < b)%N -> ((a + b * q) %/ b)%N = q by move=> ab; rewrite mulnC addnC divnMDl ?(leq_ltn_trans _ ab) // divn_small // addn0.
rewrite e1 // e2 // e1 // e2 // modn_small ?flat_lt // -/(sval _ k m); congr (sval _ k m).
apply/eq_in_map => t; rewrite mem_iota /= => ht; by rewrite hy // unflatK.
Qed.

(* ---- the inverse transform *)
Definition ilen (n : nat) : nat := (n_fft + hop * (n - 1) - 2 * half)%N.
Definition ibad (n : nat) : bool := (hop == 0)%N || (n_fft < hop)%N || (n == 0)%N ||
  ((ilen n == 0)%N || has (fun t => ~~ (10%:R ^- 11 < `|overlap_add n_fft hop_length n (fun m j => window j ^+ 2) (half + t)%N|)) (iota 0 (ilen n))).
Lemma istftE n X : istft (n, X) = if ibad n then Err RuntimeError else Ok (mkseq (ival (n, X)) (ilen n)).
Proof.
have e : istft (n, X) = if ibad n then Err RuntimeError else Ok (mkseq (fun t => overlap_add n_fft hop_length n (fun m j => irfft root n_fft (fun k => X k m) j * window j) (half + t)%N /
    overlap_add n_fft hop_length n (fun m j => window j ^+ 2) (half + t)%N) (ilen n)).
  by rewrite /StftModel.istft /ibad; case: (_ || _ || _).
rewrite {1}e; case bn: (ibad n) => //; congr Ok.
apply/eq_in_map => t; rewrite mem_iota /= => ht; by rewrite /ival e bn nth_mkseq.
Qed.
Lemma ival_ext n X X' t : (forall k m, (k < half.+1)%N -> (m < n)%N -> X k m = X' k m) -> ival (n, X) t = ival (n, X') t.
Proof.
move=> h; rewrite /ival /StftModel.istft; case: ifP => // _; case: ifP => // _.
set a := mkseq _ _; set b := mkseq _ _; suff -> : a = b by [].
apply/eq_in_map => j _; congr (_ / _); apply: eq_bigr => m _; congr (_ * _); rewrite /irfft; congr ('Re (_ / _)).
apply: eq_bigr => k _; congr (_ * _); rewrite -divn2; case: ifP => hk; first by rewrite h.
rewrite h // ltnS; move: hk (ltn_ord k); rewrite leqNgt => /negbFE.
have := divn_eq n_fft 2; have := ltn_pmod n_fft (isT : (0 < 2)%N); rewrite /StftModel.half; lia.
Qed.
Lemma reshape3 (x : tensor) a b r : sh x = [:: a, b & r] -> exists y, [/\ reshape [:: a; b; TorchShape.numel r] x = Ok y,
  sh y = [:: a; b; TorchShape.numel r] & forall s t q, (s < a)%N -> (t < b)%N -> at_ y [:: s; t; q] = at_ x [:: s, t & unflat r q]].
Proof.
move=> sx; rewrite reshapeE; last by rewrite sx !numel_cons muln1.
have e1 i n q : (i < n)%N -> ((i + n * q) %% n)%N = i by move=> h; rewrite mulnC addnC modnMDl modn_small.
have e2 i n q : (i < n)%N -> ((i + n * q) %/ n)%N = q by move=> h; rewrite mulnC addnC divnMDl ?(leq_ltn_trans _ h) // divn_small // addn0.
eexists; split; [reflexivity|by []|]; move=> s t q hs ht; cbn [at_ flat]; rewrite sx muln0 addn0; cbn [unflat].
by rewrite e1 // e2 // e1 // e2.
Qed.
Lemma istft_at X n r : sh X = [:: n, half.+1 & r] -> if ibad n then t_istft X = Err RuntimeError else
  exists y, [/\ t_istft X = Ok y, sh y = ilen n :: r &
    forall t i, (t < ilen n)%N -> inr r i -> at_ y (t :: i) = ival (n, fun k m => at_ X [:: m, k & i]) t].
Proof.
move=> sX; rewrite /TStftModel.t_istft sX muln_eq0 orbF.
case: eqP => [->|/eqP n0]; first by rewrite /ibad eqxx !orbT.
have [Y [-> sY hY]] := reshape3 sX; cbn [bind].
rewrite /torch_istft sY eqxx istftE; cbn [negb]; case bn: (ibad n); first by [].
cbn [bind fst sh take cat].
rewrite reshapeE; last by rewrite !numel_cons size_mkseq muln1.
eexists; split; [reflexivity|by rewrite /= size_mkseq|].
move=> t i ht hi; cbn [at_ sh unflat flat]; rewrite size_mkseq.
have e1 a b q : (a < b)%N -> ((a + b * q) %% b)%N = a by move=> ab; rewrite mulnC addnC modnMDl modn_small.
have e2 a b q : (a < b)%N -> ((a + b * q) %/ b)%N = q by move=> ab; rewrite mulnC addnC divnMDl ?(leq_ltn_trans _ ab) // divn_small // addn0.
rewrite e1 // e2 // modn_small ?flat_lt // -/(ival _ t); apply: ival_ext => k m hk hm.
by rewrite hY // unflatK.
Qed.
Lemma fit_at (y : tensor) k n r : sh y = k :: r -> exists z, [/\ t_fit n y = Ok z, sh z = n :: r &
  forall t i, (t < n)%N -> at_ z (t :: i) = if (t < k)%N then at_ y (t :: i) else 0].
Proof.
move=> sy; rewrite /t_fit sy; case: ltngtP => hk.
- rewrite /tcat /TorchShape.cat2 /TorchShape.size sy; cbn [List.nth_error bind sh tzeros TorchShape.del TorchShape.set nth].
  rewrite seqbss; cbn [bind]; eexists; split; [reflexivity|by cbn [sh]; congr (_ :: _); lia|by []].
- have e : sh y = (n + (k - n))%N :: r by rewrite subnKC // ltnW.
  have [u [-> su hu]] := slice_to0 e; exists u; split=> // t i ht; by rewrite hu (ltn_trans ht hk).
- by rewrite -hk; exists y; split=> // t i ->.
Qed.

(* ---- the whole separator on one recording *)
Definition wave_at nC n (x : tensor) (b : seq nat) : 'M[C]_(nC, n) := \matrix_(c, t) at_ x [:: nat_of_ord t, nat_of_ord c & b].
Section One.
Variables (nC nS n : nat).
Local Notation N := (frames n).
Definition spec1 (x : 'M[C]_(nC, n)) : {ffun 'I_half.+1 -> 'M[C]_(nC, N)} :=
  [ffun k : 'I_half.+1 => \matrix_(c, m) sval [seq x c t | t <- enum 'I_n] k m].
Definition page1 (Y : {ffun 'I_half.+1 -> 'M[C]_(nS, N)}) (s : 'I_nS) : spec C :=
  (N, fun k m => match insub k, insub m with Some k, Some m => Y k s m | _, _ => 0 end).
Definition wave1 (g : {ffun 'I_half.+1 -> 'M[C]_(nC, N)} -> result {ffun 'I_half.+1 -> 'M[C]_(nS, N)}) (x : 'M[C]_(nC, n)) : result 'M[C]_(nS, n) :=
  if bad n then Err RuntimeError else
  (let* Y := g (spec1 x) in
   if ibad N then Err RuntimeError else
   Ok (\matrix_(s, t) if (t < ilen N)%N then ival (page1 Y s) t else 0))%py.
Lemma bss_lifts B (x : tensor) sep g : sh x = [:: n, nC & B] -> (exists b, inr B b) -> treats B sep g ->
  lifts B [:: n, nS & B] (t_bss_forward sep x) (fun b => wave1 (g b) (wave_at nC n x b)) (wave_at nS n).
Proof.
move=> sx [b0 hb0] hg; rewrite /TStftModel.t_bss_forward sx /wave1; have := stft_at sx.
case: (bad n) => [->|[X [-> sX hX]]]; first by exists b0.
cbn [bind]; apply: (@lifts_bind _ _ _ B [:: N, half.+1, nS & B] _ _ (fun b => g b (spec1 (wave_at nC n x b))) (sig_at half.+1 N nS)).
  apply: eq_lifts (hg X sX) => b hb; congr (g b _); apply/ffunP => k; apply/matrixP => c m.
  rewrite sigE ffunE mxE hX //= ?ltn_ord //; congr (sval _ _ _).
  rewrite /mkseq -val_enum_ord -map_comp; apply: eq_map => t /=; by rewrite mxE.
move=> Y sY; have := istft_at sY; case: (ibad N) => [->|[y [-> sy hy]]]; first by exists b0.
cbn [bind]; have [z [ez sz hz]] := fit_at n sy; apply: (lifts_ok ez sz) => b hb; apply/matrixP => s t.
rewrite !mxE hz //; case: ifP => // ht; rewrite hy //= ?ltn_ord //; apply: ival_ext => k m hk hm.
by rewrite !insubT sigE.
Qed.
End One.
(* a batch of recordings against each of them *)
Lemma bss_one_by_one nC nS n B (x : tensor) sep sep1 g : sh x = [:: n, nC & B] -> (exists b, inr B b) ->
  treats (nC := nC) (nF := half.+1) (nN := frames n) (nS := nS) B sep g -> (forall b, inr B b -> treats [::] (sep1 b) (fun _ => g b)) ->
  one_by_one n nS B (t_bss_forward sep x) (fun b => t_bss_forward (sep1 b) (recording x b)).
Proof.
move=> sx ne h h1; have := bss_lifts sx ne h; rewrite /one_by_one.
have l1 b : inr B b -> lifts [::] [:: n; nS] (t_bss_forward (sep1 b) (recording x b)) (fun _ => wave1 (g b) (wave_at nC n x b)) (wave_at nS n).
  move=> hb; have s1 : sh (recording x b) = [:: n; nC] by rewrite /= sx /= take0.
  have := bss_lifts s1 (ex_intro _ [::] isT) (h1 b hb); apply: eq_lifts => -[|//] _.
  rewrite (_ : wave_at nC n (recording x b) [::] = wave_at nC n x b) //; by apply/matrixP => c t; rewrite !mxE.
case: (t_bss_forward sep x) => [Y [sY hY]|e [b hb he]]; last first.
  exists b => //; have := l1 b hb; case: (t_bss_forward _ _) => [y [_ /(_ [::] isT)]|e' [i _]]; by rewrite he // => -[->].
split=> // b hb; have := l1 b hb; have e := hY b hb; case: (t_bss_forward _ _) => [y1 [s1 /(_ [::] isT)]|e' [i _]]; last by rewrite e.
rewrite e => -[eq]; exists y1; split=> // t s ht hs.
have := congr1 (fun x : 'M[C]_(nS, n) => x (Ordinal hs) (Ordinal ht)) eq; by rewrite !mxE.
Qed.
End Proofs.
