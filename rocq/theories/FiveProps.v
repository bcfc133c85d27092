(* Properties C26, C27, C28, C62, C63: fast independent vector extraction.
   eighO n stands for torch.linalg.eigh on n x n matrices; n_freq = nF + 1, frequency
   `lift ord0 f` is the f-th frequency above DC. *)
From mathcomp Require Import all_ssreflect all_algebra.
From Verif Require Import CAlg Py Batch LinalgModel LinalgSpec LinalgProofs LinalgBridge TissModel
  EigExists FiveModel FiveSpec FiveProofs FiveBridge.
Set Implicit Arguments. Unset Strict Implicit. Unset Printing Implicit Defensive.
Import GRing.Theory Num.Theory Order.TTheory.
Local Open Scope ring_scope.

(* ------------------------------------------------------------------- C26 *)
(* the whitened signals have identity covariance *)
Theorem c26_whitening (C : numClosedFieldType) (eighO : forall n, eigh_oracle C n) k nN (X : 'M[C]_(k.+1, nN)) :
  (forall n, eigensolver (eighO n)) -> full_power X -> real_if_two (sample_cov X) ->
  sample_cov (five_white eighO X) = 1%:M.
Proof. exact: c26_lemma. Qed.
Print Assumptions c26_whitening.
(* two channels with a complex cross covariance are never whitened *)
Theorem c26_two_channels_refuted (C : numClosedFieldType) (eighO : forall n, eigh_oracle C n) nN (X : 'M[C]_(2, nN)) :
  10%:R ^- 15 <= `|sample_cov X 0 1| -> 10%:R ^- 15 <= pencil_disc (sample_cov X) 1%:M ->
  sample_cov X 0 1 \isn't Num.real -> sample_cov (five_white eighO X) <> 1%:M.
Proof. exact: c26_ref. Qed.
Print Assumptions c26_two_channels_refuted.
(* two uncorrelated channels, the first one stronger (for example a dead second
   microphone): the output is zero whatever the iterations do *)
Theorem c26_uncorrelated_silent (C : numClosedFieldType) (eighO : forall n, eigh_oracle C n) nF nN St
    (model : St -> 'M[C]_(nF, nN) -> 'M[C]_(nF, nN) * St) (X : sig C nF.+1 nN 2) (mic : 'I_2) np n m0 Y m f :
  five_forward eighO model X mic np n m0 = Ok (Y, m) ->
  sample_cov (X (lift ord0 f)) 0 1 = 0 -> sample_cov (X (lift ord0 f)) 1 1 < sample_cov (X (lift ord0 f)) 0 0 ->
  10%:R ^- 15 <= pencil_disc (sample_cov (X (lift ord0 f))) 1%:M ->
  row (lift ord0 f) Y = 0.
Proof. exact: c26_silent. Qed.
Print Assumptions c26_uncorrelated_silent.
(* three channels with complex correlations meet the hypotheses of c26_whitening; a
   correct eigensolver exists *)
Example c26_example (C : numClosedFieldType) :
  (exists eighO : (forall n, eigh_oracle C n), forall n, eigensolver (eighO n)) /\
  full_power (wX C) /\ real_if_two (k := 2) (sample_cov (wX C)) /\ sample_cov (wX C) 0 1 = 'i.
Proof.
split; first exact: eigensolver_exists.
by split; [exact: wX_power|split=> //; have [] := wX_cov C].
Qed.
(* X = [[2, 0], [-i, 1]] meets the hypotheses of c26_two_channels_refuted *)
Example c26_example_two (C : numClosedFieldType) : let X : 'M[C]_2 := mx22 2%:R 0 (- 'i) 1 in
  [/\ sample_cov X 0 1 = 'i, pencil_disc (sample_cov X) 1%:M = 5%:R & ('i : C) \isn't Num.real].
Proof.
have two : 2%:R != 0 :> C by rewrite pnatr_eq0.
have c01 : sample_cov (mx22 2%:R 0 (- 'i) 1 : 'M[C]_2) i0 i1 = 'i.
  by rewrite mxE sum2 !mxE /= mul0r addr0 rmorphN conjCi opprK mulrC mulKf.
have c10 : sample_cov (mx22 2%:R 0 (- 'i) 1 : 'M[C]_2) i1 i0 = - 'i.
  by rewrite mxE sum2 !mxE /= rmorph0 mulr0 addr0 rmorph_nat mulfK.
split.
- by move: c01; rewrite i0E i1E.
- rewrite c12_disc /edelta c01 c10 mulrN -expr2 sqrCi opprK mulr1.
  have -> : sample_cov (mx22 2%:R 0 (- 'i) 1 : 'M[C]_2) i0 i0 = 2%:R.
    by rewrite mxE sum2 !mxE /= mul0r addr0 rmorph_nat mulfK.
  have -> : sample_cov (mx22 2%:R 0 (- 'i) 1 : 'M[C]_2) i1 i1 = 1.
    rewrite mxE sum2 !mxE /= rmorphN conjCi opprK mulNr -expr2 sqrCi opprK mul1r rmorph1.
    by rewrite -mulr2n divff.
  by rewrite -(natrB _ (n := 1)) // expr1n -(natrD _ 1).
- apply/negP=> /CrealP; rewrite conjCi => /eqP.
  by rewrite eq_sym -subr_eq0 opprK -mulr2n mulrn_eq0 /= (negbTE (neq0Ci C)).
Qed.
(* a dead second microphone meets the hypotheses of c26_uncorrelated_silent *)
Example c26_example_silent (C : numClosedFieldType) : let X : 'M[C]_2 := mx22 2%:R 1 0 0 in
  [/\ sample_cov X 0 1 = 0, sample_cov X 1 1 < sample_cov X 0 0 & 1 <= pencil_disc (sample_cov X) 1%:M].
Proof.
have z i : sample_cov (mx22 2%:R 1 0 0 : 'M[C]_2) i i1 = 0.
  by rewrite mxE sum2 !mxE /= !rmorph0 !mulr0 addr0 mul0r.
have z0 i : sample_cov (mx22 2%:R 1 0 0 : 'M[C]_2) i1 i = 0.
  by rewrite mxE sum2 !mxE /= !mul0r addr0 mul0r.
have p : 1 <= sample_cov (mx22 2%:R 1 0 0 : 'M[C]_2) i0 i0.
  rewrite mxE sum2 !mxE /= rmorph1 rmorph_nat ler_pdivl_mulr ?ltr0n // !mul1r -natrM -(natrD _ _ 1).
  by rewrite ler_nat.
split; rewrite -?i0E -?i1E ?z //; first exact: lt_le_trans ltr01 p.
by rewrite c12_disc /edelta !z subr0 mul0r mulr0 addr0 exprn_ege1.
Qed.

(* ------------------------------------------------------------------- C27 *)
(* after at least one iteration, by eigendecomposition or power method, the error at
   the reference microphone is uncorrelated with the output, which is a filtered input *)
Theorem c27_output_scale (C : numClosedFieldType) (eighO : forall n, eigh_oracle C n) k nF nN St
    (model : St -> 'M[C]_(nF, nN) -> 'M[C]_(nF, nN) * St) (X : sig C nF.+1 nN k.+1) (mic : 'I_k.+1) np :
  (forall n, eigensolver (eighO n)) -> (0 < nN)%N -> forall f,
  full_power (X (lift ord0 f)) -> real_if_two (sample_cov (X (lift ord0 f))) ->
  forall n m0 Y m, five_forward eighO model X mic np n.+1 m0 = Ok (Y, m) ->
  (exists g, row (lift ord0 f) Y = filtered g (X (lift ord0 f))) /\
  corr (row mic (X (lift ord0 f)) - row (lift ord0 f) Y) (row (lift ord0 f) Y) = 0.
Proof. exact: c27_lemma. Qed.
Print Assumptions c27_output_scale.
(* without iterations the output is c^* p where c p is the optimally scaled output *)
Theorem c27_no_iteration (C : numClosedFieldType) (eighO : forall n, eigh_oracle C n) k nF nN St
    (model : St -> 'M[C]_(nF, nN) -> 'M[C]_(nF, nN) * St) (X : sig C nF.+1 nN k.+1) (mic : 'I_k.+1) np :
  (forall n, eigensolver (eighO n)) -> (0 < nN)%N -> forall f,
  full_power (X (lift ord0 f)) -> real_if_two (sample_cov (X (lift ord0 f))) ->
  forall m0 Y m, five_forward eighO model X mic np 0 m0 = Ok (Y, m) ->
  exists (c : C) (p : 'rV[C]_nN),
    [/\ energy p = nN%:R, corr (row mic (X (lift ord0 f)) - c *: p) p = 0, row (lift ord0 f) Y = c^* *: p,
        c = five_Qinv eighO (X (lift ord0 f)) mic 0 &
        corr (row mic (X (lift ord0 f)) - row (lift ord0 f) Y) (row (lift ord0 f) Y) = 0 <-> c \is Num.real].
Proof. exact: c27_init. Qed.
Print Assumptions c27_no_iteration.
(* for this three channel input every eigensolver gives a wrongly scaled output at some
   reference microphone when n_iter = 0 *)
Theorem c27_no_iteration_refuted (C : numClosedFieldType) : exists X : sig C 2 3 3, (forall f, full_power (X f)) /\
  forall eighO : (forall n, eigh_oracle C n), (forall n, eigensolver (eighO n)) -> exists mic : 'I_3,
  forall St (model : St -> 'M[C]_(1, 3) -> 'M[C]_(1, 3) * St) np m0 Y m,
  five_forward eighO model X mic np 0 m0 = Ok (Y, m) ->
  corr (row mic (X 1) - row 1 Y) (row 1 Y) <> 0.
Proof. exact: c27_ref_lemma. Qed.
Print Assumptions c27_no_iteration_refuted.
(* the forward of c27_output_scale does return: with the eigendecomposition always *)
Theorem c27_returns (C : numClosedFieldType) (eighO : forall n, eigh_oracle C n) k nF nN St
    (model : St -> 'M[C]_(nF, nN) -> 'M[C]_(nF, nN) * St) (X : sig C nF.+1 nN k.+1) (mic : 'I_k.+1) n m0 :
  exists Y m, five_forward eighO model X mic None n m0 = Ok (Y, m).
Proof. exact: five_returns. Qed.
Print Assumptions c27_returns.

(* ------------------------------------------------------------------- C28 *)
Theorem c28_dc_zero (C : numClosedFieldType) (eighO : forall n, eigh_oracle C n) k nF nN St
    (model : St -> 'M[C]_(nF, nN) -> 'M[C]_(nF, nN) * St) (X : sig C nF.+1 nN k.+1) (mic : 'I_k.+1) np n m0 Y m :
  five_forward eighO model X mic np n m0 = Ok (Y, m) -> row ord0 Y = 0.
Proof. exact: dc_zero. Qed.
Print Assumptions c28_dc_zero.
(* one channel: everything but DC comes back unchanged *)
Theorem c28_one_channel (C : numClosedFieldType) (eighO : forall n, eigh_oracle C n) nF nN St
    (model : St -> 'M[C]_(nF, nN) -> 'M[C]_(nF, nN) * St) (X : sig C nF.+1 nN 1) :
  (forall n, eigensolver (eighO n)) -> forall n m0 Y m np, (forall m Z f j, 0 <= (model m Z).1 f j) ->
  five_forward eighO model X 0 np n.+1 m0 = Ok (Y, m) ->
  row ord0 Y = 0 /\ forall f, row (lift ord0 f) Y = row 0 (X (lift ord0 f)).
Proof. exact: c28_lemma. Qed.
Print Assumptions c28_one_channel.
(* zero or one power iteration always fails *)
Theorem c28_few_power_iterations (C : numClosedFieldType) (eighO : forall n, eigh_oracle C n) k nF nN St
    (model : St -> 'M[C]_(nF, nN) -> 'M[C]_(nF, nN) * St) (X : sig C nF.+1 nN k.+1) (mic : 'I_k.+1) n m0 p :
  (forall m Z f j, 0 <= (model m Z).1 f j) -> (p <= 1)%N ->
  five_forward eighO model X mic (Some p) n.+1 m0 = Err UnboundLocalError.
Proof. exact: c28_unbound. Qed.
Print Assumptions c28_few_power_iterations.
(* the call of c28_one_channel returns, also with two power iterations *)
Theorem c28_returns (C : numClosedFieldType) (eighO : forall n, eigh_oracle C n) nF nN St
    (model : St -> 'M[C]_(nF, nN) -> 'M[C]_(nF, nN) * St) (X : sig C nF.+1 nN 1) n m0 np :
  (forall m Z f j, 0 <= (model m Z).1 f j) -> (if np is Some p then (1 < p)%N else true) ->
  exists Y m, five_forward eighO model X 0 np n m0 = Ok (Y, m).
Proof. exact: one_returns. Qed.
Print Assumptions c28_returns.

(* ------------------------------------------------------------------- C62 *)
(* every iteration returns the filtered signal with the least weighted energy per
   energy, the weights being those of the model on the previous output *)
Theorem c62_extraction (C : numClosedFieldType) (eighO : forall n, eigh_oracle C n) k nF nN St
    (model : St -> 'M[C]_(nF, nN) -> 'M[C]_(nF, nN) * St) (X : sig C nF.+1 nN k.+1) (mic : 'I_k.+1) n m0 Y m f :
  (forall n, eigensolver (eighO n)) -> (0 < nN)%N ->
  full_power (X (lift ord0 f)) -> real_if_two (sample_cov (X (lift ord0 f))) ->
  five_forward eighO model X mic None n.+1 m0 = Ok (Y, m) ->
  exists Yp mp, five_forward eighO model X mic None n m0 = Ok (Yp, mp) /\
  let w := (model mp (\matrix_(g, j) Yp (lift ord0 g) j)).1 in
  (forall j, w f j \is Num.real) -> extracts (row f w) (X (lift ord0 f)) (row (lift ord0 f) Y).
Proof. exact: c62_lemma. Qed.
Print Assumptions c62_extraction.

(* ------------------------------------------------------------------- C63 *)
(* power method, three or more channels, linearly dependent at every frequency: NaN *)
Theorem c63_power_method_nan (C : numClosedFieldType) (eighO : forall n, eigh_oracle C n) k nF nN St
    (model : St -> 'M[C]_(nF, nN) -> 'M[C]_(nF, nN) * St) (X : sig C nF.+1 nN k.+1) (mic : 'I_k.+1) n m0 p :
  (forall m Z f j, 0 <= (model m Z).1 f j) -> (1 < p)%N -> (0 < nF)%N -> (1 < k)%N ->
  (forall n, eigensolver (eighO n)) ->
  (forall f, exists2 v : 'cV[C]_k.+1, v != 0 & filtered v (X (lift ord0 f)) = 0) ->
  five_forward eighO model X mic (Some p) n.+1 m0 = Err NotANumber.
Proof. exact: c63_lemma. Qed.
Print Assumptions c63_power_method_nan.
(* two identical microphones among three are such an input *)
Example c63_example (C : numClosedFieldType) nF nN (a b : sig C nF.+1 nN 1) :
  let X : sig C nF.+1 nN 3 := [ffun f => \matrix_(c, j) (if (c < 2)%N then a f 0 j else b f 0 j)] in
  forall f, exists2 v : 'cV[C]_3, v != 0 & filtered v (X (lift ord0 f)) = 0.
Proof.
move=> X f; exists (delta_mx 0 0 - delta_mx 1 0).
  by apply/eqP=> /matrixP /(_ 0 0) /eqP; rewrite !mxE /= subr0 oner_eq0.
apply/matrixP=> i j; rewrite /X ffunE !mxE sum3 !mxE /= !subr0 !sub0r !rmorphN !rmorph1 rmorph0.
by rewrite mul0r addr0 mul1r mulN1r subrr.
Qed.
(* more than one power iteration on one channel: no NaN (c28_returns) *)
