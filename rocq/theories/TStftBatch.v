(* Batches of recordings through the whole separator. *)
From Coq Require Import String Ascii ZArith.
From mathcomp Require Import all_ssreflect all_algebra.
From Verif Require TorchShape StftProofs.
From mathcomp Require Import zify.
From Verif Require Import CAlg Py Batch LinalgModel TissModel FftModel FftSpec StftModel StftSpec BeamModel IvaModel FiveModel.
From Verif Require Import TensorModel TSpec TSepSpec TensorProofs TOpsModel TBatch TBeamModel TBeamProofs.
From Verif Require Import TTissModel TTissProofs TTissRun TTissForward TSepBatch TIpModel TIpRun TIpBatch TIp2Model TIp2Batch TFiveModel TFiveSpec TFiveBatch.
From Verif Require Import TStftModel TStftSpec TStftProofs.
Set Implicit Arguments. Unset Strict Implicit. Unset Printing Implicit Defensive.
Import GRing.Theory Num.Theory Order.TTheory.
Local Open Scope ring_scope.

(* ---- what the algorithms do to the elements of a batch *)
Section Treats.
Variable C : numClosedFieldType.
Variable eighO : forall n, eigh_oracle C n.
Local Notation tensor := (tensor C).
Section Source.
Variables (N F nS nB : nat) (B : seq nat).
Local Notation nC := (nS + nB)%N.
Variables (St St1 : Type) (tm : St -> tensor -> result (tensor * St))
  (m : St1 -> sig C F N nS -> sig C F N nS * St1) (inv : St -> Prop) (rs : St -> seq nat -> St1).
Hypothesis hm : source_as B tm m inv rs.
Variables (m0 : St) (eps : C).
Hypothesis i0 : inv m0.
Lemma tiss_treats T dl n_iter n_src use_dmc pb (ref : option 'I_nC) : (0 < N)%N -> n_src_is nS nB n_src -> pb_is B pb ref ->
  treats (nC := nC) B (fun X => rmap (fun r => r.1.1) (t_tiss_forward tm n_iter T dl n_src use_dmc pb eps m0 X))
    (fun b x => rmap (fun r => r.1.1) (rmap fst (forward T dl m x eps n_iter use_dmc ref (rs m0 b)))).
Proof.
move=> N0 hn hp X sX; apply: (gives_proj (forward_at T dl hm N0 eps sX n_iter use_dmc i0 hn hp)) => // a [] //.
Qed.
Lemma ip_treats n_iter pb (ref : option 'I_nC) : pb_near pb ref ->
  treats (nC := nC) B (t_ip_forward tm n_iter (Some nS) pb eps m0) (fun b x => rmap fst (ip_forward m x eps n_iter ref (rs m0 b))).
Proof. move=> hp X sX; exact: (ip_forward_at hm eps sX n_iter i0 hp). Qed.
End Source.
Lemma ip2_treats N F B (St St1 : Type) (tm : St -> tensor -> result (tensor * St)) (m : St1 -> sig C F N 2 -> sig C F N 2 * St1) inv rs m0 eps n_iter (mic : option 'I_2) :
  source_as B tm m inv rs -> inv m0 ->
  treats (nC := 2) B (t_ip2_forward tm n_iter (omap (fun k : 'I_2 => Z.of_nat k) mic) eps m0) (fun b x => Ok (ip2_forward m x eps n_iter mic (rs m0 b)).1).
Proof. move=> hm i0 X sX; exact: (ip2_lifts hm eps sX i0). Qed.
Lemma five_treats k N F B (St St1 : Type) (tm : St -> tensor -> result (tensor * St)) (m : St1 -> 'M[C]_(F, N) -> 'M[C]_(F, N) * St1) inv rs m0 z (mic : 'I_k.+1) n_iter pw :
  extractor_as B tm m inv rs -> inv m0 -> (0 < TorchShape.numel B)%N -> mic_of z mic ->
  treats (nC := k.+1) (nS := 1) B (t_five_forward eighO tm n_iter (Some z) pw m0)
    (fun b x => rmap (fun r => one_source r.1) (five_forward eighO m x mic pw n_iter (rs m0 b))).
Proof. move=> hm i0 ne hz X sX; exact: (five_lifts eighO hm sX ne hz i0). Qed.
Section Masks.
Variables (N F S k : nat) (B : seq nat) (z : Z).
Hypothesis ne : exists b, inr B b.
Hypothesis vz : TorchShape.valid k.+1 z.
Variables (nM : nat) (tm : tensor -> result tensor) (mm : mask_model C S F N).
Hypothesis hm : masks_as nM B tm mm.
Let ref : 'I_k.+1 := Ordinal (zidx_lt vz).
Lemma mvdr_treats ty eps p : treats B (t_mvdr_forward eighO tm ty z eps p) (fun _ x => mvdr_forward eighO x mm ref eps ty p).
Proof. move=> X sX; exact: (mvdr_batch eighO vz (erefl : zidx k.+1 z = ref) sX hm ne ty eps p). Qed.
Lemma mwf_treats ti : treats B (t_mwf_forward tm ti z) (fun _ x => mwf_forward x mm ref 0 ti).
Proof. move=> X sX; exact: (mwf_batch vz (erefl : zidx k.+1 z = ref) sX hm ne ti 0). Qed.
Lemma gev_treats : treats B (t_gev_forward eighO tm z) (fun _ x => gev_forward eighO x mm ref).
Proof. move=> X sX; exact: (gev_batch eighO vz (erefl : zidx k.+1 z = ref) sX hm ne). Qed.
End Masks.
End Treats.

(* ---- the algorithms on recordings *)
Section Runs.
Variable C : numClosedFieldType.
Variable eighO : forall n, eigh_oracle C n.
Local Notation tensor := (tensor C).
Variable root : nat -> C.
Variables (n_fft : nat) (hop_length : option nat) (window : nat -> C).
Local Notation half := (half n_fft).
Local Notation frames := (frames_of n_fft hop_length).
Local Notation t_bss_forward := (t_bss_forward root n_fft hop_length window).
Variables (n : nat) (B : seq nat) (x : tensor).
Hypothesis ne : (0 < TorchShape.numel B)%N.
Local Notation N := (frames n).
Let ne' : exists b, inr B b := nonempty_batch ne.
Section Source.
Variables (nS nB : nat).
Local Notation nC := (nS + nB)%N.
Hypothesis sx : sh x = [:: n, nC & B].
Variables (St St1 St2 : Type) (tm : St -> tensor -> result (tensor * St)) (tm1 : St2 -> tensor -> result (tensor * St2))
  (m : St1 -> sig C half.+1 N nS -> sig C half.+1 N nS * St1) (inv : St -> Prop) (inv1 : St2 -> Prop) (rs : St -> seq nat -> St1) (rs1 : St2 -> seq nat -> St1).
Hypothesis hm : source_as B tm m inv rs.
Hypothesis hm1 : source_as [::] tm1 m inv1 rs1.
Variables (m0 : St) (m1 : seq nat -> St2) (eps : C).
Hypothesis i0 : inv m0.
Hypothesis i1 : forall b, inr B b -> inv1 (m1 b) /\ rs1 (m1 b) [::] = rs m0 b.
Lemma tiss_recordings T dl n_iter n_src use_dmc pb (ref : option 'I_nC) : n_src_is nS nB n_src -> pb_is B pb ref ->
  one_by_one n nS B (t_bss_forward (fun X => rmap (fun r => r.1.1) (t_tiss_forward tm n_iter T dl n_src use_dmc pb eps m0 X)) x)
    (fun b => t_bss_forward (fun X => rmap (fun r => r.1.1) (t_tiss_forward tm1 n_iter T dl n_src use_dmc pb eps (m1 b) X)) (recording x b)).
Proof.
move=> hn hp; apply: (bss_one_by_one root window sx ne' (tiss_treats hm eps i0 T dl n_iter use_dmc (isT : 0 < N)%N hn hp)) => b hb.
have [ib rb] := i1 hb; have := tiss_treats hm1 eps ib T dl n_iter use_dmc (isT : 0 < N)%N hn (pb_is_alone hp).
move=> h X sX; have := h X sX; apply: eq_lifts => -[|//] _; by rewrite rb.
Qed.
Lemma ip_recordings n_iter pb (ref : option 'I_nC) : pb_near pb ref ->
  one_by_one n nS B (t_bss_forward (t_ip_forward tm n_iter (Some nS) pb eps m0) x)
    (fun b => t_bss_forward (t_ip_forward tm1 n_iter (Some nS) pb eps (m1 b)) (recording x b)).
Proof.
move=> hp; apply: (bss_one_by_one root window sx ne' (ip_treats hm eps i0 n_iter hp)) => b hb.
have [ib rb] := i1 hb; have := ip_treats hm1 eps ib n_iter hp.
move=> h X sX; have := h X sX; apply: eq_lifts => -[|//] _; by rewrite rb.
Qed.
End Source.
Lemma ip2_recordings (St St1 St2 : Type) (tm : St -> tensor -> result (tensor * St)) (tm1 : St2 -> tensor -> result (tensor * St2))
    (m : St1 -> sig C half.+1 N 2 -> sig C half.+1 N 2 * St1) inv inv1 rs rs1 m0 (m1 : seq nat -> St2) eps n_iter (mic : option 'I_2) :
  sh x = [:: n, 2 & B]%N -> source_as B tm m inv rs -> source_as [::] tm1 m inv1 rs1 ->
  inv m0 -> (forall b, inr B b -> inv1 (m1 b) /\ rs1 (m1 b) [::] = rs m0 b) ->
  let pb := omap (fun k : 'I_2 => Z.of_nat k) mic in
  one_by_one n 2 B (t_bss_forward (t_ip2_forward tm n_iter pb eps m0) x) (fun b => t_bss_forward (t_ip2_forward tm1 n_iter pb eps (m1 b)) (recording x b)).
Proof.
move=> sx hm hm1 i0 i1 pb; apply: (bss_one_by_one root window sx ne' (ip2_treats eps n_iter mic hm i0)) => b hb.
have [ib rb] := i1 _ hb; have := ip2_treats eps n_iter mic hm1 ib.
move=> h X sX; have := h X sX; apply: eq_lifts => -[|//] _; by rewrite rb.
Qed.
Lemma five_recordings k (St St1 St2 : Type) (tm : St -> tensor -> result (tensor * St)) (tm1 : St2 -> tensor -> result (tensor * St2))
    (m : St1 -> 'M[C]_(half, N) -> 'M[C]_(half, N) * St1) inv inv1 rs rs1 m0 (m1 : seq nat -> St2) z (mic : 'I_k.+1) n_iter pw :
  sh x = [:: n, k.+1 & B]%N -> extractor_as B tm m inv rs -> extractor_as [::] tm1 m inv1 rs1 -> mic_of z mic ->
  inv m0 -> (forall b, inr B b -> inv1 (m1 b) /\ rs1 (m1 b) [::] = rs m0 b) ->
  one_by_one n 1 B (t_bss_forward (t_five_forward eighO tm n_iter (Some z) pw m0) x)
    (fun b => t_bss_forward (t_five_forward eighO tm1 n_iter (Some z) pw (m1 b)) (recording x b)).
Proof.
move=> sx hm hm1 hz i0 i1; apply: (bss_one_by_one root window sx ne' (five_treats eighO n_iter pw hm i0 ne hz)) => b hb.
have [ib rb] := i1 _ hb; have := five_treats eighO n_iter pw hm1 ib isT hz.
move=> h X sX; have := h X sX; apply: eq_lifts => -[|//] _; by rewrite rb.
Qed.
Section Masks.
Variables (k nS nM : nat) (z : Z).
Hypothesis sx : sh x = [:: n, k.+1 & B].
Hypothesis vz : TorchShape.valid k.+1 z.
Variables (tm tm1 : tensor -> result tensor) (mm : mask_model C nS half.+1 N).
Hypothesis hm : masks_as nM B tm mm.
Hypothesis hm1 : masks_as nM [::] tm1 mm.
Lemma mvdr_recordings ty eps p : one_by_one n nS B (t_bss_forward (t_mvdr_forward eighO tm ty z eps p) x)
  (fun b => t_bss_forward (t_mvdr_forward eighO tm1 ty z eps p) (recording x b)).
Proof. apply: (bss_one_by_one root window sx ne' (mvdr_treats eighO ne' vz hm ty eps p)) => b hb; exact: (mvdr_treats eighO ne0 vz hm1 ty eps p). Qed.
Lemma mwf_recordings ti : one_by_one n nS B (t_bss_forward (t_mwf_forward tm ti z) x)
  (fun b => t_bss_forward (t_mwf_forward tm1 ti z) (recording x b)).
Proof. apply: (bss_one_by_one root window sx ne' (mwf_treats ne' vz hm ti)) => b hb; exact: (mwf_treats ne0 vz hm1 ti). Qed.
Lemma gev_recordings : one_by_one n nS B (t_bss_forward (t_gev_forward eighO tm z) x)
  (fun b => t_bss_forward (t_gev_forward eighO tm1 z) (recording x b)).
Proof. apply: (bss_one_by_one root window sx ne' (gev_treats eighO ne' vz hm)) => b hb; exact: (gev_treats eighO ne0 vz hm1). Qed.
End Masks.
End Runs.

(* ---- length, exceptions, round trip *)
Section Total.
Variable C : numClosedFieldType.
Local Notation tensor := (tensor C).
Variable root : nat -> C.
Variables (n_fft : nat) (hop_length : option nat) (window : nat -> C).
Local Notation half := (half n_fft).
Local Notation hop := (hop n_fft hop_length).
Local Notation frames := (frames_of n_fft hop_length).
Local Notation t_bss_forward := (t_bss_forward root n_fft hop_length window).
Lemma bss_length sep (x y : tensor) n r : sh x = n :: r -> t_bss_forward sep x = Ok y -> exists X Y,
  [/\ t_stft root n_fft hop_length window x = Ok X, sep X = Ok Y & sh y = n :: drop 2 (sh Y)].
Proof.
move=> sx; rewrite /TStftModel.t_bss_forward sx; case: r sx => [//|c r] sx.
case: (TStftModel.t_stft _ _ _ _ x) => [X|//]; cbn [bind]; case eY: (sep X) => [Y|//]; cbn [bind].
case e: (TStftModel.t_istft _ _ _ _ Y) => [w|//]; cbn [bind] => ef; exists X, Y; split=> //.
suff [k sw] : exists k, sh w = k :: drop 2 (sh Y).
  have [v [ev sv _]] := fit_at n sw; rewrite ev in ef; case: ef => ef; by rewrite -ef sv.
move: e; rewrite /TStftModel.t_istft; case: (sh Y) => [//|a [//|f s]]; case: ifP => // _.
case: (reshape _ _) => [Z|//]; cbn [bind]; case eu: (torch_istft _ _ _ _ Z) => [u|//]; cbn [bind].
have [k [q su]] : exists k q, sh u = [:: k; q].
  move: eu; rewrite /torch_istft; case: (sh Z) => [//|a' [//|f' [//|r' [|//]]]]; case: ifP => // _.
  case: (StftModel.istft _ _ _ _ _) => [v|//]; cbn [bind] => -[<-]; by eexists; eexists.
rewrite su /reshape /TorchShape.reshape; case: ifP => // _; cbn [bind take cat drop] => -[<-]; by exists k; rewrite drop0.
Qed.
Lemma bss_axes sep (x : tensor) : (size (sh x) < 2)%N -> t_bss_forward sep x = Err ValueError.
Proof. by rewrite /TStftModel.t_bss_forward; case: (sh x) => [//|a [//|]]. Qed.
Lemma bss_short sep (x : tensor) n c r : sh x = [:: n, c & r] -> (n <= half)%N -> t_bss_forward sep x = Err RuntimeError.
Proof.
move=> sx h; rewrite /TStftModel.t_bss_forward sx; have := stft_at root n_fft hop_length window sx.
by rewrite /bad h orbT => ->.
Qed.
Hypothesis Hw : good_window n_fft hop window.
Section Good.
Variables (n nC : nat) (B : seq nat) (x : tensor).
Hypothesis sx : sh x = [:: n, nC & B].
Hypothesis hn : (half < n)%N.
Hypothesis r0 : (0 < recovered n_fft hop n)%N.
Let bn : bad n_fft hop_length n = false.
Proof. by rewrite /bad leqNgt hn orbF gtn_eqF //; case: Hw => _ []. Qed.
Let iln : ilen n_fft hop_length (frames n) = recovered n_fft hop n.
Proof. exact: StftProofs.out_len. Qed.
Let ibn : ibad n_fft hop_length window (frames n) = false.
Proof.
have := StftProofs.istft_ok root Hw (fun _ _ => 0) (isT : 0 < frames n)%N; rewrite StftProofs.out_len // => /(_ r0).
by rewrite istftE; case: (ibad _ _ _ _).
Qed.
Lemma bss_no_failure sep nS : (forall X, sh X = [:: frames n, half.+1, nC & B] -> exists2 Y, sep X = Ok Y & sh Y = [:: frames n, half.+1, nS & B]) ->
  exists2 y, t_bss_forward sep x = Ok y & sh y = [:: n, nS & B].
Proof.
move=> h; rewrite /TStftModel.t_bss_forward sx; have := stft_at root n_fft hop_length window sx; rewrite bn => -[X [-> sX _]]; cbn [bind].
have [Y -> sY] := h X sX; cbn [bind]; have := istft_at root hop_length window sY; rewrite ibn => -[y [-> sy _]]; cbn [bind].
by have [z [-> sz _]] := fit_at n sy; exists z.
Qed.
Hypothesis Hr : unit_roots root.
Hypothesis xr : forall i, at_ x i \is Num.real.
Lemma bss_round_trip : exists2 y, t_bss_forward (fun X => Ok X) x = Ok y & sh y = sh x /\
  forall t i, (t < n)%N -> inr (nC :: B) i -> at_ y (t :: i) = if (t < recovered n_fft hop n)%N then at_ x (t :: i) else 0.
Proof.
rewrite /TStftModel.t_bss_forward sx; have := stft_at root n_fft hop_length window sx; rewrite bn => -[X [-> sX hX]]; cbn [bind].
have := istft_at root hop_length window sX; rewrite ibn => -[y [-> sy hy]]; cbn [bind].
have [z [-> sz hz]] := fit_at n sy; exists z => //; split=> // t i ht hi; rewrite hz // iln; case: ifP => // htr.
rewrite hy ?iln //.
pose w := mkseq (fun t => at_ x (t :: i)) n; have sw : size w = n by rewrite size_mkseq.
have := StftProofs.istft_stft Hr Hw (x := w); rewrite sw => /(_ _ hn r0).
have wr : real_signal w by move=> j; case: (ltnP j n) => hj; [rewrite nth_mkseq|rewrite nth_default ?sw ?real0].
move=> /(_ wr); rewrite stftE sw bn; cbn [bind] => e.
have -> : ival root n_fft hop_length window (frames n, fun k m => at_ X [:: m, k & i]) t = ival root n_fft hop_length window (frames n, fun k m => sval root n_fft hop_length window w k m) t.
  by apply: ival_ext => k m hk hm; rewrite hX.
by rewrite /ival e nth_take // nth_mkseq.
Qed.
End Good.
End Total.
Lemma tiss_recordings_total (C : numClosedFieldType) (root : nat -> C) n_fft h (window : nat -> C) nS nB n B (x : tensor C) (St St1 : Type)
    (tm : St -> tensor C -> result (tensor C * St))
    (m : St1 -> sig C (half n_fft).+1 (frames_of n_fft h n) nS -> sig C (half n_fft).+1 (frames_of n_fft h n) nS * St1)
    inv rs m0 eps T dl n_iter n_src use_dmc pb (ref : option 'I_(nS + nB)) :
  good_window n_fft (hop n_fft h) window -> sh x = [:: n, nS + nB & B]%N -> (half n_fft < n)%N -> (0 < recovered n_fft (hop n_fft h) n)%N ->
  source_as B tm m inv rs -> inv m0 -> n_src_is nS nB n_src -> 0 < eps -> pb_is B pb ref ->
  exists2 y, t_bss_forward root n_fft h window (fun X => rmap (fun r => r.1.1) (t_tiss_forward tm n_iter T dl n_src use_dmc pb eps m0 X)) x = Ok y &
    sh y = [:: n, nS & B].
Proof.
move=> hw sx hn r0 hm i0 hs e0 hp; apply: (bss_no_failure root hw sx hn r0) => X sX.
have [r -> [sr _ _]] := tiss_total T dl hm (isT : 0 < frames_of n_fft h n)%N sX i0 n_iter use_dmc hs e0 hp; by exists r.1.1.
Qed.
(* seven samples, two channels, batch of shape (3, 2) *)
Definition tape (C : numClosedFieldType) : tensor C := mkT [:: 7; 2; 2; 3]%N (fun i => (sumn i)%:R).
