(* T_ISS on a batch: the start, the projection back and the whole of forward. *)
From Coq Require Import String Ascii ZArith.
From mathcomp Require Import all_ssreflect all_algebra.
From mathcomp Require Import zify.
From Verif Require TorchShape.
From Verif Require Import CAlg Py Batch LinalgModel TissModel TensorModel TOpsModel TSpec TSepSpec TensorProofs TEinsum TOpsProofs TWpeProofs TTissModel TTissProofs TTissBatch TTissRun.
Set Implicit Arguments. Unset Strict Implicit. Unset Printing Implicit Defensive.
Import GRing.Theory Num.Theory Order.TTheory.
Local Open Scope ring_scope.
Arguments clip : simpl never.
Arguments TorchShape.bc2 : simpl never.
Arguments Nat.eqb : simpl never.

Section Forward.
Variable C : numClosedFieldType.
Local Notation tensor := (tensor C).
Variables (nS nB F N : nat) (B : seq nat).
Local Notation nC := (nS + nB)%N.
Local Notation sg k n t b := (sig_at F n k t b).

(* ---- the start *)
Lemma eyeW_at : exists W, [/\ (let* eye := unsq 1 (teye2 C nS nC) in assign_all (tzeros C [:: nC, F, nS & B]) eye)%py = Ok W,
  sh W = [:: nC, F, nS & B] & forall b, sg nS nC W b = eyeW C nS nB F].
Proof.
rewrite unsqE //; cbn [bind]; rewrite /assign_all /broadcast_to /TorchShape.expand_to.
rewrite -[TorchShape.ins _ _ _]/[:: nC; 1; nS]%N; cbn [sh tzeros].
have -> : TorchShape.bcast [:: nC; 1; nS]%N [:: nC, F, nS & B] = Ok [:: nC, F, nS & B].
  by rewrite /= !bc2nn bc21n.
cbn [bind]; rewrite seqbss; cbn [bind]; eexists; split; [reflexivity|by []|move=> b].
apply/ffunP => f; apply/matrixP => s d; rewrite sigE ffunE; cbn [at_].
rewrite -[clip _ _]/[:: (if nC == 1%N then 0%N else nat_of_ord d); 0%N; (if nS == 1%N then 0%N else nat_of_ord s)] !clip1 /=.
rewrite -[d]splitK; case: (split d) => e; rewrite ?row_mxEl ?row_mxEr mxE /= eq_sym //.
by rewrite ltn_eqF // (leq_trans (ltn_ord s)) // leq_addr.
Qed.
Lemma zeroH_at T b : taps_at F T nS nC (tzeros C [:: T, nC, F, nS & B]) b = zeroH C nS nB F T.
Proof. by apply/ffunP => f; apply/ffunP => t; apply/matrixP => s d; rewrite tapsE !ffunE mxE. Qed.

(* ---- projection back *)
Definition gain_at (a : tensor) (b : seq nat) : {ffun 'I_F -> 'M[C]_(nS, 1)} := [ffun f => \matrix_(s, j) at_ a [:: nat_of_ord j, nat_of_ord f, nat_of_ord s & b]].
Lemma pb_lift (lhs rhs : tensor) (R : seq nat -> 'M[C]_(nS, 1)) (A : seq nat -> 'I_F -> 'M[C]_nS) (r : seq nat -> 'I_F -> 'M[C]_(nS, 1)) l e :
  lifts (F :: B) [:: 1%N, nS, F & B] (solve_loaded_general lhs rhs l e)
    (fun i => LinalgModel.solve_loaded_general (mat nS nS lhs i) (R i) l e) (fun t i => mat nS 1 t i) ->
  (forall b f, inr B b -> mat nS nS lhs (nat_of_ord f :: b) = A b f) ->
  (forall b f, inr B b -> R (nat_of_ord f :: b) = r b f) ->
  lifts B [:: 1%N, F, nS & B] (let* a := solve_loaded_general lhs rhs l e in transpose 2 1 a)%py
   (fun b => gather 0 (fun f => LinalgModel.solve_loaded_general (A b f) (r b f) l e)) gain_at.
Proof.
move=> h hA hr; have hg := gather_lift 0 (fun i er => @slg_err _ _ _ _ _ _ _ _ er) h.
have hk (t : tensor) : sh t = [:: 1%N, nS, F & B] -> lifts B [:: 1%N, F, nS & B] (transpose 2 1 t)
   (fun b => Ok [ffun f : 'I_F => mat nS 1 t (nat_of_ord f :: b)]) gain_at.
  move=> st; have [u [-> su hu]] := transpose21 st; split=> // b hb; congr Ok; apply/ffunP => f; rewrite !ffunE.
  by apply/matrixP => s j; rewrite matE mxE hu.
have := @lifts_bind _ _ _ _ _ _ _ _ _ _ (fun _ (x : {ffun 'I_F -> 'M[C]_(nS, 1)}) => Ok x) _ hg hk.
apply: eq_lifts => b hb.
rewrite (@eq_gather _ _ 0 _ (fun f => LinalgModel.solve_loaded_general (A b f) (r b f) l e)); first by case: (gather _ _).
by move=> f; rewrite hA // hr.
Qed.
Lemma eye_col (z : Z) (r : 'I_nS) : TorchShape.valid nS z -> zidx nS z = r ->
  exists rhs, [/\ pick 0 z (teye C nS) = Ok rhs, sh rhs = [:: 1%N; nS] & mat nS 1 rhs [::] = delta_mx r 0].
Proof.
move=> v e; rewrite (@pickE _ 0 z (teye C nS) nS erefl v); eexists; split; [reflexivity|by []|].
by apply/matrixP => i j; rewrite matE mxE ord1 eqxx andbT; cbn [at_ teye]; rewrite /= e eq_sym.
Qed.
Lemma mic_lt (z : Z) (ref : 'I_nC) : names_mic z ref -> (ref < nS)%N -> TorchShape.valid nS z /\ zidx nS z = ref.
Proof.
rewrite /names_mic /TorchShape.valid /zidx => h lt; split; move: h; case: (Z.ltb_spec z Z0) => h1 h2; lia.
Qed.
Lemma pb_at (W : tensor) (J : option tensor) (z : Z) (ref : 'I_nC) : sh W = [:: nC, F, nS & B] -> okJ nS nB F B J ->
  names_mic z ref -> B = [::] \/ (ref < nS)%N ->
  lifts B [:: 1%N, F, nS & B] (t_projection_back_weights W J z)
    (fun b => gather 0 (fun f => pb_f (sg nS nC W b f) (rdJ nS nB F J b f) ref)) gain_at.
Proof.
move=> sW jJ hz hr; rewrite /t_projection_back_weights {1}sW.
rewrite (_ : (nS < nC)%N = (0 < nB)%N); last by rewrite -{1}(addn0 nS) ltn_add2l.
case: (posnP nB) => [b0|n0].
  have lt : (ref < nS)%N by have := ltn_ord ref; rewrite {2}b0 addn0.
  have [v e] := mic_lt hz lt.
  have [rhs [-> sr hrhs]] := @eye_col z (Ordinal lt) v e; cbn [bind].
  have sW' : sh W = [:: nS, F, nS & B] by rewrite sW b0 addn0.
  have [WT [-> sWT hWT]] := transpose21 sW'; cbn [bind]; have [lhs [-> sl hl]] := transpose10 sWT; cbn [bind].
  have := @pb_lift lhs rhs (fun _ => mat nS 1 rhs [::]) (fun b f => (lsubmx (sg nS nC W b f))^T) (fun _ _ => delta_mx (Ordinal lt) 0) _ _ (slg_bc (c5 C) (c5 C) sl sr).
  move=> hh; apply: eq_lifts (hh _ _) => [b hb|b f hb|//]; last first.
    by apply/matrixP => i j; rewrite matE hl hWT mxE mxE sigE.
  apply: eq_gather => f; rewrite /pb_f (_ : (0 < nB)%N = false); last by rewrite b0.
  case: splitP => k hk; last by exfalso; case: k {hk} => k lk; move: lk; rewrite b0.
  by have -> : Ordinal lt = k by apply: val_inj.
case: J jJ => [J [_ sJ]|b0]; last by exfalso; move: n0; rewrite (b0 : nB = 0%N).
have [W1 [-> sW1 hW1]] := slice_to0 sW; cbn [bind]; have [W2 [-> sW2 hW2]] := slice_from0 sW; cbn [bind].
have [D [-> sD hD]] := e_sfk sW2 sJ; cbn [bind].
have [D1 [e sD1 hD1]] := tzip_same +%R sD sW1; rewrite /tadd e; cbn [bind].
have DE b (f : 'I_F) (s k : 'I_nS) : inr B b -> at_ D1 [:: nat_of_ord k, nat_of_ord f, nat_of_ord s & b] =
    (lsubmx (sg nS nC W b f) + rsubmx (sg nS nC W b f) *m sg nB nS J b f) s k.
  move=> hb; have h : inr [:: nS, F, nS & B] [:: nat_of_ord k, nat_of_ord f, nat_of_ord s & b] by rewrite /= !ltn_ord.
  rewrite hD1 // hD // hW1 addrC mxE [lsubmx _ _ _]mxE sigE; congr (_ + _).
  by rewrite mxE; apply: eq_bigr => d _; rewrite hW2 [rsubmx _ _ _]mxE !sigE.
have [lhs [el sl hl]] := e_fcs sD1.
have lE b (f : 'I_F) : inr B b -> mat nS nS lhs (nat_of_ord f :: b) = (lsubmx (sg nS nC W b f) + rsubmx (sg nS nC W b f) *m sg nB nS J b f)^T.
  move=> hb; apply/matrixP => i j; rewrite matE hl; last by rewrite /= !ltn_ord.
  by rewrite DE // [RHS]mxE.
case: (ltnP ref nS) => [lt|ge].
  have [v e2] := mic_lt hz lt.
  have -> : Z.ltb z (Z.of_nat nS) by case/andP: v.
  have [rhs [-> sr hrhs]] := @eye_col z (Ordinal lt) v e2; cbn [bind]; rewrite el; cbn [bind].
  have := @pb_lift lhs rhs (fun _ => mat nS 1 rhs [::]) _ (fun _ _ => delta_mx (Ordinal lt) 0) _ _ (slg_bc (c5 C) (c5 C) sl sr) lE.
  move=> hh; apply: eq_lifts (hh _) => [b hb|//].
  apply: eq_gather => f; rewrite /pb_f n0.
  case: splitP => k hk; last by exfalso; have := lt; rewrite hk ltnNge leq_addr.
  by have -> : Ordinal lt = k by apply: val_inj.
case: hr => [b0|]; last by rewrite ltnNge ge.
have zr : z = Z.of_nat ref by move: hz; rewrite /names_mic; case: (Z.ltb_spec z Z0) => h1 h2; lia.
have -> : Z.ltb z (Z.of_nat nS) = false by apply/Z.ltb_spec0; lia.
have lt : (ref - nS < nB)%N by have := ltn_ord ref; lia.
have -> : Z.sub z (Z.of_nat nS) = Z.of_nat (ref - nS) by lia.
rewrite (@pickE _ 2 _ J nB) ?sJ ?valid_nat //; cbn [bind].
set J1 := mkT _ _; have sJ1 : sh J1 = [:: nS; F; 1%N] by rewrite /J1; cbn [sh]; rewrite b0.
rewrite /permute_213 sJ1; cbn [TorchShape.permute_213 bind]; rewrite el; cbn [bind].
set rhs := mkT _ _; have sr : sh rhs = [:: 1%N, nS, F & B] by rewrite b0.
have := @pb_lift lhs rhs (fun i => mat nS 1 rhs i) _ (fun b f => (row (Ordinal lt) (sg nB nS J b f))^T) _ _ (slg_mat (c5 C) (c5 C) sl sr) lE.
move=> hh; apply: eq_lifts (hh _) => [b hb|b f hb].
  apply: eq_gather => f; rewrite /pb_f n0.
  case: splitP => k hk; first by exfalso; move: ge; rewrite hk leqNgt ltn_ord.
  by have -> : Ordinal lt = k by apply: val_inj => /=; rewrite hk addKn.
have eb : b = [::] by move: hb; rewrite b0; case: (b).
apply/matrixP => i j; rewrite matE mxE mxE sigE eb /rhs; cbn [at_]; rewrite /J1; cbn [at_]; by rewrite zidx_nat.
Qed.
End Forward.

Section Whole.
Variable C : numClosedFieldType.
Local Notation tensor := (tensor C).
Variables (nS nB F T dl N : nat) (B : seq nat).
Local Notation nC := (nS + nB)%N.
Local Notation sg k n t b := (sig_at F n k t b).
Variables (St St1 : Type) (tm : St -> tensor -> result (tensor * St)) (m : St1 -> sig C F N nS -> sig C F N nS * St1) (inv : St -> Prop) (rs : St -> seq nat -> St1).
Hypothesis hm : source_as B tm m inv rs.
Hypothesis N0 : (0 < N)%N.
Variables (X : tensor) (eps : C).
Hypothesis sX : sh X = [:: N, F, nC & B].
Lemma Cs_at (Xb : tensor) : sh Xb = [:: N, T, F, nC & B] -> exists Cs, (if (0 < nB)%N then
           let* C_XX := einsum [:: "cfn"; "dfn"] "cfd" [:: X; tmap conjC X] in
           let C_XX := tmap (fun x => x / N%:R) C_XX in
           let* C_XbarX := einsum [:: "cftn"; "dfn"] "ctfd" [:: Xb; tmap conjC X] in
           let C_XbarX := tmap (fun x => x / N%:R) C_XbarX in
           Ok (Some (C_XX, C_XbarX))
         else Ok None)%py%string = Ok Cs /\ okC nS nB F T N B X Xb Cs.
Proof.
move=> sXb; case: (posnP nB) => [b0|n0]; first by exists None.
have [c1 [-> s1 h1]] := e_cfd sX (sX : sh (tmap conjC X) = _); cbn [bind].
have [c2 [-> s2 h2]] := e_ctfd sXb (sX : sh (tmap conjC X) = _); cbn [bind].
eexists; split; [reflexivity|split=> //].
  move=> b f c d hb; cbn [at_ tmap]; rewrite h1 /= ?ltn_ord // [RHS]mxE; congr (_ / _).
  by apply: eq_bigr => n _; rewrite !sigE.
move=> b f t c d hb; cbn [at_ tmap]; rewrite h2 /= ?ltn_ord // [RHS]mxE; congr (_ / _).
by apply: eq_bigr => n _; rewrite !sigE xbE.
Qed.
Lemma forward_at n_iter n_src use_dmc pb ref m0 : inv m0 -> n_src_is nS nB n_src -> pb_is B pb ref ->
  gives (okR nS nB F N B) B (t_tiss_forward tm n_iter T dl n_src use_dmc pb eps m0 X)
    (fun b => rmap fst (forward T dl m (sg nC N X b) eps n_iter use_dmc ref (rs m0 b))) (rdR nS nB F N).
Proof.
move=> im0 hn hp; rewrite /t_tiss_forward sX.
have -> : (if n_src is Some n then n else nC) = nS by move: hn; rewrite /n_src_is; case: n_src => [k|] ->; rewrite ?addn0.
rewrite ltnNge leq_addr; cbn [negb]; cbv zeta.
rewrite (_ : (nS < nC)%N = (0 < nB)%N); last by rewrite -{1}(addn0 nS) ltn_add2l.
have [Xb [eXb sXb vXb]] := t_xbar T dl sX.
have hXb b : inr B b -> xb_at F T N nC Xb b = delayed T dl (sg nC N X b).
  by move=> _; apply/ffunP => f; apply/ffunP => t; apply/matrixP => c n; rewrite xbE vXb.
move: eXb; case: (pad_left _ _) => [xp|] //; cbn [bind]; case: (hankel_view _ _) => [xh|] //; cbn [bind] => ->; cbn [bind].
have [Cs [-> hC]] := Cs_at sXb; cbn [bind].
have [W [eW sW hW]] := eyeW_at C nS nB F B.
move: eW; case: (unsq _ _) => [ey|] //; cbn [bind] => ->; cbn [bind].
set H := tzeros C [:: T, nC, F, nS & B].
have sH : sh H = [:: T, nC, F, nS & B] by [].
have hJ : gives (okJ nS nB F B) B (if Cs is Some (C_XX, C_XbarX) then let* J := t_background_update W H C_XX C_XbarX eps in Ok (Some J) else Ok None)%py
   (fun b => if (0 < nB)%N then background_update (eyeW C nS nB F) (zeroH C nS nB F T) (sg nC N X b) (delayed T dl (sg nC N X b)) eps else Ok [ffun f => 0]) (rdJ nS nB F).
  case: (posnP nB) => [b0|n0].
    move: hC; rewrite /okC; case: Cs => [[c1 c2] []|_]; first by rewrite b0.
    by split.
  have [c1 [c2 [-> h]]] := bg_at hXb hC eps sW sH n0.
  by apply: eq_gives h => b hb; rewrite hW zeroH_at.
have hD Y U G : sh U = [:: nC, F, nS & B] -> sh G = [:: T, nC, F, nS & B] -> t_demix_derev X Xb U G = Ok Y ->
   sh Y = [:: N, F, nS & B] /\ forall b, inr B b -> sg nS N Y b = demix_derev (sg nC N X b) (delayed T dl (sg nC N X b)) (sg nS nC U b) (taps_at F T nS nC G b).
  move=> sW' sH'; have [Y' [-> sY' hY']] := demix_at sX sXb sW' sH' => -[<-]; split=> // b hb; by rewrite hY' // hXb.
pose body := if use_dmc then t_one_iter_dmc tm X Xb Cs eps else t_one_iter tm X Xb Cs eps.
pose gbody b := if use_dmc then one_iter_dmc (nT := T) dl m (sg nC N X b) eps else one_iter dl m (sg nC N X b) eps.
have hbody s : okS nS nB F T N B inv s -> gives (okS nS nB F T N B inv) B (body s) (fun b => gbody b (rdS nS nB F T N rs s b)) (rdS nS nB F T N rs).
  rewrite /body /gbody; case: (use_dmc) => hs; [exact: one_iter_dmc_at|exact: one_iter_at].
pose kraw b (J : filt C F nB nS) : result (st C nS nB F T N St1) := iterate (gbody b) n_iter
   (mkst (demix_derev (sg nC N X b) (delayed T dl (sg nC N X b)) (eyeW C nS nB F) (zeroH C nS nB F T)) (eyeW C nS nB F) (zeroH C nS nB F T) J (rs m0 b)).
have hraw : gives (okS nS nB F T N B inv) B
   (let* J := (if Cs is Some (C_XX, C_XbarX) then let* J := t_background_update W H C_XX C_XbarX eps in Ok (Some J) else Ok None) in
    let* Y := t_demix_derev X Xb W H in t_iterate body n_iter (Y, W, H, J, m0))%py
   (fun b => let* J := (if (0 < nB)%N then background_update (eyeW C nS nB F) (zeroH C nS nB F T) (sg nC N X b) (delayed T dl (sg nC N X b)) eps else Ok [ffun f => 0]) in kraw b J)%py
   (rdS nS nB F T N rs).
  apply: (@gives_bind _ _ _ _ _ _ _ _ _ _ _ kraw _ hJ) => J jJ.
  have [Y [e _ _]] := demix_at sX sXb sW sH; have [sY hY] := hD Y W H sW sH e; rewrite e; cbn [bind].
  have ok1 : okS nS nB F T N B inv (Y, W, H, J, m0) by split.
  apply: eq_gives (iterate_at n_iter hbody ok1) => b hb; rewrite /kraw; congr iterate.
  by rewrite /rdS; cbn [fst snd]; rewrite hY // hW zeroH_at.
pose kfin (b : seq nat) (x : st C nS nB F T N St1) : result (sig C F N nS * filt C F nS nC * filt C F nB nS) :=
  let Y := if use_dmc then demix_derev (sg nC N X b) (delayed T dl (sg nC N X b)) (stW x) (stH x) else stY x in
  match ref with
  | Some ref => if (0 < n_iter)%N then
      let* a := gather 0 (fun f => pb_f (stW x f) (stJ x f) ref) in
      Ok ([ffun f => \matrix_(s, n) (a f s 0 * Y f s n)], stW x, stJ x)
    else Ok (Y, stW x, stJ x)
  | None => Ok (Y, stW x, stJ x)
  end%py.
pose fin (s : tst C St) : result (tensor * tensor * option tensor) := (let: (YWH, J, m) := s in let: (Y, W, H) := YWH in
   let* Y := (if use_dmc then t_demix_derev X Xb W H else Ok Y) in
   let* Y := (match pb with
                 | Some ref_mic =>
                     if (0 < n_iter)%N then let* a := t_projection_back_weights W J ref_mic in tmul a Y else Ok Y
                 | None => Ok Y
                 end) in
      Ok (Y, W, J))%py.
have hfin s : okS nS nB F T N B inv s -> gives (okR nS nB F N B) B (fin s) (fun b => kfin b (rdS nS nB F T N rs s b)) (rdR nS nB F N).
  case: s => [[[[Y W'] H'] J] m1] [[sY sW' sH'] jJ iJ]; cbn [fst snd] in sY, sW', sH', jJ, iJ; rewrite /fin.
  have [Y' [-> sY' hY']] : exists Y', [/\ (if use_dmc then t_demix_derev X Xb W' H' else Ok Y) = Ok Y', sh Y' = [:: N, F, nS & B] &
     forall b, inr B b -> sg nS N Y' b = (if use_dmc then demix_derev (sg nC N X b) (delayed T dl (sg nC N X b)) (sg nS nC W' b) (taps_at F T nS nC H' b) else sg nS N Y b)].
    case: (use_dmc); last by exists Y.
    have [Y' [e _ _]] := demix_at sX sXb sW' sH'; have [sY' hY'] := hD Y' W' H' sW' sH' e; by exists Y'.
  cbn [bind]; rewrite /kfin /rdS; cbn [fst snd stY stW stH stJ].
  have h0 : gives (okR nS nB F N B) B (let* Y := Ok Y' in Ok (Y, W', J))%py (fun b => Ok (sg nS N Y' b, sg nS nC W' b, rdJ nS nB F J b)) (rdR nS nB F N) by split.
  move: hp; rewrite /pb_is; case: (pb) (ref) => [z|] [r|] // {}hp; last by apply: eq_gives h0 => b hb; rewrite hY'.
  case: (posnP n_iter) => _; first by apply: eq_gives h0 => b hb; rewrite hY'.
  have [hz hB] := hp; have hl := pb_at sW' jJ hz hB; move/lifts_gives in hl.
  pose ka (b : seq nat) (a : {ffun 'I_F -> 'M[C]_(nS, 1)}) : result (sig C F N nS * filt C F nS nC * filt C F nB nS) :=
    Ok ([ffun f => \matrix_(s, n) (a f s 0 * sg nS N Y' b f s n)], sg nS nC W' b, rdJ nS nB F J b).
  have := @gives_bind _ _ _ _ _ (okR nS nB F N B) _ _ _ _ (fun a => let* Y := tmul a Y' in Ok (Y, W', J))%py ka (rdR nS nB F N) hl.
  have -> : (let* x := t_projection_back_weights W' J z in let* Y0 := tmul x Y' in Ok (Y0, W', J))%py =
    (let* Y0 := let* a := t_projection_back_weights W' J z in tmul a Y' in Ok (Y0, W', J))%py by case: (t_projection_back_weights _ _ _).
  move=> hh; apply: eq_gives (hh _) => [b hb|a sa]; first by rewrite /ka hY'.
  have [Y2 [e sY2 hY2]] := tzip_col (fun x y => y * x) sY' sa.
  have [Y3 [e3 sY3 hY3]] : exists Y3, [/\ tmul a Y' = Ok Y3, sh Y3 = [:: N, F, nS & B] & forall n i, inr [:: N, F, nS & B] (n :: i) -> at_ Y3 (n :: i) = at_ a (0%N :: i) * at_ Y' (n :: i)].
    rewrite /tmul (@tzipE _ _ _ _ [:: N, F, nS & B]); last by rewrite sa sY' /= bc21n /= !bc2nn /= bcastss.
    eexists; split; [reflexivity|by []|move=> n i hi]; cbn [at_]; rewrite sa sY' (clip_id hi).
    have hi' : inr [:: F, nS & B] i by case/andP: hi.
    by rewrite -[clip _ _]/(0%N :: clip [:: F, nS & B] i) (clip_id hi').
  rewrite e3; cbn [bind]; split; first by split.
  move=> b hb; rewrite /ka /rdR; cbn [fst snd]; congr (Ok (_, _, _)).
  apply/ffunP => f; apply/matrixP => s n; rewrite !ffunE !mxE hY3 //=; by rewrite !ltn_ord.
have hall := @gives_bind _ _ _ _ _ (okR nS nB F N B) _ _ _ _ fin kfin (rdR nS nB F N) hraw hfin.
set lhs := (X in gives _ _ X _ _); have -> : lhs = (let* s := (let* J := (if Cs is Some (C_XX, C_XbarX) then let* J := t_background_update W H C_XX C_XbarX eps in Ok (Some J) else Ok None) in
    let* Y := t_demix_derev X Xb W H in t_iterate body n_iter (Y, W, H, J, m0)) in fin s)%py.
  rewrite /lhs; case: (if Cs is Some _ then _ else _) => [J|//]; cbn [bind].
  by case: (t_demix_derev X Xb W H) => [Y|//]; cbn [bind].
apply: eq_gives hall => b hb; rewrite /forward /forward_raw /init /TissModel.Xb /kraw /kfin /gbody.
case: (if (0 < nB)%N then _ else _) => [J|//]; cbn [bind].
case: (use_dmc); case: (iterate _ _ _) => [x|//]; cbn [bind stY stW stH stJ stM]; case: (ref) => [r|//]; case: (0 < n_iter)%N => //;
  by case: (gather _ _).
Qed.
End Whole.
