(* AuxIVA_IP on a batch: the iterations, the projection back and the whole of forward. *)
From Coq Require Import String Ascii ZArith.
From mathcomp Require Import all_ssreflect all_algebra.
From mathcomp Require Import zify.
From Verif Require TorchShape.
From Verif Require Import CAlg Py Batch LinalgModel TissModel IvaModel TensorModel TOpsModel TSpec TSepSpec TensorProofs TEinsum TOpsProofs TTissModel TTissProofs TTissBatch TTissForward TIpModel TIpProofs.
Set Implicit Arguments. Unset Strict Implicit. Unset Printing Implicit Defensive.
Import GRing.Theory Num.Theory Order.TTheory.
Local Open Scope ring_scope.
Arguments clip : simpl never.
Arguments TorchShape.bc2 : simpl never.
Arguments Nat.eqb : simpl never.

Section Run.
Variable C : numClosedFieldType.
Local Notation tensor := (tensor C).
Variables (nS nB F N : nat) (B : seq nat).
Local Notation nC := (nS + nB)%N.
Local Notation sg k n t b := (sig_at F n k t b).
Variables (St St1 : Type) (tm : St -> tensor -> result (tensor * St)) (m : St1 -> sig C F N nS -> sig C F N nS * St1) (inv : St -> Prop) (rs : St -> seq nat -> St1).
Hypothesis hm : source_as B tm m inv rs.
Variables (X : tensor) (eps : C).
Hypothesis sX : sh X = [:: N, F, nC & B].
Local Notation okJ2 := (okJ2 nS nB F B).
Local Notation rdJ2 := (@rdJ2 C nS nB F).
Definition pst := (tensor * tensor * option tensor * St)%type.
Definition okP (s : pst) : Prop := [/\ sh s.1.1.1 = [:: N, F, nS & B], sh s.1.1.2 = [:: nC, nS, F & B], okJ2 s.1.2 & inv s.2].
Definition rdP (s : pst) (b : seq nat) : ipst C nS nB F N St1 := (sg nS N s.1.1.1 b, fl F nS nC s.1.1.2 b, rdJ2 s.1.2 b, rs s.2 b).
Section Iter.
Variables (Cx ev : tensor).
Hypothesis sCx : sh Cx = [:: nC, nC, F & B].
Hypothesis hCx : forall b (f : 'I_F), inr B b -> mat nC nC Cx (nat_of_ord f :: b) = ip_Cx (sg nC N X b) f.
Hypothesis sev : sh ev = [:: nC, nC, F & B].
Hypothesis hev : forall i, mat nC nC ev i = 1%:M.
Lemma ip_iter_at s : okP s -> gives okP B (t_ip_iter tm X Cx ev eps nS s) (fun b => ip_iter m (sg nC N X b) eps (rdP s b)) rdP.
Proof.
case: s => [[[Y W] J] m0] [sY sW jJ iJ]; cbn [fst snd] in sY, sW, jJ, iJ; rewrite /t_ip_iter.
have [w [m1 [-> im1 sw hw]]] := hm iJ sY; cbn [bind].
have [g [-> shg hg]] := tmean2E (sY : sh (tmap (@mag_sq C) Y) = _); cbn [bind]; cbv zeta.
pose gc := tmap (fun x => clamp x eps) g; rewrite -/gc; have sgc : sh gc = [:: 1, 1, nS & B]%N by [].
have gE b s : at_ gc [:: 0%N, 0%N, nat_of_ord s & b] = ip_gain eps (sg nS N Y b) s.
  rewrite /gc; cbn [at_ tmap]; rewrite hg /ip_gain; congr (clamp (_ / _) _).
  by apply: eq_bigr => f _; apply: eq_bigr => n _; rewrite sigE.
pose gq := tmap sqrtC gc; rewrite -/gq; have sgq : sh gq = [:: 1, 1, nS & B]%N by [].
have [Y1 [e1 sY1 hY1]] := tzip_gain (fun x y => x / y) sY (sgq : sh (tmap (fun x => clamp x eps) gq) = _); rewrite {1}/tdiv e1; cbn [bind].
have [gt [-> sgt hgt]] := transpose21 sgq; cbn [bind].
have [W1 [e2 sW1 hW1]] := tzip_row (fun x y => x / y) sW (sgt : sh (tmap (fun x => clamp x eps) gt) = _); rewrite {1}/tdiv e2; cbn [bind].
have [w1 [e4 sw1 hw1]] := tzip_gain *%R sw sgc; rewrite /tmul e4; cbn [bind].
pose wb b : filt C F nS nC := [ffun f => \matrix_(s, c) (fl F nS nC W b f s c / clamp (sqrtC (ip_gain eps (sg nS N Y b) s)) eps)].
have rW b : inr B b -> fl F nS nC W1 b = wb b.
  move=> hb; apply/ffunP => f; apply/matrixP => s c; rewrite flE ffunE mxE flE -gE hW1; last by rewrite /= !ltn_ord.
  by cbn [at_ tmap]; rewrite hgt.
pose ub b : sig C F N nS := [ffun f => \matrix_(s, n) (sg nS N w b f s n * ip_gain eps (sg nS N Y b) s)].
have rw b : inr B b -> sg nS N w1 b = ub b.
  move=> hb; apply/ffunP => f; apply/matrixP => s n; rewrite sigE ffunE mxE sigE -gE hw1 //=; by rewrite !ltn_ord.
have ok1 : okWJ nS nB F B (W1, J) by split.
have hfor := @for_gives _ _ (okWJ nS nB F B) B (@rdWJ C nS nB F) nS (t_ip_source X w1 Cx ev eps nS) (fun b => ip_source (sg nC N X b) (sg nS N w1 b) eps) _ (fun k x hx => @source_at C nS nB F N B X eps sX Cx ev sCx hCx sev hev w1 k x sw1 hx) ok1.
pose kb b (r : filt C F nS nC * filt C F nB nS) : result (ipst C nS nB F N St1) :=
  let: (W', J') := r in Ok ([ffun f => W' f *m sg nC N X b f], W', J', rs m1 b).
have := @gives_bind _ _ _ _ _ okP _ _ _ _ (fun x => let: (W, J) := x in let* Y := einsum [:: "fcd"; "dfn"]%string "cfn" [:: W; X] in Ok (Y, W, J, m1))%py kb rdP hfor.
move=> hh; apply: eq_gives (hh _) => [b hb|[W2 J2] [sW2 jJ2]]; cbn [fst snd] in *.
  rewrite /ip_iter /rdP; cbn [fst snd]; rewrite hw // /kb /rdWJ; cbn [fst snd]; rewrite rW // rw //.
have [Y2 [-> sY2 hY2]] := e_unmix sW2 sX; cbn [bind]; split; first by split.
move=> b hb; rewrite /kb /rdWJ /rdP; cbn [fst snd]; congr (Ok (_, _, _, _)).
apply/ffunP => f; apply/matrixP => s n; rewrite ffunE sigE hY2; last by rewrite /= !ltn_ord.
by rewrite mxE; apply: eq_bigr => c _; rewrite flE sigE.
Qed.
Lemma ip_loop_at n s : okP s -> gives okP B (t_iterate (t_ip_iter tm X Cx ev eps nS) n s) (fun b => ip_loop m (sg nC N X b) eps n (rdP s b)) rdP.
Proof.
elim: n s => [|n IH] s hs; first by split.
exact: (@gives_bind _ _ _ _ _ _ _ _ _ _ _ (fun b => ip_loop m (sg nC N X b) eps n) _ (ip_iter_at hs) IH).
Qed.
End Iter.
(* ---- projection back on one of the first nS microphones *)
Lemma ip_pb_at (Y W : tensor) (J : option tensor) (z : Z) (ref : 'I_nC) : sh Y = [:: N, F, nS & B] -> sh W = [:: nC, nS, F & B] -> okJ2 J ->
  names_mic z ref -> (ref < nS)%N ->
  lifts B [:: N, F, nS & B] (t_ip_pb Y W J z) (fun b => ip_pb (sg nS N Y b) (fl F nS nC W b) (rdJ2 J b) ref) (fun t b => sg nS N t b).
Proof.
move=> sY sW jJ hz lt; rewrite /t_ip_pb {1}sY {1}sW; have [v ez] := mic_lt hz lt.
have hF b (f : 'I_F) : inr B b -> inr (F :: B) (nat_of_ord f :: b) by rewrite /= ltn_ord.
pose A b (f : 'I_F) : 'M[C]_nS := (if (0 < nB)%N then lsubmx (fl F nS nC W b f) + rsubmx (fl F nS nC W b f) *m rdJ2 J b f else lsubmx (fl F nS nC W b f))^T.
have [WW [e1 [eq sWW se1 [hWW he1]]]] : exists WW e1, [/\ (match J with
         | None =>
             let* e1 := pick 0 z (teye C nC) in
             let* e1 := broadcast_to (sh e1 ++ drop 2 (sh W)) e1 in
             Ok (W, e1)
         | Some J =>
             let* W1 := slice_to 1 nS W in
             let* A := slice_to 0 nS W1 in
             let* B := slice_from 0 nS W1 in
             let* e1 := (if Z.ltb z (Z.of_nat nS) then pick 0 z (teye2 C nS nS)
                         else let* c := pick 1 (Z.sub z (Z.of_nat nS)) J in transpose 1 0 c) in
             let* BC := matmul B J in
             let* WW := tadd A BC in
             let* e1 := broadcast_to (sh e1 ++ drop 2 (sh WW)) e1 in
             Ok (WW, e1)
         end)%py = Ok (WW, e1), sh WW = [:: nS, nS, F & B], sh e1 = [:: 1%N, nS, F & B] &
   (forall b f, inr B b -> (mat nS nS WW (nat_of_ord f :: b))^T = A b f) /\ (forall i, mat nS 1 e1 i = delta_mx (Ordinal lt) 0)].
  rewrite /A; clear A; case: J jJ => [J [n0 sJ]|b0].
    have sW' : sh W = [:: nC, (nS + 0)%N, F & B] by rewrite addn0.
    have [W1 [-> sW1 hW1]] := slice_to1 sW'; cbn [bind].
    have [A1 [-> sA1 hA1]] := slice_to0 sW1; cbn [bind]; have [B1 [-> sB1 hB1]] := slice_from0 sW1; cbn [bind].
    have -> : Z.ltb z (Z.of_nat nS) by case/andP: v.
    have [rhs [-> sr hrhs]] := @eye_col C nS z (Ordinal lt) v ez; cbn [bind].
    have [BC [-> sBC hBC]] := matmulE sB1 sJ; cbn [bind].
    have [D [e sD hD]] := tzip_same +%R sA1 sBC; rewrite /tadd e; cbn [bind].
    rewrite sr sD -[_ ++ _]/[:: 1%N, nS, F & B]; have [u [-> su hu]] := bc_mat (F :: B) sr; cbn [bind].
    exists D, u; split=> //; split=> [b f hb|i]; last by rewrite hu hrhs.
    rewrite n0; congr trmx; apply/matrixP => i j; rewrite matE hD; last by rewrite /= !ltn_ord.
    rewrite -(matE BC (nat_of_ord f :: b) i j) hBC ?hF // hA1 hW1 [RHS]mxE; congr (_ + _); first by rewrite mxE flE.
    rewrite [LHS]mxE [RHS]mxE; apply: eq_bigr => x _; congr (_ * _); first by rewrite mxE hB1 hW1 [RHS]mxE flE.
    by rewrite /TIpProofs.rdJ2 flE mxE.
  have b0' : nB = 0%N := b0.
  have eC : nC = nS by rewrite b0' addn0.
  rewrite {1}eC; have [rhs [-> sr hrhs]] := @eye_col C nS z (Ordinal lt) v ez; cbn [bind].
  rewrite sr sW -[_ ++ _]/[:: 1%N, nS, F & B]; have [u [-> su hu]] := bc_mat (F :: B) sr; cbn [bind].
  exists W, u; split; [by []|by rewrite sW eC|by []|split=> [b f hb|i]; last by rewrite hu hrhs].
  have -> : (0 < nB)%N = false by rewrite b0'.
  by congr trmx; apply/matrixP => i j; rewrite matE mxE flE.
rewrite eq; cbn [bind]; have [WT [-> sWT hWT]] := transpose10 sWW; cbn [bind].
have hA b f : inr B b -> mat nS nS WT (nat_of_ord f :: b) = A b f.
  by move=> hb; rewrite -hWW //; apply/matrixP => i j; rewrite matE hWT mxE matE.
have hl := @pb_lift C nS F B WT e1 (fun i => mat nS 1 e1 i) A (fun _ _ => delta_mx (Ordinal lt) 0) _ _ (slg_mat (10%:R ^- 5) (10%:R ^- 5) sWT se1) hA (fun b f _ => he1 _).
have := @lifts_bind _ _ _ _ _ [:: N, F, nS & B] _ _ _ (fun a => tmul Y a) (fun b (a : {ffun 'I_F -> 'M[C]_(nS, 1)}) => Ok [ffun f => \matrix_(s, n) (sg nS N Y b f s n * a f s 0)]) (fun t b => sg nS N t b) hl.
move=> hh; set lhs' := (X in lifts _ _ X _ _).
have -> : lhs' = (let* x := let* a := solve_loaded_general WT e1 (10%:R ^- 5) (10%:R ^- 5) in transpose 2 1 a in tmul Y x)%py.
  by rewrite /lhs'; case: (solve_loaded_general _ _ _ _).
apply: eq_lifts (hh _) => [b hb|a sa].
  rewrite /ip_pb; congr bind; apply: eq_gather => f; rewrite /A.
  case: splitP => k hk; last by exfalso; have := lt; rewrite hk ltnNge leq_addr.
  have -> : Ordinal lt = k by apply: val_inj.
  by case: ifP.
have [Y2 [e sY2 hY2]] := tzip_col *%R sY sa; rewrite /tmul e; split=> // b hb; congr Ok.
by apply/ffunP => f; apply/matrixP => s n; rewrite !ffunE !mxE hY2 //= !ltn_ord.
Qed.
(* ---- the start *)
Lemma eyeW2_at : exists W, [/\ assign_all (tzeros C [:: nC, nS, F & B]) (teye2 C nS nC) = Ok W,
  sh W = [:: nC, nS, F & B] & forall b, fl F nS nC W b = [ffun f => row_mx 1%:M 0]].
Proof.
have [u [e su hu]] := @bc_mat C nC nS (F :: B) (teye2 C nS nC) erefl.
exists u; split=> // b; apply/ffunP => f; rewrite !ffunE hu; apply/matrixP => s d; rewrite matE.
by rewrite -[d]splitK; case: (split d) => x; rewrite ?row_mxEl ?row_mxEr mxE /= eq_sym //; rewrite ltn_eqF // (leq_trans (ltn_ord s)) // leq_addr.
Qed.
Definition t_ip_fin (pb : option Z) (s : pst) : result tensor :=
  let: (YWJ, m) := s in let: (Y, W, J) := YWJ in if pb is Some ref_mic then t_ip_pb Y W J ref_mic else Ok Y.
Lemma ip_raw_at n_iter m0 : inv m0 -> exists raw, (forall pb, t_ip_forward tm n_iter (Some nS) pb eps m0 X = (let* s := raw in t_ip_fin pb s)%py) /\
  gives okP B raw (fun b => ip_raw m (sg nC N X b) eps n_iter (rs m0 b)) rdP.
Proof.
move=> im0; rewrite /t_ip_forward sX; cbv zeta.
have [W [-> sW hW]] := eyeW2_at; cbn [bind].
have [Y [-> sY hY]] := slice_to2 sX; cbn [bind].
have [Cx [-> sCx hCx]] := e_fcd sX (sX : sh (tmap conjC X) = _); cbn [bind].
set Cn := tmap (fun x => x / N%:R) Cx; have sCn : sh Cn = [:: nC, nC, F & B] by [].
have hCn b (f : 'I_F) : inr B b -> mat nC nC Cn (nat_of_ord f :: b) = ip_Cx (sg nC N X b) f.
  move=> hb; apply/matrixP => c d; rewrite matE mxE /Cn; cbn [at_ tmap]; rewrite hCx; last by rewrite /= !ltn_ord.
  by congr (_ / _); apply: eq_bigr => n _; rewrite !sigE.
have [ev [eev sev hev]] := @bc_mat C nC nC (F :: B) (teye C nC) erefl.
have hev1 i : mat nC nC ev i = 1%:M by rewrite hev; apply/matrixP => x y; rewrite matE mxE /= eq_sym.
pose kraw b (J : filt C F nB nS) := ip_loop m (sg nC N X b) eps n_iter ([ffun f => usubmx (sg nC N X b f)], [ffun f => row_mx 1%:M 0], J, rs m0 b).
have hraw := @gives_bind _ _ _ _ _ okP _ _ _ _ (fun J => t_iterate (t_ip_iter tm X Cn ev eps nS) n_iter (Y, W, J, m0)) kraw rdP (oc_at sCn hCn eps sW).
exists (let* J := t_orthogonal_constraint W Cn eps in t_iterate (t_ip_iter tm X Cn ev eps nS) n_iter (Y, W, J, m0))%py; split=> [pb|].
  case: (t_orthogonal_constraint _ _ _) => [J|//]; cbn [bind].
  rewrite [sh (teye C nC)]/= sW -[_ ++ _]/[:: nC, nC, F & B] eev; cbn [bind].
  by case: (t_iterate _ _ _) => [[[[Y1 W1] J1] m1]|//].
apply: eq_gives (hraw _) => [b hb|J jJ]; first by rewrite /ip_raw hW.
have ok1 : okP (Y, W, J, m0) by split.
apply: eq_gives (ip_loop_at sCn hCn sev hev1 n_iter ok1) => b hb; rewrite /kraw; congr ip_loop; rewrite /rdP; cbn [fst snd].
rewrite hW; congr (_, _, _, _); apply/ffunP => f; rewrite [RHS]ffunE; apply/matrixP => s n; rewrite sigE [RHS]mxE sigE hY; by [].
Qed.
Lemma ip_forward_at n_iter pb (ref : option 'I_nC) m0 : inv m0 -> pb_near pb ref ->
  lifts B [:: N, F, nS & B] (t_ip_forward tm n_iter (Some nS) pb eps m0 X)
    (fun b => rmap fst (ip_forward m (sg nC N X b) eps n_iter ref (rs m0 b))) (fun t b => sg nS N t b).
Proof.
move=> im0 hp; have [raw [-> hraw]] := ip_raw_at n_iter im0.
pose kfin (b : seq nat) (x : ipst C nS nB F N St1) : result (sig C F N nS) := let: (Y, W, J, m) := x in if ref is Some r then ip_pb Y W J r else Ok Y.
have hfin s : okP s -> gives (fun t => sh t = [:: N, F, nS & B]) B (t_ip_fin pb s) (fun b => kfin b (rdP s b)) (fun t b => sg nS N t b).
  case: s => [[[Y1 W1] J1] m1] [sY1 sW1 jJ1 _]; cbn [fst snd] in sY1, sW1, jJ1; rewrite /t_ip_fin /kfin /rdP; cbn [fst snd].
  move: hp; rewrite /pb_near; case: (pb) (ref) => [z|] [r|] // {}hp.
  by case: hp => hz lt; apply/lifts_gives; exact: ip_pb_at.
have hall := @gives_bind _ _ _ _ _ (fun t => sh t = [:: N, F, nS & B]) _ _ _ _ (t_ip_fin pb) kfin _ hraw hfin.
move/lifts_gives: hall; apply: eq_lifts => b hb; rewrite /ip_forward /kfin; case: (ip_raw _ _ _ _ _) => [[[[Y1 W1] J1] m1]|//]; cbn [bind].
by case: (ref) => [r|//]; case: (ip_pb _ _ _ _).
Qed.
End Run.
