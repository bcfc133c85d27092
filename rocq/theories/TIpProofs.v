(* AuxIVA_IP on a batch. *)
From Coq Require Import String Ascii ZArith.
From mathcomp Require Import all_ssreflect all_algebra.
From mathcomp Require Import zify.
From Verif Require TorchShape.
From Verif Require Import CAlg Py Batch LinalgModel TissModel IvaModel TensorModel TOpsModel TSpec TSepSpec TensorProofs TEinsum TOpsProofs TTissModel TTissProofs TTissBatch TTissForward TIpModel.
Set Implicit Arguments. Unset Strict Implicit. Unset Printing Implicit Defensive.
Import GRing.Theory Num.Theory Order.TTheory.
Local Open Scope ring_scope.
Arguments clip : simpl never.
Arguments TorchShape.bc2 : simpl never.
Arguments Nat.eqb : simpl never.

Section Ops.
Variable C : numClosedFieldType.
Local Notation tensor := (tensor C).
Implicit Types (t u : tensor).
Lemma matmulE m n q r (A D : tensor) : sh A = [:: n, m & r] -> sh D = [:: q, n & r] -> exists t,
  [/\ matmul A D = Ok t, sh t = [:: q, m & r] & forall i, inr r i -> mat m q t i = mat m n A i *m mat n q D i].
Proof.
move=> sA sD; rewrite /matmul sA sD; cbn [TorchShape.matmul]; rewrite Nat.eqb_refl bcastss; cbn [bind].
eexists; split; [reflexivity|by []|] => i hi; apply/matrixP => x y; rewrite mxE [RHS]mxE; cbn [at_]; apply: eq_bigr => j _.
by rewrite !clip_id ?mxE.
Qed.
Lemma slice_to1 t a n k r : sh t = [:: a, (k + n)%N & r] -> exists u, [/\ slice_to 1 k t = Ok u, sh u = [:: a, k & r] & forall i, at_ u i = at_ t i].
Proof.
move=> st; rewrite /slice_to /TorchShape.slice_to /TorchShape.slice /TorchShape.size st /=.
by eexists; split; [reflexivity|rewrite /=; congr cons; congr cons; lia|].
Qed.
Lemma slice_from1 t a n k r : sh t = [:: a, (k + n)%N & r] ->
  exists u, [/\ slice_from 1 k t = Ok u, sh u = [:: a, n & r] & forall x y i, at_ u [:: x, y & i] = at_ t [:: x, (k + y)%N & i]].
Proof.
move=> st; rewrite /slice_from /TorchShape.slice_from /TorchShape.size st /=.
by eexists; split; [reflexivity|rewrite /=; congr cons; congr cons; lia|].
Qed.
Lemma slice1 t a n lo r : sh t = [:: a, n & r] -> (lo <= n)%N ->
  exists u, [/\ slice 1 lo n t = Ok u, sh u = [:: a, (n - lo)%N & r] & forall x y i, at_ u [:: x, y & i] = at_ t [:: x, (lo + y)%N & i]].
Proof.
move=> st le; rewrite /slice /TorchShape.slice /TorchShape.size st /=.
by eexists; split; [reflexivity|rewrite /=; congr cons; congr cons; lia|].
Qed.
Lemma cat1 t u a n m r : sh t = [:: a, n & r] -> sh u = [:: a, m & r] -> exists v, [/\ tcat 1 t u = Ok v, sh v = [:: a, (n + m)%N & r] &
  forall x y i, at_ v [:: x, y & i] = if (y < n)%N then at_ t [:: x, y & i] else at_ u [:: x, (y - n)%N & i]].
Proof.
move=> st su; rewrite /tcat /TorchShape.cat2 /TorchShape.size st su; cbn [List.nth_error bind].
rewrite /TorchShape.del; cbn [List.firstn List.skipn List.app]; rewrite seqbss; cbn [bind].
by eexists; split; [reflexivity|by []|] => x y i; cbn [at_ nth].
Qed.
Lemma bc_mat k m r t : sh t = [:: k; m] -> exists u, [/\ broadcast_to [:: k, m & r] t = Ok u, sh u = [:: k, m & r] & forall i, mat m k u i = mat m k t [::]].
Proof.
move=> st; rewrite /broadcast_to /TorchShape.expand_to st.
have -> : TorchShape.bcast [:: k; m] [:: k, m & r] = Ok [:: k, m & r] by rewrite /= !bc2nn.
cbn [bind]; rewrite seqbss; cbn [bind]; eexists; split; [reflexivity|by []|] => i; apply/matrixP => x y; rewrite !matE; cbn [at_].
by rewrite -[clip _ _]/[:: (if k == 1%N then 0%N else nat_of_ord y); (if m == 1%N then 0%N else nat_of_ord x)] !clip1.
Qed.
Lemma tzip_mid f t u a b c r : sh t = [:: a, b, c & r] -> sh u = [:: a, b, 1 & r]%N -> exists v, [/\ tzip f t u = Ok v, sh v = [:: a, b, c & r] &
  forall x y z i, inr [:: a, b, c & r] [:: x, y, z & i] -> at_ v [:: x, y, z & i] = f (at_ t [:: x, y, z & i]) (at_ u [:: x, y, 0 & i]%N)].
Proof.
move=> st su; rewrite (@tzipE _ _ _ _ [:: a, b, c & r]); last by rewrite st su /= !bc2nn /= bc2n1 /= bcastss.
eexists; split; [reflexivity|by []|] => x y z i h; cbn [at_]; rewrite st su clip_id //; congr (f _ (at_ u _)).
have /and4P [hx hy _ hi] := h.
have h2 : inr [:: a, b & r] [:: x, y & i] by rewrite /= hx hy.
have := clip_id h2; rewrite -[clip [:: a, b & r] _]/[:: (if a == 1%N then 0%N else x), (if b == 1%N then 0%N else y) & clip r i] => -[e1 e2 e3].
by rewrite -[clip _ _]/[:: (if a == 1%N then 0%N else x), (if b == 1%N then 0%N else y), 0%N & clip r i] e1 e2 e3.
Qed.
Lemma tzip_row f t u a b c r : sh t = [:: a, b, c & r] -> sh u = [:: 1, b, 1 & r]%N -> exists v, [/\ tzip f t u = Ok v, sh v = [:: a, b, c & r] &
  forall x y z i, inr [:: a, b, c & r] [:: x, y, z & i] -> at_ v [:: x, y, z & i] = f (at_ t [:: x, y, z & i]) (at_ u [:: 0, y, 0 & i]%N)].
Proof.
move=> st su; rewrite (@tzipE _ _ _ _ [:: a, b, c & r]); last by rewrite st su /= !bc2nn /= !bc2n1 /= bcastss.
eexists; split; [reflexivity|by []|] => x y z i h; cbn [at_]; rewrite st su clip_id //; congr (f _ (at_ u _)).
have /and4P [hx hy _ hi] := h.
have h2 : inr [:: b & r] [:: y & i] by rewrite /= hy.
have := clip_id h2; rewrite -[clip [:: b & r] _]/[:: (if b == 1%N then 0%N else y) & clip r i] => -[e2 e3].
by rewrite -[clip _ _]/[:: 0%N, (if b == 1%N then 0%N else y), 0%N & clip r i] e2 e3.
Qed.
(* ---- einsum *)
Ltac es := rewrite /= ?bc2nn /= ?bcastss /= ?bc2nn /= ?bcastss /=.
Ltac shs := repeat match goal with h : sh ?t = _ |- context [sh ?t] => rewrite !h end.
Ltac start := intros; rewrite /einsum /TorchShape.einsum; cbn [map]; shs; es;
  eexists; split; [reflexivity|by []|]; intros; cbn [at_];
  rewrite /= ?take0 /= ?drop0 /=.
Ltac ends := repeat match goal with h : is_true (inr _ _) |- _ => move: h => /= h end;
  repeat match goal with h : is_true (_ && _) |- _ => let h1 := fresh in let h2 := fresh in case/andP: h => h1 h2 end;
  shs; rewrite !clip_id //= ?ltn_ord /=;
  repeat match goal with h : is_true _ |- _ => rewrite h; clear h end; rewrite //.
Lemma e_fcd N F c d B X Y : sh X = [:: N, F, c & B] -> sh Y = [:: N, F, d & B] ->
  exists t : tensor, [/\ einsum [:: "cfn"; "dfn"]%string "fcd" [:: X; Y] = Ok t, sh t = [:: d, c, F & B] &
   forall b e f k, inr [:: d, c, F & B] [:: e, k, f & b] ->
     at_ t [:: e, k, f & b] = \sum_(n < N) at_ X [:: nat_of_ord n, f, k & b] * at_ Y [:: nat_of_ord n, f, e & b]].
Proof. start; apply: eq_bigr => ? _; ends. Qed.
Lemma e_unmix N F c d B W X : sh W = [:: d, c, F & B] -> sh X = [:: N, F, d & B] ->
  exists t : tensor, [/\ einsum [:: "fcd"; "dfn"]%string "cfn" [:: W; X] = Ok t, sh t = [:: N, F, c & B] &
   forall b n f k, inr [:: N, F, c & B] [:: n, f, k & b] ->
     at_ t [:: n, f, k & b] = \sum_(e < d) at_ W [:: nat_of_ord e, k, f & b] * at_ X [:: n, f, nat_of_ord e & b]].
Proof. start; apply: eq_bigr => ? _; ends. Qed.
Lemma e_form c d r X Y V : sh X = c :: r -> sh Y = d :: r -> sh V = [:: d, c & r] ->
  exists t : tensor, [/\ einsum [:: "c"; "d"; "cd"]%string "" [:: X; Y; V] = Ok t, sh t = r &
   forall i, inr r i -> at_ t i = \sum_(k < c) \sum_(e < d) at_ X (nat_of_ord k :: i) * at_ Y (nat_of_ord e :: i) * at_ V [:: nat_of_ord e, nat_of_ord k & i]].
Proof.
start; apply: eq_bigr => ? _; apply: eq_bigr => ? _; ends.
Qed.
End Ops.

(* ---- loops whose body may raise *)
Lemma for_gives (A U : Type) (P : A -> Prop) r (rd : A -> seq nat -> U) n (body : Z -> A -> result A) (g : seq nat -> U -> 'I_n -> result U) (a : A) :
  (forall (k : 'I_n) a, P a -> gives P r (body (Z.of_nat k) a) (fun b => g b (rd a b) k) rd) -> P a ->
  gives P r (TorchShape.for_range body n a) (fun b => foldM (g b) (rd a b) (enum 'I_n)) rd.
Proof.
move=> h; rewrite /TorchShape.for_range.
have -> : enum 'I_n = pmap insub (iota 0 n) by rewrite -val_enum_ord (map_pK valK).
suff loop m i a0 : (i + m <= n)%N -> P a0 -> gives P r (TorchShape.loop_from body i m a0) (fun b => foldM (g b) (rd a0 b) (pmap insub (iota i m))) rd by exact: loop.
elim: m i a0 => [|m IH] i a0 le p0; first by split.
have hi : (i < n)%N by lia.
cbn [TorchShape.loop_from iota pmap]; rewrite (insubT (fun x => x < n)%N hi); cbn [oapp foldM].
apply: (@gives_bind _ _ _ _ _ _ _ _ _ _ _ (fun b s => foldM (g b) s (pmap insub (iota i.+1 m))) _ (h (Ordinal hi) a0 p0)) => a1 p1.
by apply: IH => //; lia.
Qed.

Section Ip.
Variable C : numClosedFieldType.
Local Notation tensor := (tensor C).
Variables (nS nB F N : nat) (B : seq nat).
Local Notation nC := (nS + nB)%N.
Local Notation sg k n t b := (sig_at F n k t b).
Definition fl m n (t : tensor) (b : seq nat) : {ffun 'I_F -> 'M[C]_(m, n)} := [ffun f => mat m n t (nat_of_ord f :: b)].
Lemma flE m n t b f i j : fl m n t b f i j = at_ t [:: nat_of_ord j, nat_of_ord i, nat_of_ord f & b].
Proof. by rewrite ffunE matE. Qed.
Definition okJ2 (J : option tensor) : Prop := if J is Some J then (0 < nB)%N /\ sh J = [:: nS, nB, F & B] else nB = 0%N.
Definition rdJ2 (J : option tensor) (b : seq nat) : filt C F nB nS := if J is Some J then fl nB nS J b else [ffun f => 0].
Variables (X : tensor) (eps : C).
Hypothesis sX : sh X = [:: N, F, nC & B].
Section Step.
Variables (Cx ev : tensor).
Hypothesis sCx : sh Cx = [:: nC, nC, F & B].
Hypothesis hCx : forall b (f : 'I_F), inr B b -> mat nC nC Cx (nat_of_ord f :: b) = ip_Cx (sg nC N X b) f.
Hypothesis sev : sh ev = [:: nC, nC, F & B].
Hypothesis hev : forall i, mat nC nC ev i = 1%:M.
Lemma oc_at (W : tensor) load : sh W = [:: nC, nS, F & B] ->
  gives okJ2 B (t_orthogonal_constraint W Cx load) (fun b => orthogonal_constraint (fl nS nC W b) (ip_Cx (sg nC N X b)) load) rdJ2.
Proof.
move=> sW; rewrite /t_orthogonal_constraint {1}sW.
case: (posnP nB) => [b0|n0].
  have -> : (nS == nC) by rewrite -{1}(addn0 nS) eqn_add2l b0.
  split=> // b hb; rewrite /orthogonal_constraint (_ : (0 < nB)%N = false) //; by rewrite b0.
have -> : (nS == nC) = false by apply/negbTE; rewrite -{1}(addn0 nS) eqn_add2l eq_sym -lt0n.
rewrite ltnNge leq_addr; cbn [negb].
have [A [-> sA hA]] := matmulE sW sCx; cbn [bind].
have [A1 [-> sA1 hA1]] := slice_to0 sA; cbn [bind]; have [A2 [-> sA2 hA2]] := slice_from0 sA; cbn [bind].
have hg := gather_lift 0 (fun i er => @slg_err _ _ _ _ _ _ _ _ er) (slg_mat load load sA1 sA2).
move/lifts_gives in hg.
pose kj (b : seq nat) (JH : {ffun 'I_F -> 'M[C]_(nS, nB)}) : result (filt C F nB nS) := Ok [ffun f => ctr (JH f)].
have := @gives_bind _ _ _ _ _ okJ2 _ _ _ _ (fun JH => let* J := transpose 1 0 JH in Ok (Some (tmap conjC J)))%py kj rdJ2 hg.
move=> hh; apply: eq_gives (hh _) => [b hb|JH sJH].
  rewrite /orthogonal_constraint n0 /kj; congr bind; apply: eq_gather => f; cbv zeta.
  have aE : fl nS nC W b f *m ip_Cx (sg nC N X b) f = mat nS nC A (nat_of_ord f :: b).
    by rewrite hA ?hCx ?ffunE //= ltn_ord.
  rewrite aE; have -> : mat nS nS A1 (nat_of_ord f :: b) = lsubmx (mat nS nC A (nat_of_ord f :: b)).
    by apply/matrixP => i j; rewrite !mxE hA1.
  have -> // : mat nS nB A2 (nat_of_ord f :: b) = rsubmx (mat nS nC A (nat_of_ord f :: b)).
  by apply/matrixP => i j; rewrite !mxE hA2.
have [J [-> sJ hJ]] := transpose10 sJH; cbn [bind]; split=> // b hb; congr Ok; apply/ffunP => f; rewrite ffunE /rdJ2.
by apply/matrixP => i j; rewrite flE ctrE ffunE matE; cbn [at_ tmap]; rewrite hJ.
Qed.
Lemma V_at (w : tensor) (k : 'I_nS) : sh w = [:: N, F, nS & B] -> exists V, [/\
   (let* wk := pick 2 (Z.of_nat k) w in let* Xw := tmul X wk in einsum [:: "cfn"; "dfn"] "fcd" [:: Xw; tmap conjC X])%py%string = Ok V,
   sh V = [:: nC, nC, F & B] & forall b (f : 'I_F), inr B b -> mat nC nC V (nat_of_ord f :: b) = ip_V (sg nC N X b) (sg nS N w b) k f].
Proof.
move=> sw; rewrite (@pickE _ 2 _ w nS) ?sw ?valid_nat //; cbn [bind]; set wk := mkT _ _.
have swk : sh wk = [:: N, F, 1 & B]%N by [].
have [Xw [e sXw hXw]] := tzip_mid *%R sX swk; rewrite /tmul e; cbn [bind].
have [V [-> sV hV]] := e_fcd sXw (sX : sh (tmap conjC X) = _); cbn [bind]; exists V; split=> // b f hb.
apply/matrixP => c d; rewrite matE hV ?mxE; last by rewrite /= !ltn_ord.
apply: eq_bigr => n _; rewrite !sigE hXw; last by rewrite /= !ltn_ord.
by cbn [at_ tmap]; rewrite /wk; cbn [at_]; rewrite zidx_nat.
Qed.
Lemma WV_at (W V : tensor) (J : option tensor) : sh W = [:: nC, nS, F & B] -> okJ2 J -> sh V = [:: nC, nC, F & B] -> exists WV, [/\
   (let* WV := matmul W V in match J with
              | None => Ok WV
              | Some J => let* V1 := slice_to 1 nS V in let* V2 := slice_from 1 nS V in
                          let* JV := matmul J V1 in let* d := tsub JV V2 in tcat 1 WV d
              end)%py = Ok WV, sh WV = [:: nC, nC, F & B] &
   forall b (f : 'I_F), inr B b -> mat nC nC WV (nat_of_ord f :: b) = ip_WV (fl nS nC W b f) (rdJ2 J b f) (mat nC nC V (nat_of_ord f :: b))].
Proof.
move=> sW jJ sV; have [A [-> sA hA]] := matmulE sW sV; cbn [bind].
have hF b (f : 'I_F) : inr B b -> inr (F :: B) (nat_of_ord f :: b) by rewrite /= ltn_ord.
case: J jJ => [J [n0 sJ]|b0].
  have [V1 [-> sV1 hV1]] := slice_to1 sV; cbn [bind]; have [V2 [-> sV2 hV2]] := slice_from1 sV; cbn [bind].
  have [JV [-> sJV hJV]] := matmulE sJ sV1; cbn [bind].
  have [D [e sD hD]] := tzip_same (fun x y => x - y) sJV sV2; rewrite /tsub e; cbn [bind].
  have [WV [-> sWV hWV]] := cat1 sA sD; exists WV; split=> // b f hb; apply/matrixP => i j; rewrite matE hWV /ip_WV.
  rewrite -[i]splitK; case: (split i) => x; rewrite ?col_mxEu ?col_mxEd /=.
    by rewrite ltn_ord -matE hA ?hF // ffunE.
  rewrite ltnNge leq_addr addKn /= hD; last by rewrite /= !ltn_ord.
  rewrite -(matE JV (nat_of_ord f :: b) x j) hJV ?hF // hV2 ffunE; move: (mat nB nS J _) => J1.
  rewrite [RHS]mxE [in X in _ = _ + X]mxE; congr (_ - _); last by rewrite !mxE.
  rewrite !mxE; apply: eq_bigr => y _; by rewrite !mxE hV1.
exists A; split; [by []|by rewrite sA -{2}(addn0 nS) -(b0 : nB = 0%N)|] => b f hb; apply/matrixP => i j; rewrite matE /ip_WV.
rewrite -[i]splitK; case: (split i) => x; last by exfalso; case: x => x; rewrite (b0 : nB = 0%N).
by rewrite col_mxEu -(matE A (nat_of_ord f :: b) x j) hA ?hF // ffunE.
Qed.
(* the new row of the demixing matrix, from the solution of the linear system *)
Definition new_row (W : filt C F nS nC) (sol : {ffun 'I_F -> 'cV[C]_nC}) (V : 'I_F -> 'M[C]_nC) (k : 'I_nS) : filt C F nS nC :=
  [ffun f => \matrix_(s, c) if s == k then (sol f c 0)^* / sqrtC (clamp ('Re (\sum_c \sum_d (sol f c 0)^* * ((sol f d 0)^*)^* * V f c d)) eps) else W f s c].
Lemma row_at (W V sol : tensor) (J : option tensor) (k : 'I_nS) : sh W = [:: nC, nS, F & B] -> sh V = [:: nC, nC, F & B] -> sh sol = [:: 1, nC, F & B]%N ->
  exists W', [/\ (let* new_w := select 0 Z0 (tmap conjC sol) in
  let* scale := einsum [:: "c"; "d"; "cd"]%string "" [:: new_w; tmap conjC new_w; V] in
  let scale := tmap (fun x => 'Re x) scale in
  let* sc := unsq 0 scale in
  let* new_w := tdiv new_w (tmap (fun x => sqrtC (clamp x eps)) sc) in
  let* new_w := unsq 1 new_w in
  let* Wa := slice_to 1 (Z.to_nat (Z.of_nat k)) W in
  let* Wb := slice 1 (Z.to_nat (Z.of_nat k) + 1) nS W in
  let* c := tcat 1 Wa new_w in
  let* W := tcat 1 c Wb in
  Ok (W, J))%py = Ok (W', J), sh W' = [:: nC, nS, F & B] & forall b, inr B b ->
    fl nS nC W' b = new_row (fl nS nC W b) (fl nC 1 sol b) (fun f => mat nC nC V (nat_of_ord f :: b)) k].
Proof.
move=> sW sV ss; have [u [-> su hu]] := @sel0 _ (tmap conjC sol) 1 [:: nC, F & B] 0 ss isT; cbn [bind].
have [sc [-> ssc hsc]] := e_form su (su : sh (tmap conjC u) = _) sV; cbn [bind]; cbv zeta.
rewrite unsqE //; cbn [bind]; set q := tmap _ (mkT _ _).
have sq : sh q = [:: 1, F & B]%N by rewrite /q /= ssc.
have [nw [e snw hnw]] := tzip_col (fun x y => x / y) su sq; rewrite /tdiv e; cbn [bind].
rewrite unsqE; last by rewrite snw.
cbn [bind]; set n2 := mkT _ _; have sn2 : sh n2 = [:: nC, 1, F & B]%N by rewrite /n2 /= snw.
rewrite Nat2Z.id.
have sWk : sh W = [:: nC, (k + (nS - k))%N, F & B] by rewrite sW subnKC // ltnW.
have [Wa [-> sWa hWa]] := slice_to1 sWk; cbn [bind].
have [|Wb [-> sWb hWb]] := @slice1 _ W nC nS (k + 1) (F :: B) sW; first by rewrite addn1.
cbn [bind]; have [c1 [-> sc1 hc1]] := cat1 sWa sn2; cbn [bind]; have [W' [-> sW' hW']] := cat1 sc1 sWb; cbn [bind].
exists W'; split; [by []|by rewrite sW'; congr [:: _, _ & _]; have := ltn_ord k; lia|] => b hb; apply/ffunP => f; rewrite ffunE [RHS]ffunE.
apply/matrixP => s c; rewrite matE [RHS]mxE hW' hc1.
case: (eqVneq s k) => [->|ne].
  rewrite addn1 ltnSn ltnn subnn /n2; cbn [at_].
  rewrite -[TorchShape.del _ _]/[:: nat_of_ord c, nat_of_ord f & b] hnw; last by rewrite /= !ltn_ord.
  rewrite hu; cbn [at_ tmap]; rewrite ffunE !matE; congr (_^* / sqrtC (clamp ('Re _) _)).
  rewrite -[TorchShape.del _ _]/(nat_of_ord f :: b) hsc; last by rewrite /= !ltn_ord.
  by apply: eq_bigr => x _; apply: eq_bigr => y _; cbn [at_ tmap]; rewrite !hu; cbn [at_ tmap]; rewrite !matE.
rewrite ffunE matE; case: (ltnP s (k + 1)) => h1.
  have ne' : nat_of_ord s != nat_of_ord k by [].
  have -> : (s < k)%N by move: ne' h1; lia.
  by rewrite hWa.
by rewrite hWb subnKC.
Qed.
Definition okWJ (x : tensor * option tensor) : Prop := sh x.1 = [:: nC, nS, F & B] /\ okJ2 x.2.
Definition rdWJ (x : tensor * option tensor) b := (fl nS nC x.1 b, rdJ2 x.2 b).
Lemma source_at (w : tensor) (k : 'I_nS) x : sh w = [:: N, F, nS & B] -> okWJ x ->
  gives okWJ B (t_ip_source X w Cx ev eps nS (Z.of_nat k) x) (fun b => ip_source (sg nC N X b) (sg nS N w b) eps (rdWJ x b) k) rdWJ.
Proof.
case: x => W J0 sw [sW jJ0]; cbn [fst snd] in sW, jJ0; rewrite /t_ip_source /ip_source /rdWJ; cbn [fst snd].
pose kj b (J : filt C F nB nS) : result (filt C F nS nC * filt C F nB nS) := let V := ip_V (sg nC N X b) (sg nS N w b) k in
  (let* sol := gather (0 : 'cV[C]_nC) (fun f =>
     LinalgModel.solve_loaded_general (ip_WV (fl nS nC W b f) (J f) (V f)) (delta_mx (lshift nB k) 0 : 'cV[C]_nC) eps eps) in
   Ok (new_row (fl nS nC W b) sol V k, J))%py.
apply: (@gives_bind _ _ _ _ _ okWJ _ _ _ _ _ kj _ (oc_at eps sW)) => J jJ.
have [V [eV sV hV]] := V_at k sw.
move: eV; case: (pick _ _ _) => [wk|//]; cbn [bind]; case: (tmul _ _) => [Xw|//]; cbn [bind] => ->; cbn [bind].
have [WV [eWV sWV hWV]] := WV_at sW jJ sV.
move: eWV; case: (matmul _ _) => [A|//]; cbn [bind] => ->; cbn [bind].
have lt : (k < nC)%N by rewrite (leq_trans (ltn_ord k)) ?leq_addr.
rewrite (@pickE _ 0 _ ev nC) ?sev ?valid_nat //; cbn [bind]; set ek := mkT _ _.
have sek : sh ek = [:: 1, nC, F & B]%N by [].
have hek i : mat nC 1 ek i = delta_mx (lshift nB k) 0.
  apply/matrixP => x y; rewrite matE mxE ord1 eqxx andbT /ek; cbn [at_]; rewrite zidx_nat.
  have := congr1 (fun M : 'M[C]_nC => M x (lshift nB k)) (hev i); rewrite matE mxE => <-; by [].
have hg := gather_lift (0 : 'cV[C]_nC) (fun i er => @slg_err _ _ _ _ _ _ _ _ er) (slg_mat eps eps sWV sek).
move/lifts_gives in hg.
pose ks b (sol : {ffun 'I_F -> 'cV[C]_nC}) : result (filt C F nS nC * filt C F nB nS) := Ok (new_row (fl nS nC W b) sol (ip_V (sg nC N X b) (sg nS N w b) k) k, rdJ2 J b).
have := @gives_bind _ _ _ _ _ okWJ _ _ _ _ _ ks rdWJ hg.
move=> hh; apply: eq_gives (hh _ _) => [b hb|sol ss].
  rewrite /kj /ks; cbv zeta; congr bind; apply: eq_gather => f; by rewrite hWV // hV // hek.
have [W' [-> sW' hW']] := row_at J k sW sV ss; split; first by split.
move=> b hb; rewrite /ks /rdWJ; cbn [fst snd]; rewrite hW' // /new_row; congr (Ok (_, _)); apply/ffunP => f; rewrite !ffunE.
by apply/matrixP => s c; rewrite !mxE hV // ffunE.
Qed.
End Step.
End Ip.
