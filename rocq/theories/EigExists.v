(* Spectral theorem for Hermitian matrices over a numClosedFieldType: a correct
   eigensolver exists, so the hypothesis `eigensolver` of the theorems that use
   torch.linalg.eigh can be met.  Plain mathematics, models no code. *)
From Coq Require Import Ring Field.
From mathcomp Require Import all_ssreflect all_algebra.
From Verif Require Import CAlg LinalgSpec LinalgModel LinalgProofs.
Set Implicit Arguments. Unset Strict Implicit. Unset Printing Implicit Defensive.
Import GRing.Theory Num.Theory Order.TTheory.
Local Open Scope ring_scope.

Section Spectral.
Variable C : numClosedFieldType.
Add Field eigF : (f_ft C).
Ltac cring := fpre; fnorm C; fatoms; ring.

(* an eigenvalue of a Hermitian matrix is real *)
Lemma herm_eig_real n (M : 'M[C]_n) l (v : 'cV[C]_n) : herm M -> v != 0 -> M *m v = l *: v -> l \is Num.real.
Proof.
move=> hM v0 e; have h : qf M v = l * nrm2 v by rewrite /qf -mulmxA e -scalemxAr mxZE -nrm2_ctr.
have r : qf M v \is Num.real by apply/CrealP; apply: (sq_conj v v hM).
have n0 : nrm2 v != 0 by rewrite nrm2_eq0.
have -> : l = qf M v / nrm2 v by rewrite h mulfK.
by rewrite rpred_div // ger0_real // nrm2_ge0.
Qed.
(* column eigenvectors and roots of the characteristic polynomial *)
Lemma eig_col n (M : 'M[C]_n) l : herm M -> root (char_poly M) l -> exists2 v : 'cV[C]_n, v != 0 & M *m v = l *: v.
Proof.
move=> hM; rewrite -eigenvalue_root_char => /eigenvalueP [v e v0].
have v0' : ctr v != 0 by rewrite -(ctr0 C 1 n) (inj_eq (@ctr_inj _ _ _)).
have e' : M *m ctr v = l^* *: ctr v by rewrite -{1}hM -ctrM e ctrZ.
have r := herm_eig_real hM v0' e'.
exists (ctr v) => //; rewrite e'; congr (_ *: _).
by rewrite -[RHS]conjCK; apply/esym/conj_Creal.
Qed.
Lemma col_eig n (M : 'M[C]_n) l (v : 'cV[C]_n) : herm M -> v != 0 -> M *m v = l *: v -> root (char_poly M) l.
Proof.
move=> hM v0 e; rewrite -eigenvalue_root_char; apply/eigenvalueP; exists (ctr v).
  by rewrite -{1}hM -ctrM e ctrZ conj_Creal //; apply: herm_eig_real hM v0 e.
by rewrite -(ctr0 C n 1) (inj_eq (@ctr_inj _ _ _)).
Qed.
(* the smallest eigenvalue *)
Lemma min_seq (s : seq C) : s != [::] -> (forall x, x \in s -> x \is Num.real) ->
  exists2 x, x \in s & forall y, y \in s -> x <= y.
Proof.
elim: s => // a s ih _ hr; case: (altP (s =P [::])) => [->|s0].
  by exists a; rewrite ?inE // => y; rewrite inE => /eqP ->.
have [|x xs hx] := ih s0; first by move=> x xs; apply: hr; rewrite inE xs orbT.
have ar : a \is Num.real by apply: hr; rewrite inE eqxx.
have xr : x \is Num.real by apply: hr; rewrite inE xs orbT.
case/orP: (real_leVge ar xr) => h.
  exists a; rewrite ?inE ?eqxx // => y; rewrite inE => /orP [/eqP -> //|ys].
  exact: le_trans h (hx _ ys).
by exists x; rewrite ?inE ?xs ?orbT // => y; rewrite inE => /orP [/eqP -> //|ys]; apply: hx.
Qed.
Lemma min_eig n (M : 'M[C]_n.+1) : herm M ->
  exists l (v : 'cV[C]_n.+1), [/\ v != 0, M *m v = l *: v, l \is Num.real &
    forall m (w : 'cV[C]_n.+1), w != 0 -> M *m w = m *: w -> l <= m].
Proof.
move=> hM; have [r pE] := closed_field_poly_normal (char_poly M).
have lc : lead_coef (char_poly M) = 1 by apply/monicP/char_poly_monic.
rewrite lc scale1r in pE.
have mem x : (x \in r) = root (char_poly M) x by rewrite pE root_prod_XsubC.
have r0 : r != [::].
  apply/eqP=> h; have := size_char_poly M; rewrite pE h big_nil size_poly1 //.
have rr x : x \in r -> x \is Num.real.
  by rewrite mem => /(eig_col hM) [v v0 e]; apply: herm_eig_real hM v0 e.
have [l lr hl] := min_seq r0 rr.
have := lr; rewrite mem => /(eig_col hM) [v v0 e].
exists l, v; split=> //; first exact: rr.
by move=> m w w0 ew; apply: hl; rewrite mem; apply: col_eig hM w0 ew.
Qed.
(* a unitary matrix whose first column is a multiple of v *)
Lemma unitary_first n (v : 'cV[C]_n.+1) : v != 0 ->
  exists (H : 'M[C]_n.+1) (a : C), [/\ ctr H *m H = 1%:M, ctr H = H & H *m delta_mx 0 0 = a *: v].
Proof.
move=> v0.
(* unit vector with real first entry *)
have nv : 0 < sqrtC (nrm2 v) by rewrite sqrtC_gt0 nrm2_gt0.
pose ph : C := if v 0 0 == 0 then 1 else (v 0 0)^* / `|v 0 0|.
have ph1 : `|ph| = 1.
  rewrite /ph; case: (altP (v 0 0 =P 0)) => [_|h]; first by rewrite normr1.
  by rewrite normrM norm_conjC normfV normr_id mulfV // normr_eq0.
pose u : 'cV[C]_n.+1 := (ph / sqrtC (nrm2 v)) *: v.
have u1 : nrm2 u = 1.
  rewrite /u nrm2Z normrM ph1 mul1r normfV ger0_norm ?ltW // exprVn sqrtCK mulVf //.
  by rewrite nrm2_eq0.
have ur : u 0 0 \is Num.real.
  rewrite /u mxZE /ph; case: (altP (v 0 0 =P 0)) => [->|h]; first by rewrite mulr0 real0.
  have -> : (v 0 0)^* / `|v 0 0| / sqrtC (nrm2 v) * v 0 0 = `|v 0 0| ^+ 2 / `|v 0 0| / sqrtC (nrm2 v).
    by rewrite normCK; cring.
  by rewrite ger0_real // !divr_ge0 // ?exprn_ge0 // ltW.
pose e : 'cV[C]_n.+1 := delta_mx 0 0.
have [we|we] := eqVneq (u - e) 0.
  exists 1%:M, (ph / sqrtC (nrm2 v)); split; rewrite ?ctr1 ?mulmx1 // mul1mx.
  by rewrite -/u -/e; move/eqP: we; rewrite subr_eq0 => /eqP ->.
pose w := u - e; pose d := nrm2 w.
have d0 : d != 0 by rewrite /d nrm2_eq0.
have dr : d \is Num.real by rewrite ger0_real // nrm2_ge0.
pose H : 'M[C]_n.+1 := 1%:M - (2%:R / d) *: (w *m ctr w).
have cH : ctr H = H.
  rewrite /H ctrB ctr1 ctrZ ctrM ctrK; congr (_ - _ *: _).
  by apply: conj_Creal; rewrite rpred_div // realn.
have ww : ctr w *m w = d%:M by rewrite [LHS]mx11_scalar -nrm2_ctr.
exists H, (ph / sqrtC (nrm2 v)); split=> //.
  rewrite cH /H mulmxBl mul1mx mulmxBr mulmx1 -scalemxAl -scalemxAr !mulmxA.
  rewrite -[w *m ctr w *m w]mulmxA ww mul_mx_scalar -scalemxAl !scalerA.
  rewrite -addrA -opprD -[RHS]subr0; congr (_ - _).
  rewrite -scalerBl -scalerDl.
  have -> : 2%:R / d + (2%:R / d - 2%:R / d * (2%:R / d * d)) = 0; last by rewrite scale0r.
  by move: d0 => /eqP d0; fpre; fnorm C; fatoms; field.
(* ctr w *m e = conj (u0) - 1 = u0 - 1,  d = 2 - 2 u0 *)
rewrite -/e -/u /H mulmxBl mul1mx -scalemxAl -mulmxA.
have we0 : ctr w *m e = (u 0 0 - 1)%:M.
  rewrite [LHS]mx11_scalar; congr (_%:M).
  rewrite -colE mxE ctrE mxBE /e [(delta_mx _ _) _ _]mxE !eqxx rmorphB rmorph1.
  by congr (_ - _); apply: conj_Creal.
have dE : d = 2%:R - 2%:R * u 0 0.
  have -> : d = (ctr w *m u) 0 0 - (ctr w *m e) 0 0 by rewrite -mxBE -mulmxBr /d nrm2_ctr.
  have -> : (ctr w *m u) 0 0 = 1 - u 0 0.
    rewrite /w ctrB mulmxBl mxBE -nrm2_ctr u1; congr (_ - _).
    by rewrite /e ctr_delta -rowE mxE.
  rewrite we0 [(_%:M) _ _]mxE.
  rewrite [_ *+ _]mulr1n.
  move: (u 0 0) => u0; cring.
rewrite we0 mul_mx_scalar scalerA.
have -> : 2%:R / d * (u 0 0 - 1) = -1.
  have two : 2%:R != 0 :> C by rewrite pnatr_eq0.
  have -> : u 0 0 - 1 = - (d / 2%:R).
    apply: (mulIf two); rewrite mulNr divfK // dE; move: (u 0 0) => u0; cring.
  by rewrite mulrN mulrA divfK // divff.
by rewrite scaleN1r opprK /w addrC subrK.
Qed.

Definition diagonalises n (M U : 'M[C]_n) (l : 'I_n -> C) : Prop :=
  [/\ forall i, l i \is Num.real, forall i j : 'I_n, (i <= j)%N -> l i <= l j,
      ctr U *m U = 1%:M & forall i, M *m col i U = l i *: col i U].
Lemma spectral n (M : 'M[C]_n) : herm M -> exists l U, diagonalises M U l.
Proof.
elim: n M => [|n ih] M hM.
  by exists (fun=> 0), 1%:M; split=> [[] | [] | | []] //; rewrite ctr1 mulmx1.
have [l [v [v0 e lr lmin]]] := min_eig hM.
have [H [a [HH cH He]]] := unitary_first v0.
have HH' : H *m H = 1%:M by rewrite -{1}cH.
pose e0 : 'cV[C]_n.+1 := delta_mx 0 0.
pose N : 'M[C]_(1 + n) := H *m M *m H.
have hN : ctr N = N by rewrite /N !ctrM cH hM mulmxA.
have Ne : N *m e0 = l *: e0.
  have He' : H *m e0 = a *: v := He.
  have h : M *m (H *m e0) = l *: (H *m e0) by rewrite He' -scalemxAr e !scalerA mulrC.
  by rewrite /N -!mulmxA h -scalemxAr mulmxA HH' mul1mx.
have NE : N = H *m M *m H by [].
clearbody N; pose M' : 'M[C]_n := drsubmx N.
have Nblk : N = block_mx l%:M 0 0 M'.
  have c0 i : N i 0 = l * (i == 0)%:R.
    have := congr1 (fun x : 'cV[C]_n.+1 => x i 0) Ne; rewrite -colE !mxE => ->.
    by rewrite andbT.
  rewrite -[LHS]submxK; congr block_mx.
  - apply/matrixP=> i j; rewrite !ord1 !mxE.
    have -> : lshift n (0 : 'I_1) = 0 by apply: val_inj.
    by rewrite c0 eqxx mulr1 mulr1n.
  - apply/matrixP=> i j; rewrite !ord1 !mxE -hN ctrE.
    have -> : lshift n (0 : 'I_1) = 0 by apply: val_inj.
    by rewrite c0 -val_eqE /= mulr0 rmorph0.
  apply/matrixP=> i j; rewrite !ord1 !mxE.
  have -> : lshift n (0 : 'I_1) = 0 by apply: val_inj.
  by rewrite c0 -val_eqE /= mulr0.
have hM' : herm M'.
  by apply/matrixP=> i j; rewrite ctrE !mxE -[in RHS]hN ctrE.
have [l' [U' [r' s' o' e']]] := ih M' hM'.
pose U2 : 'M[C]_(1 + n) := block_mx 1%:M 0 0 U'.
pose L (i : 'I_(1 + n)) := match split i with inl _ => l | inr j => l' j end.
have U2o : ctr U2 *m U2 = 1%:M.
  rewrite /U2 /ctr tr_block_mx map_block_mx mulmx_block !trmx0 !map_mx0 !mulmx0 !mul0mx !addr0 !add0r.
  rewrite trmx1 -/(ctr U') o' map_mx1 mulmx1.
  by rewrite -scalar_mx_block.
have dgL : dg L = block_mx l%:M 0 0 (dg l') :> 'M[C]_(1 + n).
  apply/matrixP=> i j; rewrite [RHS]mxE [LHS]mxE /L.
  case: (splitP i) => p ip; rewrite [RHS]mxE; case: (splitP j) => q jq; rewrite [RHS]mxE -val_eqE /= ip jq.
  - by rewrite !ord1.
  - by case: p {ip} => -[].
  - by case: q {jq} => -[].
  - by rewrite eqn_add2l.
have U2e i : N *m col i U2 = L i *: col i U2.
  suff /eig_diag h : N *m U2 = 1%:M *m U2 *m dg L by rewrite h mul1mx.
  have /eig_diag h' : forall i, M' *m col i U' = l' i *: (1%:M *m col i U') by move=> j; rewrite mul1mx.
  rewrite mul1mx dgL Nblk /U2 !mulmx_block !mulmx0 !mul0mx !addr0 !add0r mulmx1 mul1mx h' mul1mx.
  by [].
have ME (w : 'cV[C]_(1 + n)) m : N *m w = m *: w -> M *m (H *m w) = m *: (H *m w).
  by move=> h; rewrite scalemxAr -h NE !mulmxA HH' mul1mx.
have un i : H *m col i U2 != 0.
  apply/eqP=> h; have : H *m (H *m col i U2) = 0 by rewrite h mulmx0.
  rewrite mulmxA HH' mul1mx => h2.
  have := congr1 (fun A : 'M[C]_(1 + n) => A i i) U2o.
  rewrite !mxE eqxx mulr1n big1 => [/esym/eqP|j _]; first by rewrite oner_eq0.
  have := congr1 (fun x : 'cV[C]_(1 + n) => x j 0) h2; rewrite !mxE => ->.
  by rewrite mulr0.
have lL i : l <= L i by apply: lmin (un i) (ME _ _ (U2e i)).
have Lm (i j : 'I_(1 + n)) : (i <= j)%N -> L i <= L j.
  move=> ij; rewrite [L i]/L; case: splitP => p ip; first exact: lL.
  rewrite /L; case: splitP => q jq.
    by exfalso; move: ij; rewrite ip jq; case: q {jq} => -[].
  by apply: s'; move: ij; rewrite ip jq leq_add2l.
exists L, (H *m U2); split.
- by move=> i; rewrite /L; case: splitP.
- exact: Lm.
- by rewrite ctrM -mulmxA [ctr H *m (_ *m _)]mulmxA HH mul1mx U2o.
- by move=> i; rewrite col_mulmx; apply: ME.
Qed.

Theorem eigensolver_exists : exists eighO : forall n, 'M[C]_n -> ('I_n -> C) * 'M[C]_n, forall n, eigensolver (eighO n).
Proof.
pose P n (M : 'M[C]_n) (x : {ffun 'I_n -> C} * 'M[C]_n) :=
  [&& [forall i, x.1 i \is Num.real], [forall i : 'I_n, forall j : 'I_n, (i <= j)%N ==> (x.1 i <= x.1 j)],
    ctr x.2 *m x.2 == 1%:M & [forall i, M *m col i x.2 == x.1 i *: col i x.2]].
have ex n (M : 'M[C]_n) : ctr M == M -> exists x, P n M x.
  move=> /eqP hM; have [l [U [h1 h2 h3 h4]]] := spectral hM.
  exists ([ffun i => l i], U); apply/and4P; split=> /=.
  - by apply/forallP=> i; rewrite ffunE.
  - by apply/forallP=> i; apply/forallP=> j; apply/implyP=> ij; rewrite !ffunE; apply: h2.
  - exact/eqP.
  - by apply/forallP=> i; rewrite ffunE; apply/eqP.
pose f n (M : 'M[C]_n) : ('I_n -> C) * 'M[C]_n :=
  match Sumbool.sumbool_of_bool (ctr M == M) with
  | left h => let x := xchoose (ex n M h) in (fun i => x.1 i, x.2)
  | right _ => (fun=> 0, 1%:M)
  end.
exists f => n M hM; rewrite /f; case: Sumbool.sumbool_of_bool => [h|]; last by rewrite hM eqxx.
have /and4P /= [/forallP h1 /forallP h2 /eqP h3 /forallP h4] := xchooseP (ex n M h).
split=> //; first by move=> i j; have /forallP /(_ j) /implyP := h2 i; apply.
by move=> i; apply/eqP.
Qed.

End Spectral.
