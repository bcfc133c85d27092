(* The source models of models/classic.py on a batch. *)
From Coq Require Import String Ascii ZArith.
From mathcomp Require Import all_ssreflect all_algebra.
From mathcomp Require Import zify.
From Verif Require TorchShape.
From Verif Require Import CAlg Py Batch LinalgModel TissModel SrcModel TensorModel TOpsModel TSpec TSepSpec TensorProofs TOpsProofs TSrcModel PhaseSpec.
Set Implicit Arguments. Unset Strict Implicit. Unset Printing Implicit Defensive.
Import GRing.Theory Num.Theory Order.TTheory.
Local Open Scope ring_scope.
Arguments clip : simpl never.
Arguments TorchShape.bc2 : simpl never.
Arguments Nat.eqb : simpl never.
Arguments flat : simpl never.
Arguments unflat : simpl never.

Section Src.
Variable C : numClosedFieldType.
Local Notation tensor := (tensor C).
Variables (F N nS : nat).
Implicit Types (Y : sig C F N nS).

Lemma bc_row (t : tensor) B : sh t = [:: N, 1, nS & B]%N ->
  exists u, [/\ broadcast_to [:: N, F, nS & B] t = Ok u, sh u = [:: N, F, nS & B] &
    forall n f i, inr [:: N, F, nS & B] [:: n, f & i] -> at_ u [:: n, f & i] = at_ t [:: n, 0 & i]%N].
Proof.
move=> st; rewrite /broadcast_to /TorchShape.expand_to st /= bc2nn bc21n /= bc2nn /= bcastss /= !seqbss /= !eqbE !eqxx /=.
eexists; split; [reflexivity|by []|move=> n f i /and3P [hn hf hi]]; cbn [at_].
have h : inr [:: N, nS & B] (n :: i) by rewrite /= hn.
rewrite -[clip _ _]/[:: (if N == 1%N then 0%N else n), 0%N & clip (nS :: B) i] (clip_id (s := nS :: B)) //.
by case: eqP hn => // -> ; case: n {h}.
Qed.
Lemma laplace_as B eps : source_as B (stateless (t_laplace eps)) (per_source (c := nS) (@laplace C F N eps)) (fun _ => True) (fun _ _ => tt).
Proof.
move=> [] Y _ sY; rewrite /stateless /t_laplace (@tsum_keepE _ 1 _ F) /= ?sY //; cbn [bind].
set d := tmap _ (mkT _ _); have sd : sh d = [:: N, 1, nS & B]%N by rewrite /d /= ?sY.
have [r [-> sr hr]] := bc_row sd; cbn [bind]; eexists; exists tt; split; [reflexivity|by []|by []|move=> b hb].
rewrite /per_source; congr (_, _); apply/ffunP => f; apply/matrixP => s n; rewrite ffunE sigE mxE mxE; cbn [at_ tmap].
rewrite hr /= ?ltn_ord // ?sY /=; congr (1 / clamp (_ * sqrtC _) _); apply: eq_bigr => k _; by rewrite mxE sigE.
Qed.
Lemma gauss_as B eps : source_as B (stateless (t_gauss eps)) (per_source (c := nS) (@gauss C F N eps)) (fun _ => True) (fun _ _ => tt).
Proof.
move=> [] Y _ sY; rewrite /stateless /t_gauss (@tsumE _ 1 _ F) /= ?sY //; cbn [bind].
rewrite unsqE; last by rewrite /= ?sY.
cbn [bind]; set d := mkT _ _; have sd : sh d = [:: N, 1, nS & B]%N by rewrite /d /= ?sY.
have [r [-> sr hr]] := bc_row sd; cbn [bind]; eexists; exists tt; split; [reflexivity|by []|by []|move=> b hb].
rewrite /per_source; congr (_, _); apply/ffunP => f; apply/matrixP => s n; rewrite ffunE sigE mxE mxE; cbn [at_ tmap].
rewrite hr /= ?ltn_ord // ?sY /=; congr (1 / clamp (_ / _) _); apply: eq_bigr => k _; by rewrite mxE sigE.
Qed.
(* ---- NMF *)
Lemma flat_lt s i : inr s i -> (flat s i < TorchShape.numel s)%N.
Proof.
elim: s i => [|n s IH] [|x i] //; rewrite -[inr _ _]/((x < n) && inr s i)%N => /andP [h /IH hi]; rewrite -[flat _ _]/(x + n * flat s i)%N numel_cons; nia.
Qed.
Section NMF.
Variables (K : nat) (eps : C).
Lemma bmm_at m n q nb (A D : tensor) : sh A = [:: n; m; nb] -> sh D = [:: q; n; nb] -> exists t,
  [/\ pt_bmm A D = Ok t, sh t = [:: q; m; nb] & forall i, (i < nb)%N -> mat m q t [:: i] = mat m n A [:: i] *m mat n q D [:: i]].
Proof.
move=> sA sD; rewrite /pt_bmm sA sD eqxx /matmul sA sD; cbn [TorchShape.matmul]; rewrite Nat.eqb_refl bcastss; cbn [bind].
eexists; split; [reflexivity|by []|] => i hi; apply/matrixP => x y; rewrite mxE [RHS]mxE; cbn [at_]; apply: eq_bigr => j _.
by rewrite !clip_id ?mxE //= hi.
Qed.
Lemma estimate_at nb (T V : tensor) : sh T = [:: K; F; nb] -> sh V = [:: K; N; nb] -> exists R,
  [/\ t_nmf_estimate eps T V = Ok R, sh R = [:: N; F; nb] & forall i, (i < nb)%N -> mat F N R [:: i] = nmf_iR eps (mat F K T [:: i], mat N K V [:: i])].
Proof.
move=> sT sV; rewrite /t_nmf_estimate; have [VT [-> s1 h1]] := transpose10 sV; cbn [bind].
have [R [-> s2 h2]] := bmm_at sT s1; cbn [bind]; eexists; split; [reflexivity|by []|move=> i hi].
apply/matrixP => f n; rewrite matE [RHS]mxE; cbn [at_ tmap]; rewrite -matE h2 // mxE; congr (clamp _ _)^-1.
by apply: eq_bigr => k _; rewrite !matE h1.
Qed.
(* one factor: a is f x K or n x K *)
Lemma factor_at nb p r (A P R D : tensor) : sh A = [:: K; p; nb] -> sh P = [:: r; p; nb] -> sh R = [:: r; p; nb] -> sh D = [:: K; r; nb] -> exists A',
  [/\ t_nmf_factor eps A P R D = Ok A', sh A' = [:: K; p; nb] & forall i, (i < nb)%N -> mat p K A' [:: i] =
    \matrix_(x, k) clamp (mat p K A [:: i] x k * sqrtC ((\sum_n mat p r P [:: i] x n * mat p r R [:: i] x n ^+ 2 * mat r K D [:: i] n k) /
                            (\sum_n mat p r R [:: i] x n * mat r K D [:: i] n k))) eps].
Proof.
move=> sA sP sR sD; rewrite /t_nmf_factor.
have [Q [e1 sQ hQ]] := tzip_same *%R sP (sR : sh (tmap (fun x => x ^+ 2) R) = _); rewrite {1}/tmul e1; cbn [bind].
have [n1 [-> s1 h1]] := bmm_at sQ sD; cbn [bind]; have [d1 [-> s2 h2]] := bmm_at sR sD; cbn [bind].
have [q [-> sq hq]] := tzip_same (fun x y => x / y) s1 s2; cbn [bind].
have [A' [e2 sA' hA']] := tzip_same *%R sA (sq : sh (tmap sqrtC q) = _); rewrite /tmul e2; cbn [bind].
eexists; split; [reflexivity|by []|move=> i hi]; apply/matrixP => x k; rewrite matE [RHS]mxE; cbn [at_ tmap].
have h : inr [:: K; p; nb] [:: nat_of_ord k; nat_of_ord x; i] by rewrite /= !ltn_ord hi.
rewrite hA' //; cbn [at_ tmap]; rewrite hq // -!matE h1 // h2 //; congr (clamp (_ * sqrtC _) _).
rewrite !mxE; congr (_ / _); apply: eq_bigr => n _.
have hn : inr [:: r; p; nb] [:: nat_of_ord n; nat_of_ord x; i] by rewrite /= !ltn_ord hi.
by rewrite [in LHS]matE hQ //; cbn [at_ tmap]; rewrite !matE.
Qed.
Variable B : seq nat.
Local Notation nb := (TorchShape.numel (nS :: B)).
Definition fac_at (T V : tensor) (q : nat) : factors C F N K := (mat F K T [:: q], mat N K V [:: q]).
Definition nmf_inv (o : nmf_obj C) : Prop :=
  match o with
  | NFresh u v => sh u = [:: K; F; nb] /\ sh v = [:: K; N; nb]
  | NStarted T V iR => [/\ sh T = [:: K; F; nb], sh V = [:: K; N; nb], sh iR = [:: N; F; nb] &
      forall q, (q < nb)%N -> mat F N iR [:: q] = nmf_iR eps (fac_at T V q)]
  end.
Definition nmf_rs (o : nmf_obj C) (b : seq nat) : {ffun 'I_nS -> factors C F N K} :=
  [ffun s => let q := flat (nS :: B) (nat_of_ord s :: b) in
    match o with NFresh u v => nmf_init (mat F K u [:: q]) (mat N K v [:: q]) | NStarted T V _ => fac_at T V q end].
Lemma nmf_as : (0 < F)%N -> (0 < N)%N -> source_as B (t_nmf eps) (nmf_each eps) nmf_inv nmf_rs.
Proof.
move=> F0 N0 o Y io sY; rewrite /t_nmf sY.
rewrite gtn_eqF ?muln_gt0 ?N0 //; rewrite reshapeE; last by rewrite sY !numel_cons [TorchShape.numel [::]]/= ?muln1.
cbn [bind]; cbv zeta; set P := tmap _ _; have sP : sh P = [:: N; F; nb] by [].
have [T [V [R [-> [sT sV sR hR] hrs]]]] : exists T V R, [/\ (match o with
        | NStarted T V iR => Ok (T, V, iR)
        | NFresh u v =>
            let T := tmap (fun x => 9%:R / 10%:R * x + 1 / 10%:R) u in
            let V := tmap (fun x => 9%:R / 10%:R * x + 1 / 10%:R) v in
            let* iR := t_nmf_estimate eps T V in Ok (T, V, iR)
        end)%py = Ok (T, V, R), nmf_inv (NStarted T V R) & forall b, inr B b -> nmf_rs o b = nmf_rs (NStarted T V R) b].
  case: o io => [u v [su sv]|T V R h]; last by exists T, V, R.
  cbv beta iota zeta; set T := tmap _ u; set V := tmap _ v; have [R [-> sR hR]] := estimate_at (su : sh T = _) (sv : sh V = _).
  exists T, V, R; split=> //.
  move=> b hb; apply/ffunP => s; rewrite !ffunE /fac_at /nmf_init; congr (_, _); by apply/matrixP => x k; rewrite mxE !matE.
cbn [bind]; have [T1 [-> sT1 hT1]] := factor_at sT sP sR sV; cbn [bind].
have [R1 [-> sR1 hR1]] := estimate_at sT1 sV; cbn [bind].
have [RT [-> sRT hRT]] := transpose10 sR1; cbn [bind]; have [PT [-> sPT hPT]] := transpose10 sP; cbn [bind].
have [V1 [-> sV1 hV1]] := factor_at sV sPT sRT sT1; cbn [bind].
have [R2 [-> sR2 hR2]] := estimate_at sT1 sV1; cbn [bind].
rewrite reshapeE; last by rewrite sR2 !numel_cons [TorchShape.numel [::]]/= ?muln1.
cbn [bind]; eexists; exists (NStarted T1 V1 R2); split; [reflexivity|by split|by []|move=> b hb].
rewrite hrs // /nmf_each.
have up (s : 'I_nS) : nmf_update eps (\matrix_(f, n) sig_at F N nS Y b f s n) (nmf_rs (NStarted T V R) b s) =
   (fac_at T1 V1 (flat (nS :: B) (nat_of_ord s :: b)), mat F N R2 [:: flat (nS :: B) (nat_of_ord s :: b)]).
  set q := flat _ _; have hq : (q < nb)%N by apply: flat_lt; rewrite /= ltn_ord.
  have PE : (\matrix_(f, n) mag_sq ((\matrix_(f, n) sig_at F N nS Y b f s n) f n) : 'M[C]_(F, N)) = mat F N P [:: q].
    apply/matrixP => f n; rewrite matE mxE mxE sigE /P; cbn [at_ tmap]; rewrite sY; congr (mag_sq (at_ Y _)).
    have h : inr [:: N, F, nS & B] [:: nat_of_ord n, nat_of_ord f, nat_of_ord s & b] by rewrite /= !ltn_ord.
    rewrite -[LHS](unflatK h).
    congr unflat; rewrite /q /flat; nia.
  rewrite /nmf_update PE ffunE -/q; have hR0 := hR q hq.
  have e1 : nmf_T eps (mat F N P [:: q]) (fac_at T V q) = fac_at T1 V q.
    rewrite /nmf_T /fac_at -/(fac_at T V q) -hR0; congr (_, _); by rewrite hT1.
  have e2 : nmf_V eps (mat F N P [:: q]) (fac_at T1 V q) = fac_at T1 V1 q.
    rewrite /nmf_V /fac_at -hR1 //; congr (_, _); rewrite hV1 //; apply/matrixP => n k; rewrite !mxE; congr (clamp (_ * sqrtC (_ / _)) _);
      apply: eq_bigr => f _; by rewrite !matE ?hPT ?hRT.
  by rewrite e1 e2 -hR2.
congr (_, _); last by apply/ffunP => s; rewrite ffunE up /nmf_rs ffunE.
apply/ffunP => f; apply/matrixP => s n; rewrite ffunE mxE up; cbn [fst snd]; rewrite matE sigE; cbn [at_]; rewrite sR2; congr at_.
have h : inr [:: N; F; nb] [:: nat_of_ord n; nat_of_ord f; flat (nS :: B) (nat_of_ord s :: b)].
  by rewrite -[inr _ _]/[&& n < N, f < F, flat (nS :: B) (nat_of_ord s :: b) < nb & true]%N !ltn_ord flat_lt //= ltn_ord.
rewrite -[LHS](unflatK h).
congr unflat; rewrite /flat; nia.
Qed.
End NMF.
End Src.
