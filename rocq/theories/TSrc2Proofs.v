(* The source models of models/classic.py on tensors of shape (batch, n_freq, n_frames), as FIVE calls them. *)
From Coq Require Import String Ascii ZArith.
From mathcomp Require Import all_ssreflect all_algebra.
From mathcomp Require Import zify.
From Verif Require TorchShape.
From Verif Require Import CAlg Py Batch LinalgModel TissModel SrcModel TensorModel TOpsModel TSpec TSepSpec TensorProofs TOpsProofs TSrcModel PhaseSpec TSrcProofs TFiveSpec.
Set Implicit Arguments. Unset Strict Implicit. Unset Printing Implicit Defensive.
Import GRing.Theory Num.Theory Order.TTheory.
Local Open Scope ring_scope.
Arguments clip : simpl never.
Arguments TorchShape.bc2 : simpl never.
Arguments Nat.eqb : simpl never.
Arguments flat : simpl never.
Arguments unflat : simpl never.

Section Src2.
Variable C : numClosedFieldType.
Local Notation tensor := (tensor C).
Variables (F N : nat) (B : seq nat).
Lemma bc_row2 (t : tensor) : sh t = [:: N, 1 & B]%N ->
  exists u, [/\ broadcast_to [:: N, F & B] t = Ok u, sh u = [:: N, F & B] &
    forall n f i, inr [:: N, F & B] [:: n, f & i] -> at_ u [:: n, f & i] = at_ t [:: n, 0 & i]%N].
Proof.
move=> st; rewrite /broadcast_to /TorchShape.expand_to st /= bc2nn bc21n /= bcastss /= !seqbss /= !eqbE !eqxx /=.
eexists; split; [reflexivity|by []|move=> n f i /and3P [hn hf hi]]; cbn [at_].
rewrite -[clip _ _]/[:: (if N == 1%N then 0%N else n), 0%N & clip B i] (clip_id hi).
by case: eqP hn => // -> ; case: n.
Qed.
(* a source model without state on one signal *)
Definition memoryless (T : Type) (g : T -> T) (_ : unit) (Y : T) : T * unit := (g Y, tt).
Lemma laplace_as2 eps : extractor_as B (stateless (t_laplace eps)) (memoryless (@laplace C F N eps)) (fun _ => True) (fun _ _ => tt).
Proof.
move=> [] Y _ sY; rewrite /stateless /t_laplace (@tsum_keepE _ 1 _ F) /= ?sY //; cbn [bind].
set d := tmap _ (mkT _ _); have sd : sh d = [:: N, 1 & B]%N by rewrite /d /= ?sY.
have [r [-> sr hr]] := bc_row2 sd; cbn [bind]; eexists; exists tt; split; [reflexivity|by []|by []|move=> b hb].
rewrite /memoryless; congr (_, _); apply/matrixP => f n; rewrite [LHS]mxE matE; cbn [at_ tmap].
rewrite hr /= ?ltn_ord // ?sY /=; congr (1 / clamp (_ * sqrtC _) _); apply: eq_bigr => k _; by rewrite matE.
Qed.
Lemma gauss_as2 eps : extractor_as B (stateless (t_gauss eps)) (memoryless (@gauss C F N eps)) (fun _ => True) (fun _ _ => tt).
Proof.
move=> [] Y _ sY; rewrite /stateless /t_gauss (@tsumE _ 1 _ F) /= ?sY //; cbn [bind].
rewrite unsqE; last by rewrite /= ?sY.
cbn [bind]; set d := mkT _ _; have sd : sh d = [:: N, 1 & B]%N by rewrite /d /= ?sY.
have [r [-> sr hr]] := bc_row2 sd; cbn [bind]; eexists; exists tt; split; [reflexivity|by []|by []|move=> b hb].
rewrite /memoryless; congr (_, _); apply/matrixP => f n; rewrite [LHS]mxE matE; cbn [at_ tmap].
rewrite hr /= ?ltn_ord // ?sY /=; congr (1 / clamp (_ / _) _); apply: eq_bigr => k _; by rewrite matE.
Qed.
(* ---- NMF *)
Variables (K : nat) (eps : C).
Local Notation nb := (TorchShape.numel B).
Definition nmf_one (tv : factors C F N K) (Y : 'M[C]_(F, N)) : 'M[C]_(F, N) * factors C F N K := let r := nmf_update eps Y tv in (r.2, r.1).
Definition nmf_inv2 (o : nmf_obj C) : Prop :=
  match o with
  | NFresh u v => sh u = [:: K; F; nb] /\ sh v = [:: K; N; nb]
  | NStarted T V iR => [/\ sh T = [:: K; F; nb], sh V = [:: K; N; nb], sh iR = [:: N; F; nb] &
      forall q, (q < nb)%N -> mat F N iR [:: q] = nmf_iR eps (fac_at F N K T V q)]
  end.
Definition nmf_rs2 (o : nmf_obj C) (b : seq nat) : factors C F N K :=
  match o with NFresh u v => nmf_init (mat F K u [:: flat B b]) (mat N K v [:: flat B b]) | NStarted T V _ => fac_at F N K T V (flat B b) end.
Lemma nmf_as2 : (0 < F)%N -> (0 < N)%N -> extractor_as B (t_nmf eps) nmf_one nmf_inv2 nmf_rs2.
Proof.
move=> F0 N0 o Y io sY; rewrite /t_nmf sY.
rewrite gtn_eqF ?muln_gt0 ?N0 //; rewrite reshapeE; last by rewrite sY !numel_cons [TorchShape.numel [::]]/= ?muln1.
cbn [bind]; cbv zeta; set P := tmap _ _; have sP : sh P = [:: N; F; nb] by [].
have [T [V [R [-> [sT sV sR hR] hrs]]]] : exists T V R, [/\ (match o with
        | NStarted T V iR => Ok (T, V, iR)
        | NFresh u v =>
            let T := tmap (fun x => 9%:R / 10%:R * x + 1 / 10%:R) u in
            let V := tmap (fun x => 9%:R / 10%:R * x + 1 / 10%:R) v in
            let* iR := t_nmf_estimate eps T V in Ok (T, V, iR)
        end)%py = Ok (T, V, R), nmf_inv2 (NStarted T V R) & forall b, inr B b -> nmf_rs2 o b = nmf_rs2 (NStarted T V R) b].
  case: o io => [u v [su sv]|T V R h]; last by exists T, V, R.
  cbv beta iota zeta; set T := tmap _ u; set V := tmap _ v; have [R [-> sR hR]] := estimate_at eps (su : sh T = _) (sv : sh V = _).
  exists T, V, R; split=> //.
  move=> b hb; rewrite /nmf_rs2 /fac_at /nmf_init; congr (_, _); by apply/matrixP => x k; rewrite mxE !matE.
cbn [bind]; have [T1 [-> sT1 hT1]] := factor_at eps sT sP sR sV; cbn [bind].
have [R1 [-> sR1 hR1]] := estimate_at eps sT1 sV; cbn [bind].
have [RT [-> sRT hRT]] := transpose10 sR1; cbn [bind]; have [PT [-> sPT hPT]] := transpose10 sP; cbn [bind].
have [V1 [-> sV1 hV1]] := factor_at eps sV sPT sRT sT1; cbn [bind].
have [R2 [-> sR2 hR2]] := estimate_at eps sT1 sV1; cbn [bind].
rewrite reshapeE; last by rewrite sR2 !numel_cons [TorchShape.numel [::]]/= ?muln1.
cbn [bind]; eexists; exists (NStarted T1 V1 R2); split; [reflexivity|by split|by []|move=> b hb].
rewrite hrs // /nmf_one.
set q := flat B b; have hq : (q < nb)%N by apply: flat_lt.
have PE : (\matrix_(f, n) mag_sq (mat F N Y b f n) : 'M[C]_(F, N)) = mat F N P [:: q].
  apply/matrixP => f n; rewrite matE mxE matE /P; cbn [at_ tmap]; rewrite sY; congr (mag_sq (at_ Y _)).
  have h : inr [:: N, F & B] [:: nat_of_ord n, nat_of_ord f & b] by rewrite /= !ltn_ord.
  rewrite -[LHS](unflatK h); congr unflat; rewrite /q /flat; nia.
rewrite /nmf_update PE /nmf_rs2 -/q; have hR0 := hR q hq.
have e1 : nmf_T eps (mat F N P [:: q]) (fac_at F N K T V q) = fac_at F N K T1 V q.
  rewrite /nmf_T /fac_at -/(fac_at F N K T V q) -hR0; congr (_, _); by rewrite hT1.
have e2 : nmf_V eps (mat F N P [:: q]) (fac_at F N K T1 V q) = fac_at F N K T1 V1 q.
  rewrite /nmf_V /fac_at -hR1 //; congr (_, _); rewrite hV1 //; apply/matrixP => n k; rewrite !mxE; congr (clamp (_ * sqrtC (_ / _)) _);
    apply: eq_bigr => f _; by rewrite !matE ?hPT ?hRT.
rewrite e1 e2 -hR2 //; cbn [fst snd]; congr (_, _).
apply/matrixP => f n; rewrite !matE; cbn [at_]; rewrite sR2; congr at_.
have h : inr [:: N; F; nb] [:: nat_of_ord n; nat_of_ord f; q].
  by rewrite -[inr _ _]/[&& n < N, f < F, q < nb & true]%N !ltn_ord hq.
rewrite -[LHS](unflatK h); congr unflat; rewrite /q /flat; nia.
Qed.
End Src2.
(* the draws for one element of the batch *)
Section Alone2.
Variables (C : numClosedFieldType) (F N K : nat) (B : seq nat).
Definition draw_of (t : tensor C) (b : seq nat) : tensor C :=
  mkT [:: nth 0%N (sh t) 0; nth 0%N (sh t) 1; 1%N] (fun i => at_ t [:: nth 0%N i 0; nth 0%N i 1; flat B b]).
Lemma nmf_start2 eps (u v : tensor C) : sh u = [:: K; F; TorchShape.numel B] -> sh v = [:: K; N; TorchShape.numel B] ->
  nmf_inv2 F N B K eps (NFresh u v) /\ forall b, inr B b ->
   nmf_inv2 F N [::] K eps (NFresh (draw_of u b) (draw_of v b)) /\
   nmf_rs2 F N [::] K (NFresh (draw_of u b) (draw_of v b)) [::] = nmf_rs2 F N B K (NFresh u v) b.
Proof.
move=> su sv; split=> // b hb; split; first by split; rewrite /draw_of ?su ?sv.
by congr nmf_init; apply/matrixP => x k; rewrite !matE.
Qed.
End Alone2.
