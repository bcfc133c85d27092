(* The beamformers on a batch of signals compute, for every element of the batch, what the
   models of one batch element (BeamModel.v) compute. *)
From Coq Require Import String Ascii ZArith.
From mathcomp Require Import all_ssreflect all_algebra.
From mathcomp Require Import zify.
From Verif Require TorchShape LinalgProofs.
From Verif Require Import CAlg Py Batch LinalgModel TissModel BeamModel TensorModel TSpec TensorProofs TEighProofs TBeamModel.
Set Implicit Arguments. Unset Strict Implicit. Unset Printing Implicit Defensive.
Import GRing.Theory Num.Theory Order.TTheory.
Local Open Scope ring_scope.
Local Open Scope string_scope.
Arguments clip : simpl never.
Arguments TorchShape.bc2 : simpl never.
Arguments Nat.eqb : simpl never.
Arguments geigh : simpl never.
Ltac es := rewrite /= ?bc2nn /= ?bcastss /= ?bc2nn /= ?bcastss /=.

Section E.
Variable C : numClosedFieldType.
Implicit Types (M X Y W : tensor C).
Lemma e_cov N F S c B M X Y : sh M = [:: N, F, S & B] -> sh X = [:: N, F, c & B] -> sh Y = [:: N, F, c & B] ->
  exists t, [/\ einsum [:: "sfn"; "cfn"; "dfn"] "sfcd" [:: M; X; Y] = Ok t, sh t = [:: c, c, F, S & B] &
   forall i j f s b, inr [:: c, c, F, S & B] [:: i, j, f, s & b] ->
     at_ t [:: i, j, f, s & b] = \sum_(n < N) at_ M [:: nat_of_ord n, f, s & b] * at_ X [:: nat_of_ord n, f, j & b] * at_ Y [:: nat_of_ord n, f, i & b]].
Proof.
move=> s1 s2 s3; rewrite /einsum /TorchShape.einsum; cbn [map]; rewrite s1 s2 s3; es.
eexists; split; [reflexivity|by []|].
move=> i j f s b /and5P [h1 h2 h3 h4 h5] /=; rewrite take0 /= drop0 /=; apply: eq_bigr => n _.
by rewrite s1 s2 s3 !clip_id //= ?ltn_ord ?h1 ?h2 ?h3 ?h4 ?h5.
Qed.
Lemma e_apply N F S c B X W : sh X = [:: N, F, c & B] -> sh W = [:: c, F, S & B] ->
  exists t, [/\ einsum [:: "cfn"; "sfc"] "sfn" [:: X; W] = Ok t, sh t = [:: N, F, S & B] &
   forall n f s b, inr [:: N, F, S & B] [:: n, f, s & b] ->
     at_ t [:: n, f, s & b] = \sum_(k < c) at_ X [:: n, f, nat_of_ord k & b] * at_ W [:: nat_of_ord k, f, s & b]].
Proof.
move=> s1 s2; rewrite /einsum /TorchShape.einsum; cbn [map]; rewrite s1 s2; es.
eexists; split; [reflexivity|by []|].
move=> n f s b /and4P [h1 h2 h3 h4] /=; rewrite take0 /= drop0 /=; apply: eq_bigr => k _.
by rewrite s1 s2 !clip_id //= ?ltn_ord ?h1 ?h2 ?h3 ?h4.
Qed.
Lemma e_apply_frames N F S c B X W : sh X = [:: N, F, c & B] -> sh W = [:: c, N, F, S & B] ->
  exists t, [/\ einsum [:: "cfn"; "sfnc"] "sfn" [:: X; W] = Ok t, sh t = [:: N, F, S & B] &
   forall n f s b, inr [:: N, F, S & B] [:: n, f, s & b] ->
     at_ t [:: n, f, s & b] = \sum_(k < c) at_ X [:: n, f, nat_of_ord k & b] * at_ W [:: nat_of_ord k, n, f, s & b]].
Proof.
move=> s1 s2; rewrite /einsum /TorchShape.einsum; cbn [map]; rewrite s1 s2; es.
eexists; split; [reflexivity|by []|].
move=> n f s b /and4P [h1 h2 h3 h4] /=; rewrite take0 /= drop0 /=; apply: eq_bigr => k _.
by rewrite s1 s2 !clip_id //= ?ltn_ord ?h1 ?h2 ?h3 ?h4.
Qed.
(* matrix times vector *)
Lemma e_mv n k r M X : sh M = [:: k, n & r] -> sh X = k :: r ->
  exists t, [/\ einsum [:: "cd"; "d"] "c" [:: M; X] = Ok t, sh t = n :: r &
   forall i, inr r i -> vec n t i = mat n k M i *m vec k X i].
Proof.
move=> s1 s2; rewrite /einsum /TorchShape.einsum; cbn [map]; rewrite s1 s2; es.
eexists; split; [reflexivity|by []|].
move=> i hi; apply/matrixP => x y; rewrite !mxE /= take0 /= drop0; apply: eq_bigr => j _.
by rewrite s1 s2 !clip_id //= ?ltn_ord ?hi // !mxE.
Qed.
(* inner product *)
Lemma e_ip n r X Y : sh X = n :: r -> sh Y = n :: r ->
  exists t, [/\ einsum [:: "c"; "c"] "" [:: X; Y] = Ok t, sh t = r &
   forall i, inr r i -> at_ t i = \sum_(k < n) at_ X (nat_of_ord k :: i) * at_ Y (nat_of_ord k :: i)].
Proof.
move=> s1 s2; rewrite /einsum /TorchShape.einsum; cbn [map]; rewrite s1 s2; es.
eexists; split; [reflexivity|by []|].
move=> i hi /=; rewrite take0 drop0 /=; apply: eq_bigr => j _.
by rewrite s1 s2 !clip_id //= ?ltn_ord ?hi.
Qed.
End E.

Section Filters.
Variable C : numClosedFieldType.
Variable eighO : forall n, eigh_oracle C n.
Variable k : nat.
Local Notation c := k.+1.
Local Notation tensor := (tensor C).
Variables (r : seq nat) (z : Z) (ref : 'I_c).
Hypothesis vz : TorchShape.valid c z.
Hypothesis zr : zidx c z = ref.
Implicit Types (R v : tensor).

Lemma col_at R : sh R = [:: c, c & r] -> exists b, [/\ select 0 z R = Ok b, sh b = c :: r & forall i, vec c b i = col ref (mat c c R i)].
Proof.
move=> sR; rewrite (@selectE _ _ _ _ c) ?sR //; eexists; split; [reflexivity|by []|].
by move=> j; apply/matrixP => x y; rewrite !mxE /= zr.
Qed.
Lemma t_mwf_bf_at R1 R2 eps : sh R1 = [:: c, c & r] -> sh R2 = [:: c, c & r] ->
  lifts r (c :: r) (t_mwf_bf R1 R2 z) (fun i => compute_mwf_ref (mat c c R1 i) (mat c c R2 i) eps ref) (fun t i => vec c t i).
Proof.
move=> s1 s2; rewrite /t_mwf_bf /tadd.
have [A [-> sA hA]] := tzip_same +%R s1 s2; cbn [bind].
have [b [-> sb hb]] := col_at s1; cbn [bind].
apply: eq_lifts (solve_loaded_vec _ (ltn0Sn k) sA sb) => i hi; rewrite /compute_mwf_ref hb; congr LinalgModel.solve_loaded.
by apply/matrixP => x y; rewrite !mxE hA //= !ltn_ord.
Qed.
Lemma t_normalize_at v : sh v = c :: r -> exists w, [/\ t_normalize v = Ok w, sh w = c :: r &
  forall i, inr r i -> vec c w i = f_normalize (vec c v i)].
Proof.
move=> sv; rewrite /t_normalize (@tsum_keepE _ _ _ c) ?sv //; cbn [bind tmap sh at_].
rewrite /tdiv (@tzipE _ _ _ _ (c :: r)); last by rewrite /= sv /= bc2n1 /= bcastss.
eexists; split; [reflexivity|by []|] => i hi; apply/matrixP => x y; rewrite /f_normalize vecE [RHS]mxE vecE; cbn [at_ sh].
have h : inr (c :: r) (nat_of_ord x :: i) by rewrite /= ltn_ord.
have h0 : inr (1%N :: r) (0%N :: i) by [].
rewrite sv (clip_id h) mulrC; congr (_^-1 * _); rewrite {1}/TorchShape.set /=.
have -> : clip (1%N :: r) (nat_of_ord x :: i) = 0%N :: i by rewrite -[RHS](clip_id h0).
by congr clamp; congr sqrtC; apply: eq_bigr => j _; rewrite vecE.
Qed.
Lemma t_power_at n Phi v : sh Phi = [:: c, c & r] -> sh v = c :: r -> exists w, [/\ t_power n Phi v = Ok w, sh w = c :: r &
  forall i, inr r i -> vec c w i = iter n (fun u => f_normalize (mat c c Phi i *m u)) (vec c v i)].
Proof.
move=> sP; elim: n v => [|n IH] v sv; first by exists v.
cbn [t_power]; have [v1 [-> s1 h1]] := e_mv sP sv; cbn [bind]; have [v2 [-> s2 h2]] := t_normalize_at s1; cbn [bind].
have [w [-> sw hw]] := IH v2 s2; exists w; split=> // i hi; by rewrite hw // iterSr h2 // h1.
Qed.
Lemma vec_col R j (Hj : (j < c)%N) : sh R = [:: c, c & r] -> forall q, TorchShape.valid c q -> zidx c q = j ->
  exists b, [/\ select 0 q R = Ok b, sh b = c :: r & forall i, vec c b i = col (Ordinal Hj) (mat c c R i)].
Proof.
move=> sR q vq eq; rewrite (@selectE _ _ _ _ c) ?sR //; eexists; split; [reflexivity|by []|].
by move=> i; apply/matrixP => x y; rewrite !mxE /= eq.
Qed.
Lemma t_rtf_vector R1 R2 p : sh R1 = [:: c, c & r] -> sh R2 = [:: c, c & r] ->
  lifts r (c :: r) (match p with
            | None => let* eigvec := t_eigvec eighO R1 R2 in select 0 (Zneg xH) eigvec
            | Some p => let* Phi := solve_loaded R2 R1 (10%:R ^- 5) in
                let* v := select 0 Z0 Phi in t_power (p - 1) Phi v
            end)%py (fun i => rtf_vector eighO (mat c c R1 i) (mat c c R2 i) p) (fun t i => vec c t i).
Proof.
move=> s1 s2; case: p => [p|] /=.
  apply: (lifts_bind (solve_loaded_mat _ (ltn0Sn k) s2 s1)) => Phi sP.
  have [v [-> sv hv]] := vec_col (ltn0Sn k) sP (valid_nat (ltn0Sn k)) (zidx_nat _ 0); cbn [bind].
  have [w [-> sw hw]] := t_power_at (p - 1) sP sv; split=> // i hi; rewrite hw // hv.
  by congr (Ok (iter _ _ (col _ _))); apply: val_inj.
rewrite /t_eigvec; have [[ev V] -> [_ sV eV]] := geigh_at eighO s1 s2; cbn [bind fst snd] in sV, eV |- *.
rewrite (@selectE _ _ _ _ c) ?sV //; last first.
  by apply/andP; split; [apply/Z.leb_spec0|apply/Z.ltb_spec0]; lia.
split=> // i hi; congr Ok; apply/matrixP => x y; rewrite !mxE; cbn [at_].
have -> : zidx c (Z.neg 1) = @ord_max k by rewrite /zidx; cbn [Z.ltb Z.compare]; rewrite -[nat_of_ord _]/k; lia.
rewrite /TorchShape.ins; cbn [List.firstn List.skipn List.app cat]; by rewrite -(proj2 (eV i hi)) matE.
Qed.
Lemma t_mvdr_rtf_at R1 R2 p : sh R1 = [:: c, c & r] -> sh R2 = [:: c, c & r] ->
  lifts r (c :: r) (t_mvdr_rtf eighO R1 R2 z p) (fun i => compute_mvdr_rtf_eigh eighO (mat c c R1 i) (mat c c R2 i) ref p) (fun t i => vec c t i).
Proof.
move=> s1 s2; apply: (lifts_bind (t_rtf_vector p s1 s2)) => v sv.
have [w [-> sw hw]] := e_mv s2 sv; cbn [bind].
rewrite (@pickE _ _ _ _ c) ?sw //; cbn [bind]; rewrite /TorchShape.set /=.
rewrite /tdiv (@tzipE _ _ _ _ (c :: r)); last by rewrite sw /= bc2n1 /= bcastss.
split=> // i hi; congr Ok; rewrite -hw //; apply/matrixP => x y; rewrite vecE [LHS]mxE !vecE; cbn [at_ sh].
have h : inr (c :: r) (nat_of_ord x :: i) by rewrite /= ltn_ord.
have h0 : inr (1%N :: r) (0%N :: i) by [].
have -> : clip (1%N :: r) (nat_of_ord x :: i) = 0%N :: i by rewrite -[RHS](clip_id h0).
by rewrite sw (clip_id h) mulrC zr.
Qed.
Lemma t_mvdr_bf_at R d eps : sh R = [:: c, c & r] -> sh d = c :: r ->
  lifts r (c :: r) (t_mvdr_bf R d eps) (fun i => compute_mvdr_bf (mat c c R i) (vec c d i) eps) (fun t i => vec c t i).
Proof.
move=> sR sd; apply: (lifts_bind (solve_loaded_vec _ (ltn0Sn k) sR sd)) => a sa.
have [t [-> st ht]] := e_ip (sd : sh (tmap conjC d) = _) sa; cbn [bind].
rewrite unsqE //; cbn [bind tmap sh]; rewrite st /TorchShape.ins /=.
rewrite /tdiv (@tzipE _ _ _ _ (c :: r)); last by rewrite sa /= bc2n1 /= bcastss.
split=> // i hi; congr Ok; apply/matrixP => x y; rewrite vecE [LHS]mxE !vecE; cbn [at_ sh].
have h : inr (c :: r) (nat_of_ord x :: i) by rewrite /= ltn_ord.
have h0 : inr (1%N :: r) (0%N :: i) by [].
have -> : clip (1%N :: r) (nat_of_ord x :: i) = 0%N :: i by rewrite -[RHS](clip_id h0).
rewrite sa (clip_id h) mulrC; congr (_ * _^-1); rewrite /TorchShape.del /= ht //; congr (clamp ('Re _) _).
by apply: eq_bigr => j _; rewrite !vecE.
Qed.
Lemma t_mvdr_bf2_at R1 R2 eps : sh R1 = [:: c, c & r] -> sh R2 = [:: c, c & r] ->
  lifts r (c :: r) (t_mvdr_bf2 R1 R2 z) (fun i => compute_mvdr_bf2 (mat c c R1 i) (mat c c R2 i) ref eps) (fun t i => vec c t i).
Proof.
move=> s1 s2; apply: (lifts_bind (solve_mat s2 s1)) => num sn.
rewrite /diagonal sn; cbn [TorchShape.diagonal bind]; rewrite Nat.min_id (@tsumE _ _ _ c) //; cbn [bind]; rewrite unsqE //; cbn [bind]; rewrite unsqE //; cbn [bind].
rewrite /tdiv (@tzipE _ _ _ _ [:: c, c & r]); last by rewrite sn /= !bc2n1 /= bcastss.
cbn [bind]; rewrite (@selectE _ _ _ _ c) //; split=> // i hi; congr Ok; apply/matrixP => x y; rewrite [RHS]vecE [LHS]mxE [LHS]mxE; cbn [at_ sh].
rewrite /TorchShape.ins /= zr sn.
have h : inr [:: c, c & r] [:: nat_of_ord ref, nat_of_ord x & i] by rewrite /= !ltn_ord.
have h0 : inr [:: 1, 1 & r]%N [:: 0, 0 & i]%N by [].
rewrite (clip_id h).
have -> : clip [:: 1, 1 & r]%N [:: nat_of_ord ref, nat_of_ord x & i] = [:: 0, 0 & i]%N by rewrite -[RHS](clip_id h0).
rewrite mulrC matE; congr (_ * _^-1); apply: eq_bigr => j _; by rewrite !mxE.
Qed.
(* the exceptions of the filters *)
Lemma torch_solve_err n q (A : 'M[C]_n) (b : 'M[C]_(n, q)) e : torch_solve A b = Err e -> e = LinAlgError.
Proof. by rewrite /torch_solve; case: ifP => // _ []. Qed.
Lemma sl_err q (A : 'M[C]_c) (b : 'M[C]_(c, q)) l e : LinalgModel.solve_loaded A b l = Err e -> e = LinAlgError.
Proof. exact: solve_loaded_err. Qed.
Lemma rtf_err R1 R2 p i e : compute_mvdr_rtf_eigh eighO (mat c c R1 i) (mat c c R2 i) ref p = Err e -> e = LinAlgError.
Proof.
rewrite /compute_mvdr_rtf_eigh /rtf_vector; case: p => [p|] //.
by case E: (LinalgModel.solve_loaded _ _ _) => [x|e'] //= [<-]; move: E; exact: sl_err.
Qed.
Lemma bf_err (R : 'M[C]_c) d eps e : compute_mvdr_bf R d eps = Err e -> e = LinAlgError.
Proof. by rewrite /compute_mvdr_bf; case E: (LinalgModel.solve_loaded _ _ _) => [x|e'] //= [<-]; move: E; exact: sl_err. Qed.
Lemma bf2_err (R1 R2 : 'M[C]_c) eps e : compute_mvdr_bf2 R1 R2 ref eps = Err e -> e = LinAlgError.
Proof. by rewrite /compute_mvdr_bf2; case E: (torch_solve _ _) => [x|e'] //= [<-]; move: E; exact: torch_solve_err. Qed.
End Filters.

Section Forward.
Variable C : numClosedFieldType.
Variable eighO : forall n, eigh_oracle C n.
Variables (k N F S : nat) (B : seq nat).
Local Notation c := k.+1.
Local Notation tensor := (tensor C).
Variables (z : Z) (ref : 'I_c).
Hypothesis vz : TorchShape.valid c z.
Hypothesis zr : zidx c z = ref.
Variable X : tensor.
Hypothesis sX : sh X = [:: N, F, c & B].

Lemma t_cov_at nM M j : sh M = [:: N, F, nM, S & B] -> (j < nM)%N ->
  exists R, [/\ t_cov M X (Z.of_nat j) = Ok R, sh R = [:: c, c, F, S & B] &
   forall b (f : 'I_F) (s : 'I_S), inr B b ->
     mat c c R [:: nat_of_ord f, nat_of_ord s & b] = cov (\row_n at_ M [:: nat_of_ord n, nat_of_ord f, j, nat_of_ord s & b]) (sig_at F N c X b f)].
Proof.
move=> sM hj; rewrite /t_cov (@selectE _ _ _ _ nM) ?sM ?valid_nat //; cbn [bind].
set mk := mkT _ _; have smk : sh mk = [:: N, F, S & B] by [].
have [R [-> sR hR]] := e_cov smk sX (sX : sh (tmap conjC X) = _).
exists R; split=> // b f s hb; apply/matrixP => x y; rewrite matE hR; last by rewrite /= !ltn_ord.
rewrite mxE; apply: eq_bigr => n _; rewrite !sigE mxE; congr (_ * _ * _).
by rewrite /mk; cbn [at_]; rewrite /TorchShape.ins /= zidx_nat.
Qed.
Lemma t_ref_at : exists x, [/\ select 2 z X = Ok x, sh x = [:: N, F & B] &
  forall b, \matrix_(f, n) at_ x [:: nat_of_ord n, nat_of_ord f & b] = ref_channel (sig_at F N c X b) ref].
Proof.
rewrite (@selectE _ _ _ _ c) ?sX //; eexists; split; [reflexivity|by []|].
by move=> b; apply/matrixP => f n; rewrite [LHS]mxE [RHS]mxE sigE; cbn [at_]; rewrite /TorchShape.ins /= zr.
Qed.
Lemma t_apply_at (bf : tensor) : sh bf = [:: c, F, S & B] ->
  lifts B [:: N, F, S & B] (einsum [:: "cfn"; "sfc"] "sfn" [:: X; tmap conjC bf])
    (fun b => Ok (apply_bf (sig_at F N c X b) [ffun sf : 'I_S * 'I_F => vec c bf [:: nat_of_ord sf.2, nat_of_ord sf.1 & b]]))
    (fun t b => sig_at F N S t b).
Proof.
move=> sb; have [t [-> st ht]] := e_apply sX (sb : sh (tmap conjC bf) = _).
apply: lifts_ok; [reflexivity|by []|] => b hb; apply/ffunP => f; apply/matrixP => s n; rewrite sigE ht; last by rewrite /= !ltn_ord.
rewrite ffunE mxE; apply: eq_bigr => j _; rewrite sigE; congr (_ * _); cbn [tmap at_]; congr (_^*).
by rewrite ffunE vecE.
Qed.
Lemma pair_gather (U : Type) (d : U) (g g' : 'I_S * 'I_F -> result U) :
  (forall s f, g (s, f) = g' (s, f)) -> gather d g = gather d g'.
Proof. by move=> h; apply: eq_gather => -[s f]. Qed.

Lemma seq2 (T : Type) (x0 : T) (l : seq T) : size l = 2%N -> l = [:: nth x0 l 0; nth x0 l 1].
Proof. by case: l => [|a [|b [|]]]. Qed.
Lemma seq3 (T : Type) (x0 : T) (l : seq T) : size l = 3%N -> l = [:: nth x0 l 0; nth x0 l 1; nth x0 l 2].
Proof. by case: l => [|a [|b [|e [|]]]]. Qed.
Lemma seq4 (T : Type) (x0 : T) (l : seq T) : size l = 4%N -> l = [:: nth x0 l 0; nth x0 l 1; nth x0 l 2; nth x0 l 3].
Proof. by case: l => [|a [|b [|e [|g [|]]]]]. Qed.

Variables (nM : nat) (tm : tensor -> result tensor) (mm : mask_model C S F N).
Hypothesis hm : masks_as nM B tm mm.
Hypothesis ne : exists b, inr B b.
(* the masks, and the covariance matrices of mask j, of every element of the batch *)
Let mb b j := nth (fun _ _ => 0) (mm (ref_channel (sig_at F N c X b) ref)) j.
Lemma masks_at : exists x M, [/\ select 2 z X = Ok x, tm x = Ok M, sh M = [:: N, F, nM, S & B],
  forall b, inr B b -> size (mm (ref_channel (sig_at F N c X b) ref)) = nM &
  forall b j (s : 'I_S) (f : 'I_F) (n : 'I_N), inr B b -> (j < nM)%N ->
    at_ M [:: nat_of_ord n, nat_of_ord f, j, nat_of_ord s & b] = mb b j s f 0 n].
Proof.
have [x [ex sx hx]] := t_ref_at; have [M [eM sM hM]] := hm sx; exists x, M; split=> //.
  by move=> b /hM /=; rewrite hx => -[].
by move=> b j s f n hb hj; have /= [_ h] := hM b hb; rewrite h // hx.
Qed.
Lemma cov_at M j : sh M = [:: N, F, nM, S & B] -> (j < nM)%N ->
  (forall b j (s : 'I_S) (f : 'I_F) (n : 'I_N), inr B b -> (j < nM)%N ->
    at_ M [:: nat_of_ord n, nat_of_ord f, j, nat_of_ord s & b] = mb b j s f 0 n) ->
  exists R, [/\ t_cov M X (Z.of_nat j) = Ok R, sh R = [:: c, c, F, S & B] &
   forall b (f : 'I_F) (s : 'I_S), inr B b ->
     mat c c R [:: nat_of_ord f, nat_of_ord s & b] = cov (mb b j s f) (sig_at F N c X b f)].
Proof.
move=> sM hj hM; have [R [-> sR hR]] := t_cov_at sM hj; exists R; split=> // b f s hb; rewrite hR //; congr cov.
by apply/rowP => n; rewrite mxE hM.
Qed.
Lemma filt_at (res : result tensor) (g : seq nat -> result 'cV[C]_c) (g' : seq nat -> 'I_S * 'I_F -> result 'cV[C]_c) :
  (forall i e, g i = Err e -> e = LinAlgError) ->
  lifts [:: F, S & B] [:: c, F, S & B] res g (fun t i => vec c t i) ->
  (forall b s f, inr B b -> g [:: nat_of_ord f, nat_of_ord s & b] = g' b (s, f)) ->
  lifts B [:: N, F, S & B] (bind res (fun bf => einsum [:: "cfn"; "sfc"] "sfn" [:: X; tmap conjC bf]))
    (fun b => bind (gather 0 (g' b)) (fun bf => Ok (apply_bf (sig_at F N c X b) bf))) (fun t b => sig_at F N S t b).
Proof.
move=> ge hl hg; have h := gather_lift2 0 ge hl.
have h2 := @lifts_bind _ _ _ _ _ _ _ _ _ _ (fun b bf => Ok (apply_bf (sig_at F N c X b) bf)) _ h (fun t st => t_apply_at st).
apply: eq_lifts h2.
by move=> b hb /=; congr bind; apply: pair_gather => s f /=; rewrite hg.
Qed.
Lemma rtf_bf_lift R1 R2 R3 eps p : sh R1 = [:: c, c, F, S & B] -> sh R2 = [:: c, c, F, S & B] -> sh R3 = [:: c, c, F, S & B] ->
  lifts [:: F, S & B] [:: c, F, S & B] (let* rtf := t_mvdr_rtf eighO R1 R2 z p in t_mvdr_bf R3 rtf eps)%py
    (fun i => let* rtf := compute_mvdr_rtf_eigh eighO (mat c c R1 i) (mat c c R2 i) ref p in compute_mvdr_bf (mat c c R3 i) rtf eps)%py
    (fun t i => vec c t i).
Proof.
move=> s1 s2 s3.
have h := @lifts_bind _ _ _ _ _ _ _ _ _ _ (fun i d => compute_mvdr_bf (mat c c R3 i) d eps) _ (t_mvdr_rtf_at eighO vz zr p s1 s2) (fun d sd => t_mvdr_bf_at eps s3 sd).
exact h.
Qed.
Lemma rtf_bf_err R1 R2 R3 eps p i e :
  (let* rtf := compute_mvdr_rtf_eigh eighO (mat c c R1 i) (mat c c R2 i) ref p in compute_mvdr_bf (mat c c R3 i) rtf eps)%py = Err e -> e = LinAlgError.
Proof.
case E: (compute_mvdr_rtf_eigh _ _ _ _ _) => [v|e']; cbn [bind]; first exact: bf_err.
by case=> <-; exact: rtf_err E.
Qed.
Lemma mvdr_batch ty eps p :
  lifts B [:: N, F, S & B] (t_mvdr_forward eighO tm ty z eps p X)
    (fun b => mvdr_forward eighO (sig_at F N c X b) mm ref eps ty p) (fun t b => sig_at F N S t b).
Proof.
have [x [M [ex eM sM sz hM]]] := masks_at; rewrite /t_mvdr_forward ex; cbn [bind]; rewrite eM; cbn [bind].
rewrite sM; cbn [TorchShape.size List.nth_error bind].
case: eqP => [n2|n2].
  have [R1 [e1 s1 h1]] := @cov_at M 0 sM ltac:(by rewrite n2) hM.
  have [R2 [e2 s2 h2]] := @cov_at M 1 sM ltac:(by rewrite n2) hM.
  rewrite -[Z0]/(Z.of_nat 0) e1; cbn [bind]; rewrite e2; cbn [bind].
  have ml b : inr B b -> mm (ref_channel (sig_at F N c X b) ref) = [:: mb b 0; mb b 1].
    by move=> hb; apply: seq2; rewrite sz.
  case: ty.
  - have := filt_at (g' := fun b sf => let: (s, f) := sf in
       let* rtf := compute_mvdr_rtf_eigh eighO (cov (mb b 0 s f) (sig_at F N c X b f)) (cov (mb b 1 s f) (sig_at F N c X b f)) ref p in
       compute_mvdr_bf (cov (mb b 1 s f) (sig_at F N c X b f)) rtf eps)%py (@rtf_bf_err R1 R2 R2 eps p) (rtf_bf_lift eps p s1 s2 s2).
    move=> h; apply: eq_lifts (h _) => [b hb|b s f hb]; last by rewrite h1 ?h2.
    by rewrite /mvdr_forward ml.
  - have := filt_at (g' := fun b sf => let: (s, f) := sf in
       compute_mvdr_bf2 (cov (mb b 0 s f) (sig_at F N c X b f)) (cov (mb b 1 s f) (sig_at F N c X b f)) ref eps)
       (fun i e => @bf2_err _ _ _ _ _ _ _) (t_mvdr_bf2_at vz zr eps s1 s2).
    move=> h; apply: eq_lifts (h _) => [b hb|b s f hb]; last by rewrite h1 ?h2.
    by rewrite /mvdr_forward ml.
  - cbn [bind]; case: ne => b hb; exists b => //; by rewrite /mvdr_forward ml.
case: eqP => [n3|n3].
  have [R1 [e1 s1 h1]] := @cov_at M 0 sM ltac:(by rewrite n3) hM.
  have [R2 [e2 s2 h2]] := @cov_at M 1 sM ltac:(by rewrite n3) hM.
  have [R3 [e3 s3 h3]] := @cov_at M 2 sM ltac:(by rewrite n3) hM.
  rewrite -[Z0]/(Z.of_nat 0) e1; cbn [bind]; rewrite e2; cbn [bind]; rewrite e3; cbn [bind].
  have ml b : inr B b -> mm (ref_channel (sig_at F N c X b) ref) = [:: mb b 0; mb b 1; mb b 2].
    by move=> hb; apply: seq3; rewrite sz.
  have := filt_at (g' := fun b sf => let: (s, f) := sf in
       let* rtf := compute_mvdr_rtf_eigh eighO (cov (mb b 0 s f) (sig_at F N c X b f)) (cov (mb b 2 s f) (sig_at F N c X b f)) ref p in
       compute_mvdr_bf (cov (mb b 1 s f) (sig_at F N c X b f)) rtf eps)%py (@rtf_bf_err R1 R3 R2 eps p) (rtf_bf_lift eps p s1 s3 s2).
  move=> h; apply: eq_lifts (h _) => [b hb|b s f hb]; last by rewrite h1 ?h2 ?h3.
  by rewrite /mvdr_forward ml.
cbn [bind]; case: ne => b hb; exists b => //; rewrite /mvdr_forward.
move: (sz b hb) n2 n3; case: (mm _) => [|m1 [|m2 [|m3 [|m4 l]]]] //= <- //.
Qed.
Lemma t_cov_err M j : sh M = [:: N, F, nM, S & B] -> (nM <= j)%N -> t_cov M X (Z.of_nat j) = Err IndexError.
Proof. by move=> sM h; rewrite /t_cov (@select_err _ _ _ _ nM) ?sM ?invalid_nat. Qed.
Lemma vary_at M R j : sh M = [:: N, F, nM, S & B] -> (j < nM)%N -> sh R = [:: c, c, F, S & B] ->
  (forall b j (s : 'I_S) (f : 'I_F) (n : 'I_N), inr B b -> (j < nM)%N ->
    at_ M [:: nat_of_ord n, nat_of_ord f, j, nat_of_ord s & b] = mb b j s f 0 n) ->
  exists R', [/\ (let* V := select 2 (Z.of_nat j) M in
                    let* R := unsq 2 R in let* V := unsq 0 V in let* V := unsq 0 V in tmul R V)%py = Ok R',
   sh R' = [:: c, c, N, F, S & B] &
   forall b (n : 'I_N) (f : 'I_F) (s : 'I_S), inr B b ->
     mat c c R' [:: nat_of_ord n, nat_of_ord f, nat_of_ord s & b] = mb b j s f 0 n *: mat c c R [:: nat_of_ord f, nat_of_ord s & b]].
Proof.
move=> sM hj sR hM; rewrite (@selectE _ _ _ _ nM) ?sM ?valid_nat //; cbn [bind].
rewrite unsqE ?sR //; cbn [bind]; rewrite unsqE //; cbn [bind]; rewrite unsqE //; cbn [bind]; rewrite /tmul.
rewrite (@tzipE _ _ _ _ [:: c, c, N, F, S & B]); last by rewrite /= !bc2n1 bc21n !bc2nn /= bcastss.
eexists; split; [reflexivity|by []|] => b n f s hb; apply/matrixP => x y; rewrite matE [RHS]mxE matE; cbn [at_ sh].
have h0 : inr [:: c, c, 1, F, S & B]%N [:: nat_of_ord y, nat_of_ord x, 0%N, nat_of_ord f, nat_of_ord s & b] by rewrite /= !ltn_ord.
have h1 : inr [:: 1, 1, N, F, S & B]%N [:: 0, 0, nat_of_ord n, nat_of_ord f, nat_of_ord s & b]%N by rewrite /= !ltn_ord.
have e0 : clip [:: c, c, 1, F, S & B]%N [:: nat_of_ord y, nat_of_ord x, nat_of_ord n, nat_of_ord f, nat_of_ord s & b] = [:: nat_of_ord y, nat_of_ord x, 0%N, nat_of_ord f, nat_of_ord s & b].
  by rewrite -[RHS](clip_id h0).
have e1 : clip [:: 1, 1, N, F, S & B]%N [:: nat_of_ord y, nat_of_ord x, nat_of_ord n, nat_of_ord f, nat_of_ord s & b] = [:: 0, 0, nat_of_ord n, nat_of_ord f, nat_of_ord s & b]%N.
  by rewrite -[RHS](clip_id h1).
rewrite /TorchShape.ins /TorchShape.del; cbn [List.firstn List.skipn List.app cat]; rewrite e0 e1.
by rewrite zidx_nat mulrC; cbn [List.firstn List.skipn List.app cat]; rewrite hM.
Qed.
Lemma t_apply_frames_at (bf : tensor) : sh bf = [:: c, N, F, S & B] ->
  lifts B [:: N, F, S & B] (einsum [:: "cfn"; "sfnc"] "sfn" [:: X; tmap conjC bf])
    (fun b => Ok ((fun W : {ffun 'I_S * 'I_F -> {ffun 'I_N -> 'cV[C]_c}} =>
        [ffun f => \matrix_(s, n) \sum_i sig_at F N c X b f i n * (W (s, f) n i 0)^*] : sig C F N S)
       [ffun sf : 'I_S * 'I_F => [ffun n : 'I_N => vec c bf [:: nat_of_ord n, nat_of_ord sf.2, nat_of_ord sf.1 & b]]]))
    (fun t b => sig_at F N S t b).
Proof.
move=> sb; have [t [-> st ht]] := e_apply_frames sX (sb : sh (tmap conjC bf) = _).
apply: lifts_ok; [reflexivity|by []|] => b hb; apply/ffunP => f; apply/matrixP => s n; rewrite sigE ht; last by rewrite /= !ltn_ord.
rewrite ffunE mxE; apply: eq_bigr => j _; rewrite sigE; congr (_ * _); cbn [tmap at_]; congr (_^*).
by rewrite !ffunE vecE.
Qed.
Lemma mwf_batch ti eps :
  lifts B [:: N, F, S & B] (t_mwf_forward tm ti z X)
    (fun b => mwf_forward (sig_at F N c X b) mm ref eps ti) (fun t b => sig_at F N S t b).
Proof.
have [x [M [ex eM sM sz hM]]] := masks_at; rewrite /t_mwf_forward ex; cbn [bind]; rewrite eM; cbn [bind].
have [n1|n1] := leqP nM 1.
  case: ne => b hb; have er : mwf_forward (sig_at F N c X b) mm ref eps ti = Err IndexError.
    rewrite /mwf_forward; move: (sz b hb); case: (mm _) => [|m1 [|m2 l]] //= e; by rewrite -e in n1.
  have [n0|n0] := posnP nM; first by rewrite -[Z0]/(Z.of_nat 0) (t_cov_err sM) ?n0 //; cbn [bind]; exists b.
  have [R1 [e1 _ _]] := @cov_at M 0 sM n0 hM.
  by rewrite -[Z0]/(Z.of_nat 0) e1 (t_cov_err sM) //; cbn [bind]; exists b.
have [R1 [e1 s1 h1]] := @cov_at M 0 sM (ltnW n1) hM.
have [R2 [e2 s2 h2]] := @cov_at M 1 sM n1 hM.
rewrite -[Z0]/(Z.of_nat 0) e1; cbn [bind]; rewrite e2; cbn [bind].
case: ti.
  have ml b : inr B b -> exists l, mm (ref_channel (sig_at F N c X b) ref) = [:: mb b 0, mb b 1 & l].
    move=> hb; move: (sz b hb); rewrite /mb; case: (mm _) n1 => [|m1 [|m2 l]] /=; [by move=> h e; rewrite -e in h..|by move=> _ _; exists l].
  have := filt_at (g' := fun b sf => let: (s, f) := sf in
       compute_mwf_ref (cov (mb b 0 s f) (sig_at F N c X b f)) (cov (mb b 1 s f) (sig_at F N c X b f)) eps ref)
       (fun i e => @sl_err _ _ _ _ _ _ _) (t_mwf_bf_at vz zr eps s1 s2).
  move=> h; apply: eq_lifts (h _) => [b hb|b s f hb]; last by rewrite h1 ?h2.
  by rewrite /mwf_forward; case: (ml b hb) => l ->.
rewrite sM; cbn [TorchShape.size List.nth_error bind].
case: eqP => [n4|n4]; last first.
  case: ne => b hb; exists b => //; rewrite /mwf_forward.
  by move: (sz b hb) n4 n1; case: (mm _) => [|m1 [|m2 [|m3 [|m4 [|m5 l]]]]] //= <- //.
have [V1 [v1 t1 w1]] := @vary_at M R1 2 sM ltac:(by rewrite n4) s1 hM.
have [V2 [v2 t2 w2]] := @vary_at M R2 3 sM ltac:(by rewrite n4) s2 hM.
cbn [negb]; rewrite v1; cbn [bind]; rewrite v2; cbn [bind].
have ml b : inr B b -> mm (ref_channel (sig_at F N c X b) ref) = [:: mb b 0; mb b 1; mb b 2; mb b 3].
  by move=> hb; apply: seq4; rewrite sz.
have hl := t_mwf_bf_at vz zr eps t1 t2.
have hg := gather_lift 0 (fun i e => @sl_err _ _ _ _ _ _ _) hl.
have ge (i : seq nat) e : gather 0 (fun n : 'I_N => compute_mwf_ref (mat c c V1 (nat_of_ord n :: i)) (mat c c V2 (nat_of_ord n :: i)) eps ref) = Err e -> e = LinAlgError.
  by move=> h; have [n] := gather_err_inv h; exact: sl_err.
have hp := gather_lift2 [ffun=> 0] ge hg.
have {hp}h := @lifts_bind _ _ _ _ _ _ _ _ _ _ (fun b (W : {ffun 'I_S * 'I_F -> {ffun 'I_N -> 'cV[C]_c}}) =>
  Ok ([ffun f => \matrix_(s, n) \sum_i sig_at F N c X b f i n * (W (s, f) n i 0)^*] : sig C F N S)) _ hp (fun t st => t_apply_frames_at st).
apply: eq_lifts h => b hb.
rewrite /mwf_forward ml //; congr bind; apply: pair_gather => s f; apply: eq_gather => n; cbn [fst snd].
by rewrite w1 // w2 // h1 // h2.
Qed.
(* reading the filters of GEV: shape (batch, frequencies, sources, channels) *)
Definition gev_row (t : tensor) (i : seq nat) : 'rV[C]_c := if i is f :: s :: b then \row_j at_ t [:: nat_of_ord j, s, f & b] else 0.
Lemma last_idx : zidx c (Z.neg 1) = k.
Proof. rewrite /zidx; cbn [Z.ltb Z.compare]; lia. Qed.
Lemma last_valid : TorchShape.valid c (Z.neg 1).
Proof. by apply/andP; split; [apply/Z.leb_spec0|apply/Z.ltb_spec0]; lia. Qed.
Lemma t_gev_bf_at R1 R2 : sh R1 = [:: c, c, F, S & B] -> sh R2 = [:: c, c, F, S & B] ->
  lifts [:: F, S & B] [:: c, S, F & B] (t_gev_bf eighO R1 R2 z) (fun i => compute_gev_bf eighO (mat c c R1 i) (mat c c R2 i) ref) gev_row.
Proof.
move=> s1 s2; rewrite /t_gev_bf /t_eigvec; have [[ev0 V] -> [_ sV eV]] := geigh_at eighO s1 s2; cbn [bind fst snd] in sV, eV |- *.
rewrite sV; cbn [TorchShape.size List.nth_error bind].
rewrite (@selectE _ _ _ _ c) // ?last_valid //; cbn [bind]; rewrite unsqE //; cbn [bind].
set rhs := mkT (TorchShape.ins _ _ _) _.
have srhs : sh rhs = [:: 1%N; c] by [].
have mV i : inr [:: F, S & B] i -> mat c c V i = (geigh eighO (mat c c R1 i) (mat c c R2 i)).2 by move=> hi; case: (eV i hi).
have mr : mat c 1 rhs [::] = delta_mx ord_max 0.
  apply/matrixP => x y; rewrite !mxE /rhs; cbn [at_]; rewrite /TorchShape.ins /TorchShape.del; cbn [List.firstn List.skipn List.app].
  by rewrite last_idx /teye; cbn [at_]; rewrite ord1 andbT eq_sym.
clearbody rhs; rewrite /hermite; have [Vt [-> sVt hVt]] := transpose10 sV; cbn [bind].
have mVh i : mat c c (tmap conjC Vt) i = LinalgModel.hermite (mat c c V i).
  by apply/matrixP => x y; rewrite !mxE; cbn [at_ tmap]; rewrite hVt.
have [v [-> sv hv]] : exists v, [/\ select 0 (Zneg xH) V = Ok v, sh v = [:: c, F, S & B] & forall x i, at_ v (x :: i) = at_ V [:: k, x & i]].
  rewrite (@selectE _ _ _ _ c) // ?last_valid ?sV //; eexists; split; [reflexivity|by []|] => x i.
  by cbn [at_]; rewrite /TorchShape.ins last_idx.
have [v' [ev sv' hv']] := transpose21 sv.
have hk (t : tensor) : sh t = [:: 1%N, c, F, S & B] -> lifts [:: F, S & B] [:: c, S, F & B]
   (let* scale := select 1 z t in let* scale := transpose 2 1 scale in
    let* v := Ok v in let* v := transpose 2 1 v in tmul (tmap conjC v) scale)%py
   (fun i => Ok (\row_j ((mat c c V i j ord_max)^* * mat c 1 t i ref 0))) gev_row.
  move=> st; rewrite (@selectE _ _ _ _ c) ?st //; cbn [bind].
  set sc := mkT _ _; have ssc : sh sc = [:: 1%N, F, S & B] by [].
  have hsc i : at_ sc (0%N :: i) = at_ t [:: 0%N, nat_of_ord ref & i] by rewrite /sc; cbn [at_]; rewrite /TorchShape.ins zr.
  clearbody sc; have [sc' [-> ssc' hsc']] := transpose21 ssc; cbn [bind]; rewrite ev; cbn [bind].
  rewrite /tmul (@tzipE _ _ _ _ [:: c, S, F & B]); last by cbn [sh tmap]; rewrite sv' ssc' /= bc2n1 !bc2nn /= bcastss.
  split=> // i; case: i => [|f i] //; case: i => [|s b hi]; first by move=> /andP []. 
  have /and3P [hf hsS hb] : [&& (f < F)%N, (s < S)%N & inr B b] := hi; congr Ok; apply/rowP => j; rewrite [LHS]mxE [RHS]mxE matE mxE; cbn [at_ sh tmap].
  have h : inr [:: c, S, F & B] [:: nat_of_ord j, s, f & b] by rewrite /= ltn_ord hf hsS.
  have h1 : inr [:: 1%N, S, F & B] [:: 0%N, s, f & b] by rewrite /= hf hsS.
  have e1 : clip [:: 1%N, S, F & B] [:: nat_of_ord j, s, f & b] = [:: 0%N, s, f & b] by rewrite -[RHS](clip_id h1).
  by rewrite sv' ssc' (clip_id h) e1 hv' hsc' hv hsc.
have hs := @lifts_bind _ _ _ _ _ _ _ _ _ _ (fun i (w : 'cV[C]_c) => Ok (\row_j ((mat c c V i j ord_max)^* * w ref 0))) _ (solve_mat_bc (sVt : sh (tmap conjC Vt) = _) srhs) hk.
apply: eq_lifts hs => i hi; by rewrite /compute_gev_bf mVh mr (mV i hi).
Qed.
Lemma gev_batch :
  lifts B [:: N, F, S & B] (t_gev_forward eighO tm z X)
    (fun b => gev_forward eighO (sig_at F N c X b) mm ref) (fun t b => sig_at F N S t b).
Proof.
have [x [M [ex eM sM sz hM]]] := masks_at; rewrite /t_gev_forward ex; cbn [bind]; rewrite eM; cbn [bind].
have [n1|n1] := leqP nM 1.
  case: ne => b hb; have er : gev_forward eighO (sig_at F N c X b) mm ref = Err IndexError.
    rewrite /gev_forward; move: (sz b hb); case: (mm _) => [|m1 [|m2 l]] //= e; by rewrite -e in n1.
  have [n0|n0] := posnP nM; first by rewrite -[Z0]/(Z.of_nat 0) (t_cov_err sM) ?n0 //; cbn [bind]; exists b.
  have [R1 [e1 _ _]] := @cov_at M 0 sM n0 hM.
  by rewrite -[Z0]/(Z.of_nat 0) e1 (t_cov_err sM) //; cbn [bind]; exists b.
have [R1 [e1 s1 h1]] := @cov_at M 0 sM (ltnW n1) hM.
have [R2 [e2 s2 h2]] := @cov_at M 1 sM n1 hM.
rewrite -[Z0]/(Z.of_nat 0) e1; cbn [bind]; rewrite e2; cbn [bind].
have ml b : inr B b -> exists l, mm (ref_channel (sig_at F N c X b) ref) = [:: mb b 0, mb b 1 & l].
  move=> hb; move: (sz b hb); rewrite /mb; case: (mm _) n1 => [|m1 [|m2 l]] /=; [by move=> h e; rewrite -e in h..|by move=> _ _; exists l].
have [Xt [eXt sXt hXt]] := transpose21 sX.
have hk (bf : tensor) : sh bf = [:: c, S, F & B] -> lifts B [:: N, F, S & B]
    (let* Xt := transpose 2 1 X in let* Y := bmm bf Xt in transpose 2 1 Y)%py
    (fun b => Ok ((fun W : {ffun 'I_S * 'I_F -> 'rV[C]_c} => [ffun f => \matrix_(s, n) LinalgModel.bmm (W (s, f)) (sig_at F N c X b f) 0 n] : sig C F N S)
       [ffun sf : 'I_S * 'I_F => gev_row bf [:: nat_of_ord sf.2, nat_of_ord sf.1 & b]])) (fun t b => sig_at F N S t b).
  move=> sb; rewrite eXt; cbn [bind]; have [Y [-> sY hY]] := bmmE sb sXt; cbn [bind].
  have [Y' [-> sY' hY']] := transpose21 sY.
  apply: lifts_ok; [reflexivity|by []|] => b hb; apply/ffunP => f; apply/matrixP => s n; rewrite sigE hY' ffunE mxE.
  have := hY (nat_of_ord f :: b) ltac:(by rewrite /= ltn_ord); move/matrixP/(_ s n); rewrite matE => ->.
  rewrite !LinalgProofs.bmmE !mxE; apply: eq_bigr => j _; congr (_ * _); first by rewrite matE ffunE /= mxE.
  by rewrite matE hXt sigE.
have ge i e : compute_gev_bf eighO (mat c c R1 i) (mat c c R2 i) ref = Err e -> e = LinAlgError.
  by rewrite /compute_gev_bf; case E: (torch_solve _ _) => [w|e'] //= [<-]; exact: torch_solve_err E.
have hg := gather_lift2 0 ge (t_gev_bf_at s1 s2).
have h := @lifts_bind _ _ _ _ _ _ _ _ _ _ (fun b (W : {ffun 'I_S * 'I_F -> 'rV[C]_c}) => Ok ([ffun f => \matrix_(s, n) LinalgModel.bmm (W (s, f)) (sig_at F N c X b f) 0 n] : sig C F N S)) _ hg hk.
apply: eq_lifts h => b hb; rewrite /gev_forward; case: (ml b hb) => l ->; congr bind; apply: pair_gather => s f; by rewrite /= h1 ?h2.
Qed.
End Forward.
