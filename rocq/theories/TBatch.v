(* A batch against its elements alone. *)
From Coq Require Import String Ascii ZArith.
From mathcomp Require Import all_ssreflect all_algebra.
From Verif Require TorchShape WpeBridge BeamSpec BeamForward.
From Verif Require Import CAlg Py Batch LinalgModel TissModel WpeModel BeamModel TensorModel TSpec TensorProofs TWpeModel TWpeProofs TBeamModel TBeamProofs.
Set Implicit Arguments. Unset Strict Implicit. Unset Printing Implicit Defensive.
Import GRing.Theory Num.Theory Order.TTheory.
Local Open Scope ring_scope.

Section Sep.
Variable C : numClosedFieldType.
Lemma separately_of nN nF nS (B : seq nat) (res : result (tensor C)) (one : seq nat -> result (tensor C))
    (g : seq nat -> result {ffun 'I_nF -> 'M[C]_(nS, nN)}) :
  lifts B [:: nN, nF, nS & B] res g (fun t b => sig_at nF nN nS t b) ->
  (forall b, inr B b -> lifts [::] [:: nN; nF; nS] (one b) (fun _ => g b) (fun t b => sig_at nF nN nS t b)) ->
  separately nN nF nS B res one.
Proof.
rewrite /separately; case: res => [Y [sY hY]|e [b hb he]] h; last first.
  exists b => //; have := h b hb; rewrite /lifts; case: (one b) => [Y1 [_ /(_ [::] isT)]|e' [i _]]; by rewrite he // => -[->].
split=> // b hb; have := h b hb; have e := hY b hb; case: (one b) => [Y1 [s1 /(_ [::] isT)]|e' [i _]]; last by rewrite e.
rewrite e => -[eq]; exists Y1; split=> // n f s hn hf hs.
have := congr1 (fun x : {ffun 'I_nF -> 'M[C]_(nS, nN)} => x (Ordinal hf) (Ordinal hs) (Ordinal hn)) eq; by rewrite !sigE.
Qed.
Lemma alone_sh nN nF nC B (X : tensor C) b : sh X = [:: nN, nF, nC & B] -> sh (alone X b) = [:: nN; nF; nC].
Proof. by rewrite /= => ->; rewrite /= take0. Qed.
Lemma alone_sig nF nN nC (X : tensor C) b : sig_at nF nN nC (alone X b) [::] = sig_at nF nN nC X b.
Proof. by apply/ffunP => f; apply/matrixP => c n; rewrite !sigE. Qed.
Lemma alone_lift nN nF nC nS (X : tensor C) b (one : result (tensor C)) (g : {ffun 'I_nF -> 'M[C]_(nC, nN)} -> result {ffun 'I_nF -> 'M[C]_(nS, nN)}) :
  lifts [::] [:: nN; nF; nS] one (fun b' => g (sig_at nF nN nC (alone X b) b')) (fun t b => sig_at nF nN nS t b) ->
  lifts [::] [:: nN; nF; nS] one (fun _ => g (sig_at nF nN nC X b)) (fun t b => sig_at nF nN nS t b).
Proof. by apply: eq_lifts => -[|//] _; rewrite alone_sig. Qed.
End Sep.

Section Runs.
Variable C : numClosedFieldType.
Variable eighO : forall n, eigh_oracle C n.
Local Notation tensor := (tensor C).
Variables (N F S : nat) (B : seq nat).
Hypothesis ne : exists b, inr B b.
Lemma ne0 : exists b, inr [::] b. Proof. by exists [::]. Qed.
Lemma wpe_alone c T dl (X : tensor) tm tm1 om eps n_iter : sh X = [:: N, F, c & B] ->
  weights_as (nF := F) (nN := N) (nC := c) B tm om -> weights_as [::] tm1 om ->
  separately N F c B (t_wpe_forward n_iter dl T tm eps X) (fun b => t_wpe_forward n_iter dl T tm1 eps (alone X b)).
Proof.
move=> sX h0 h1.
have h2 := (@wpe_batch _ _ _ _ T dl _ _ sX tm om eps h0 ne n_iter).
refine (separately_of h2 _) => b hb.
apply: (@alone_lift _ N F c c X b _ (fun x => rmap fst (wpe_forward T dl (omap (fun m (_ : unit) Y => (m Y, tt)) om) x eps n_iter tt))).
exact: (@wpe_batch _ _ _ _ T dl _ _ (alone_sh b sX) tm1 om eps h1 ne0 n_iter).
Qed.
Section Masks.
Variables (k : nat) (z : Z) (X : tensor).
Hypothesis vz : TorchShape.valid k.+1 z.
Hypothesis sX : sh X = [:: N, F, k.+1 & B].
Variables (nM : nat) (tm tm1 : tensor -> result tensor) (mm : mask_model C S F N).
Hypothesis hm : masks_as nM B tm mm.
Hypothesis hm1 : masks_as nM [::] tm1 mm.
Let ref : 'I_k.+1 := Ordinal (zidx_lt vz).
Lemma mvdr_alone ty eps p : separately N F S B (t_mvdr_forward eighO tm ty z eps p X) (fun b => t_mvdr_forward eighO tm1 ty z eps p (alone X b)).
Proof.
have h2 := (mvdr_batch eighO vz (erefl : zidx k.+1 z = ref) sX hm ne ty eps p).
refine (separately_of h2 _) => b hb.
apply: (@alone_lift _ N F k.+1 S X b _ (fun x => mvdr_forward eighO x mm ref eps ty p)).
exact: (mvdr_batch eighO vz (erefl : zidx k.+1 z = ref) (alone_sh b sX) hm1 ne0 ty eps p).
Qed.
Lemma mwf_alone ti : separately N F S B (t_mwf_forward tm ti z X) (fun b => t_mwf_forward tm1 ti z (alone X b)).
Proof.
have h2 := (mwf_batch vz (erefl : zidx k.+1 z = ref) sX hm ne ti 0).
refine (separately_of h2 _) => b hb.
apply: (@alone_lift _ N F k.+1 S X b _ (fun x => mwf_forward x mm ref 0 ti)).
exact: (mwf_batch vz (erefl : zidx k.+1 z = ref) (alone_sh b sX) hm1 ne0 ti 0).
Qed.
Lemma gev_alone : separately N F S B (t_gev_forward eighO tm z X) (fun b => t_gev_forward eighO tm1 z (alone X b)).
Proof.
have h2 := (gev_batch eighO vz (erefl : zidx k.+1 z = ref) sX hm ne).
refine (separately_of h2 _) => b hb.
apply: (@alone_lift _ N F k.+1 S X b _ (fun x => gev_forward eighO x mm ref)).
exact: (gev_batch eighO vz (erefl : zidx k.+1 z = ref) (alone_sh b sX) hm1 ne0).
Qed.
End Masks.
End Runs.

(* ---- batches that do not fail, and one element that makes a batch fail *)
Section Total.
Variable C : numClosedFieldType.
Variable eighO : forall n, eigh_oracle C n.
Local Notation tensor := (tensor C).
Lemma lifts_total (U : Type) r s (res : result tensor) (g : seq nat -> result U) rd :
  lifts r s res g rd -> (forall i, inr r i -> exists x, g i = Ok x) -> exists2 t, res = Ok t & sh t = s.
Proof.
case: res => [t [st _] _|e [i hi he] h]; first by exists t.
by have [x] := h i hi; rewrite he.
Qed.
Lemma wpe_batch_total N F c B T dl (X : tensor) eps n_iter : (exists b, inr B b) -> (0 < c * T)%N -> 0 < eps ->
  sh X = [:: N, F, c & B] -> exists2 Y, t_wpe_forward n_iter dl T None eps X = Ok Y & sh Y = [:: N, F, c & B].
Proof.
move=> ne cT e0 sX.
apply: (lifts_total (@wpe_batch _ _ _ _ T dl _ _ sX None None eps I ne n_iter)) => b hb.
case: n_iter => [|n]; first by eexists.
have [|Y [[] [Y' [[] [h [_ h2 _ _]]]]]] := @WpeBridge.c34_lemma C c F T dl N unit None (sig_at F N c X b) eps n tt cT e0; first by [].
by exists Y'; rewrite /= h2.
Qed.
Section Masks.
Variables (N F S k : nat) (B : seq nat) (z : Z) (X : tensor).
Hypothesis ne : exists b, inr B b.
Hypothesis vz : TorchShape.valid k.+1 z.
Hypothesis sX : sh X = [:: N, F, k.+1 & B].
Variables (nM : nat) (tm : tensor -> result tensor) (mm : mask_model C S F N).
Hypothesis hm : masks_as nM B tm mm.
Let ref : 'I_k.+1 := Ordinal (zidx_lt vz).
Lemma mwf_batch_total : (1 < nM)%N -> (forall x i, BeamSpec.nonneg (nth (fun _ _ => 0) (mm x) i)) ->
  exists2 Y, t_mwf_forward tm true z X = Ok Y & sh Y = [:: N, F, S & B].
Proof.
move=> n1 pos; apply: (lifts_total (mwf_batch vz (erefl : zidx k.+1 z = ref) sX hm ne true 0)) => b hb.
have [x [M [_ _ _ sz _]]] := masks_at vz (erefl : zidx k.+1 z = ref) sX hm.
have := sz b hb; case E: (mm _) => [|m1 [|m2 l]] /=; [by move=> h; rewrite -h in n1..|move=> _].
have p i : BeamSpec.nonneg (nth (fun _ _ => 0) [:: m1, m2 & l] i) by rewrite -E; exact: pos.
by have [w [Y [-> _ _]]] := BeamForward.mwf_ti 0 E (p 0%N) (p 1%N); exists Y.
Qed.
Lemma mvdr_scm_batch_silent eps p b (f : 'I_F) (s : 'I_S) : nM = 2%N -> inr B b -> sig_at F N k.+1 X b f = 0 ->
  t_mvdr_forward eighO tm Scm z eps p X = Err LinAlgError.
Proof.
move=> n2 hb hf; have [x [M [_ _ _ sz _]]] := masks_at vz (erefl : zidx k.+1 z = ref) sX hm.
have ml b' : inr B b' -> exists m1 m2, mm (ref_channel (sig_at F N k.+1 X b') ref) = [:: m1; m2].
  by move=> h; have := sz b' h; rewrite n2; case: (mm _) => [|m1 [|m2 [|]]] // _; exists m1, m2.
have := mvdr_batch eighO vz (erefl : zidx k.+1 z = ref) sX hm ne Scm eps p; case: (t_mvdr_forward _ _ _ _ _ _ _) => [Y [_ /(_ b hb)]|e [b' hb' he]].
  by have [m1 [m2 E]] := ml b hb; rewrite (BeamForward.mvdr_scm_silent eighO eps p s E hf).
have [m1 [m2 E]] := ml b' hb'; move: he; rewrite /mvdr_forward E; case G: (gather _ _) => [W|e'] //= [<-]; congr Err.
by have [[s' f']] := gather_err_inv G; exact: bf2_err.
Qed.
End Masks.
End Total.

(* two masks of ones for a single source *)
Section Ones.
Variable C : numClosedFieldType.
Definition ones (x : tensor C) : result (tensor C) :=
  if sh x is n :: f :: B then Ok (mkT [:: n, f, 2, 1 & B]%N (fun _ => 1)) else Err IndexError.
Definition ones_masks F N : mask_model C 1 F N := fun _ => [:: fun _ _ => const_mx 1; fun _ _ => const_mx 1].
Lemma ones_as F N B : masks_as 2 B ones (@ones_masks F N).
Proof.
move=> x sx; rewrite /ones sx; eexists; split; [reflexivity|by []|] => b hb; split=> // i s f n.
by case: i => [|[|i]] //= _; rewrite mxE.
Qed.
(* 3 x 2 signals of two microphones, five frequencies and four frames *)
Definition ramp : tensor C := mkT [:: 4; 5; 2; 2; 3]%N (fun i => (sumn i)%:R).
(* one microphone, frame and frequency; the first element of the batch is silent *)
Definition half_silent : tensor C := mkT [:: 1; 1; 1; 2]%N (fun i => if last 0%N i == 0%N then 0 else 1).
Lemma half_silent_fails eighO eps p : t_mvdr_forward eighO ones Scm Z0 eps p half_silent = Err LinAlgError.
Proof.
apply: (@mvdr_scm_batch_silent C eighO 1 1 1 0 [:: 2]%N Z0 half_silent _ _ _ 2 ones _ (@ones_as 1 1 [:: 2]%N) eps p [:: 0]%N 0 0) => //.
  by exists [:: 0]%N.
by apply/matrixP => i j; rewrite sigE mxE.
Qed.
Lemma half_silent_good eighO eps p : exists Y, t_mvdr_forward eighO ones Scm Z0 eps p (alone half_silent [:: 1]%N) = Ok Y.
Proof.
have v : TorchShape.valid 1 Z0 by [].
have [||Y e _] := lifts_total (@mvdr_batch C eighO 0 1 1 1 [::] Z0 0 v erefl (alone half_silent [:: 1]%N) erefl 2 ones _ (@ones_as 1 1 [::]) _ Scm eps p); last by exists Y.
  by exists [::].
case=> [|//] _; rewrite /mvdr_forward; cbn [ones_masks].
set g := (X in gather 0 X).
have [|bf [-> _]] := @BeamForward.gather_pick _ 0 _ g (fun _ _ => True); last by eexists.
move=> [s f]; rewrite /g /compute_mvdr_bf2 /torch_solve.
have -> : cov (const_mx 1) (sig_at 1 1 1 (alone half_silent [:: 1%N]) [::] f) \in unitmx.
  by rewrite unitmxE det_mx11 mxE big_ord1 sigE /= mxE conjC1 !mulr1 unitr1.
by eexists.
Qed.
End Ones.
