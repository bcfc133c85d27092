From mathcomp Require Import all_ssreflect all_algebra.
From Verif Require Import CAlg Py Batch LinalgModel LinalgProofs TissModel PhaseSpec PhaseProofs.
Set Implicit Arguments. Unset Strict Implicit. Unset Printing Implicit Defensive.
Import GRing.Theory Num.Theory Order.TTheory.
Local Open Scope ring_scope.
Local Open Scope py_scope.

Section More.
Variable C : numClosedFieldType.
Lemma row_rot m n (d : 'I_m -> C) (e : 'I_n -> C) (A : 'M[C]_(m, n)) i :
  row i (rot d e A) = rot (fun=> d i) e (row i A).
Proof. by apply/matrixP=> x j; rewrite !mxE. Qed.
Lemma lsub_rot m n p (d : 'I_m -> C) (e : 'I_(n + p) -> C) (A : 'M[C]_(m, n + p)) :
  lsubmx (rot d e A) = rot d (fun j => e (lshift p j)) (lsubmx A).
Proof. by apply/matrixP=> i j; rewrite !mxE. Qed.
Lemma rsub_rot m n p (d : 'I_m -> C) (e : 'I_(n + p) -> C) (A : 'M[C]_(m, n + p)) :
  rsubmx (rot d e A) = rot d (fun j => e (rshift n j)) (rsubmx A).
Proof. by apply/matrixP=> i j; rewrite !mxE. Qed.
Lemma usub_rot m n p (d : 'I_(m + n) -> C) (e : 'I_p -> C) (A : 'M[C]_(m + n, p)) :
  usubmx (rot d e A) = rot (fun j => d (lshift n j)) e (usubmx A).
Proof. by apply/matrixP=> i j; rewrite !mxE. Qed.
Lemma dsub_rot m n p (d : 'I_(m + n) -> C) (e : 'I_p -> C) (A : 'M[C]_(m + n, p)) :
  dsubmx (rot d e A) = rot (fun j => d (rshift m j)) e (dsubmx A).
Proof. by apply/matrixP=> i j; rewrite !mxE. Qed.
Lemma row_mx_rot m n p (d : 'I_m -> C) (e : 'I_(n + p) -> C) (A : 'M[C]_(m, n)) (B : 'M[C]_(m, p)) :
  row_mx (rot d (fun j => e (lshift p j)) A) (rot d (fun j => e (rshift n j)) B) = rot d e (row_mx A B).
Proof.
apply/matrixP=> i j; rewrite -(splitK j); case: (split j) => k /=.
  by rewrite !(row_mxEl, rotE).
by rewrite !(row_mxEr, rotE).
Qed.
Lemma col_mx_rot m n p (d : 'I_(m + n) -> C) (e : 'I_p -> C) (A : 'M[C]_(m, p)) (B : 'M[C]_(n, p)) :
  col_mx (rot (fun j => d (lshift n j)) e A) (rot (fun j => d (rshift m j)) e B) = rot d e (col_mx A B).
Proof.
apply/matrixP=> i j; rewrite -(splitK i); case: (split i) => k /=.
  by rewrite !(col_mxEu, rotE).
by rewrite !(col_mxEd, rotE).
Qed.
Lemma delta_rot m n (d : 'I_m -> C) (e : 'I_n -> C) i j : d i * (e j)^* = 1 ->
  rot d e (delta_mx i j) = delta_mx i j.
Proof.
move=> h; apply/matrixP=> x y; rewrite !mxE; case: andP => [[/eqP -> /eqP ->]|_].
  by rewrite mulr1 h.
by rewrite mulr0 mul0r.
Qed.
Lemma bind_rmap A B D (r : result A) (g : A -> B) (h : B -> result D) :
  bind (rmap g r) h = bind r (fun x => h (g x)).
Proof. by case: r. Qed.
Lemma rmap_bind A B D (r : result A) (h : A -> result B) (g : B -> D) :
  rmap g (bind r h) = bind r (fun x => rmap g (h x)).
Proof. by case: r. Qed.
Lemma eq_bind A B (r : result A) (h h' : A -> result B) : (forall x, h x = h' x) -> bind r h = bind r h'.
Proof. by case: r => //= a ->. Qed.
Lemma gather_rmap (I : finType) T (d : T) (g : I -> result T) (h : I -> T -> T) :
  gather d (fun f => rmap (h f) (g f)) = rmap (fun r : {ffun I -> T} => [ffun f => h f (r f)]) (gather d g).
Proof.
case E: (gather d g) => [r|e] /=.
  by have h0 := gather_inv E; rewrite (gather_ok _ (h := fun f => h f (r f))) // => f; rewrite h0.
move: E; rewrite /gather.
have -> : pmap (@err_of T) [seq rmap (h f) (g f) | f <- enum I] = pmap (@err_of T) [seq g f | f <- enum I].
  by elim: (enum I) => //= a l ->; case: (g a).
by case: (pmap _ _).
Qed.
Lemma eq_gather (I : finType) T (d : T) (g g' : I -> result T) : (forall f, g f = g' f) -> gather d g = gather d g'.
Proof.
move=> h; rewrite /gather (eq_map h); case: (pmap _ _) => //; congr Ok; apply/ffunP => f; by rewrite !ffunE h.
Qed.
End More.

Section PT.
Variable C : numClosedFieldType.
Add Field CfieldPT : (f_ft C).
Ltac cring C := fpre; fnorm C; fatoms; ring.
Variables (nS nB nF nT dl nN : nat).
Local Notation nC := (nS + nB)%N.
Local Notation sig := (sig C nF nN).
Local Notation one := (@one C nN).

Section Freq.
Variable D : 'I_nC -> C.
Hypothesis hD : unimod D.
Local Notation dS := (fun s => D (lshift nB s)).
Local Notation dB := (fun b => D (rshift nS b)).
Lemma uS : unimod dS. Proof. by move=> i; exact: hD. Qed.
Lemma uB : unimod dB. Proof. by move=> i; exact: hD. Qed.
Lemma uK c n : unimod (fun _ : 'I_n => D c). Proof. by move=> i; exact: hD. Qed.
Hint Resolve uS uB uni_one : core.

Lemma num_rot (wt y z : 'I_nN -> C) a b :
  \sum_n wt n * (a * y n) * (b * z n)^* = a * (\sum_n wt n * y n * (z n)^*) * b^*.
Proof. rewrite mulr_sumr mulr_suml; apply: eq_bigr => n _; rewrite rmorphM /=; cring C. Qed.
Lemma den_rot m (d : 'I_m -> C) (wt : 'I_nN -> C) (Y : 'M[C]_(m, nN)) c : unimod d ->
  \sum_n wt n * mag_sq (rot d one Y c n) = \sum_n wt n * mag_sq (Y c n).
Proof. by move=> hd; apply: eq_bigr => n _; rewrite (@mag_sq_norm _ _ (Y c n)) // norm_rot. Qed.
Lemma rot1E m (d : 'I_m -> C) (Y : 'M[C]_(m, nN)) c n : rot d one Y c n = d c * Y c n.
Proof. by rewrite rotE /PhaseProofs.one conjC1 mulr1. Qed.
Lemma iss1_rot src (Y w : 'M[C]_(nS, nN)) eps :
  iss1 src (rot dS one Y) w eps = rot dS (fun=> dS src) (iss1 src Y w eps).
Proof.
apply/matrixP=> c j; rewrite [RHS]rotE /iss1 [LHS]mxE [in RHS]mxE !den_rot //.
case: eqP => [->|_]; first by rewrite mulrAC uni_mulr ?mul1r.
under eq_bigr => n _ do rewrite !rot1E.
rewrite num_rot /divide; set S := \sum_n _; set T := clamp _ _; cring C.
Qed.
Lemma iss23_rot c0 (Y w : 'M[C]_(nS, nN)) (z : 'rV[C]_nN) eps : `|c0| = 1 ->
  iss23 (rot dS one Y) w (rot (fun=> c0) one z) eps = rot dS (fun=> c0) (iss23 Y w z eps).
Proof.
move=> h; apply/matrixP=> c j; rewrite [RHS]rotE /iss23 [LHS]mxE [in RHS]mxE den_rot //.
under eq_bigr => n _ do rewrite !rot1E.
rewrite num_rot /divide; set S := \sum_n _; set T := clamp _ _; cring C.
Qed.

Local Notation issst := (issst C nS nB nT nN).
Definition rotst (st : issst) : issst :=
  let: (Y, W, H) := st in (rot dS one Y, rot dS D W, [ffun t => rot dS D (H t)]).
Lemma step1_rot w eps st src : step1 w eps (rotst st) src = rotst (step1 w eps st src).
Proof.
case: st => [[Y W] H]; rewrite /step1 /rotst iss1_rot; congr (_, _, _).
- by rewrite row_rot rotM ?rotB //; exact: uK.
- by rewrite row_rot rotM ?rotB //; exact: uK.
- by apply/ffunP => t; rewrite !ffunE row_rot rotM ?rotB //; exact: uK.
Qed.
Lemma step2_rot w eps Z J st bak :
  step2 w eps (rot dB one Z) (rot dB dS J) (rotst st) bak = rotst (step2 w eps Z J st bak).
Proof.
case: st => [[Y W] H]; rewrite /step2 /rotst row_rot iss23_rot; last exact: hD.
congr (_, _, _).
- by rewrite rotM ?rotB //; exact: uK.
- rewrite row_rot rotM; last exact: uK.
  have -> : delta_mx 0 bak = rot (fun=> dB bak) dB (delta_mx 0 bak) :> 'rV[C]_nB.
    by rewrite delta_rot // uni_mulr.
  rewrite rotM; last exact: uK.
  rewrite [in RHS]delta_rot; last by rewrite uni_mulr.
  by rewrite -row_mx_rot lsub_rot rsub_rot rotB rotD.
Qed.
Lemma step3_rot w eps (Xb : taps C nT nC nN) st ct :
  step3 w eps [ffun t => rot D one (Xb t)] (rotst st) ct = rotst (step3 w eps Xb st ct).
Proof.
case: st ct => [[Y W] H] [src tap]; rewrite /step3 /rotst !ffunE row_rot iss23_rot; last exact: hD.
congr (_, _, _).
- by rewrite rotM ?rotB //; exact: uK.
- apply/ffunP => t; rewrite !ffunE; case: ifP => // _.
  have -> : delta_mx 0 src = rot (fun=> D src) D (delta_mx 0 src) :> 'rV[C]_nC.
    by rewrite delta_rot // uni_mulr.
  rewrite rotM; last exact: uK.
  by rewrite [in RHS]delta_rot ?rotD // uni_mulr.
Qed.
Lemma foldl_rot (A B : Type) (r : A -> A) (g g' : A -> B -> A) l x :
  (forall x b, g' (r x) b = r (g x b)) -> foldl g' (r x) l = r (foldl g x l).
Proof. by move=> h; elim: l x => //= b l IH x; rewrite h IH. Qed.
Lemma iss_updates_rot w eps Z J (Xb : taps C nT nC nN) st :
  iss_updates w eps (rot dB one Z) (rot dB dS J) [ffun t => rot D one (Xb t)] (rotst st) =
  rotst (iss_updates w eps Z J Xb st).
Proof.
rewrite /iss_updates (@foldl_rot _ _ rotst (step1 w eps)); last by move=> *; exact: step1_rot.
rewrite (@foldl_rot _ _ rotst (step2 w eps Z J)); last by move=> *; exact: step2_rot.
by rewrite (@foldl_rot _ _ rotst (step3 w eps Xb)); last by move=> *; exact: step3_rot.
Qed.

Lemma background_f_rot Wf (Hf : taps C nT nS nC) CXX CXbX eps :
  background_f (rot dS D Wf) [ffun t => rot dS D (Hf t)] (rot D D CXX) (fun t => rot D D (CXbX t)) eps =
  rmap (rot dB dS) (background_f Wf Hf CXX CXbX eps).
Proof.
rewrite /background_f rotM //.
have -> : \sum_t [ffun t => rot dS D (Hf t)] t *m rot D D (CXbX t) = rot dS D (\sum_t Hf t *m CXbX t).
  by rewrite rot_sum; apply: eq_bigr => t _; rewrite ffunE rotM.
rewrite -rotD lsub_rot rsub_rot rot_slg // bind_rmap rmap_bind; apply: eq_bind => JH /=.
by rewrite ctr_rot.
Qed.

Lemma pb_f_rot Wf Jf ref : 
  pb_f (rot dS D Wf) (rot dB dS Jf) ref = rmap (rot (cj dS) (fun=> (D ref)^*)) (pb_f Wf Jf ref).
Proof.
rewrite /pb_f; have hc : unimod (cj dS) by exact: uni_cj.
case: ifP => _.
  rewrite lsub_rot rsub_rot rotM // -rotD tr_rot.
  have -> : match split ref with inl r => delta_mx r 0 : 'cV[C]_nS | inr r => (row r (rot dB dS Jf))^T end =
            rot (cj dS) (fun=> (D ref)^*) (match split ref with inl r => delta_mx r 0 : 'cV[C]_nS | inr r => (row r Jf)^T end).
    rewrite -{2}(splitK ref); case: (split ref) => r /=.
      by rewrite delta_rot // conjCK uni_mul.
    by rewrite row_rot tr_rot.
  by rewrite rot_slg.
rewrite lsub_rot tr_rot.
have e : match split ref with inl r => delta_mx r 0 : 'cV[C]_nS | inr _ => 0 end =
          rot (cj dS) (fun=> (D ref)^*) (match split ref with inl r => delta_mx r 0 : 'cV[C]_nS | inr _ => 0 end).
  rewrite -{2}(splitK ref); case: (split ref) => r /=; last by rewrite rot0.
  by rewrite delta_rot // conjCK uni_mul.
by rewrite [in LHS]e rot_slg.
Qed.
End Freq.

Lemma delayedF m (X : sig m) f t : delayed nT dl X f t = \matrix_(c, n) xpad nT dl (X f) c (t + n).
Proof. by rewrite /delayed !ffunE. Qed.
Lemma demix_backgroundF (X : sig nC) (J : filt C nF nB nS) f : demix_background X J f = J f *m usubmx (X f) - dsubmx (X f).
Proof. by rewrite ffunE. Qed.
Lemma background_f_ext Wf (Hf : taps C nT nS nC) CXX g g' eps : g =1 g' ->
  background_f Wf Hf CXX g eps = background_f Wf Hf CXX g' eps :> result 'M[C]_(nB, nS).
Proof.
move=> h; rewrite /background_f; have -> // : \sum_t Hf t *m g t = \sum_t Hf t *m g' t.
by apply: eq_bigr => t _; rewrite h.
Qed.

Section Loop.
Variable D : 'I_nF -> 'I_nC -> C.
Hypothesis hD : phases D.
Variable St : Type.
Variable model : St -> sig nS -> sig nS * St.
Hypothesis hM : magnitude_model model.
Variables (X : sig nC) (eps : C).
Local Notation dS f := (fun s => D f (lshift nB s)).
Local Notation dB f := (fun b => D f (rshift nS b)).
Local Notation X' := (rotate D X).
Local Notation st := (st C nS nB nF nT nN St).
Lemma uD f : unimod (D f). Proof. exact: hD. Qed.
Lemma uDS f : unimod (dS f). Proof. by move=> i; exact: hD. Qed.
Lemma uDB f : unimod (dB f). Proof. by move=> i; exact: hD. Qed.
Hint Resolve uD uDS uDB uni_one : core.

Definition rotY (Y : sig nS) : sig nS := [ffun f => rot (dS f) one (Y f)].
Definition rotW (W : filt C nF nS nC) : filt C nF nS nC := [ffun f => rot (dS f) (D f) (W f)].
Definition rotH (H : tfilt C nF nT nS nC) : tfilt C nF nT nS nC := [ffun f => [ffun t => rot (dS f) (D f) (H f t)]].
Definition rotJ (J : filt C nF nB nS) : filt C nF nB nS := [ffun f => rot (dB f) (dS f) (J f)].
Definition rotS (x : st) : st := let: mkst Y W H J m := x in mkst (rotY Y) (rotW W) (rotH H) (rotJ J) m.

Lemma rotateE f : X' f = rot (D f) one (X f).
Proof. by apply/matrixP=> c n; rewrite ffunE rot1E mxE. Qed.
Lemma delayed_rot f : delayed nT dl X' f = [ffun t => rot (D f) one (delayed nT dl X f t)].
Proof.
apply/ffunP => t; rewrite [RHS]ffunE !delayedF rotateE.
apply/matrixP=> c n; rewrite rot1E !mxE /xpad; case: ifP => _; first by rewrite mulr0.
by rewrite /rowget; case: insubP => [k _ _|_]; rewrite ?mulr0 // rot1E.
Qed.
Lemma num_rot1 (y z : 'I_nN -> C) a b :
  \sum_n (a * y n) * (b * z n)^* = a * (\sum_n y n * (z n)^*) * b^*.
Proof. rewrite mulr_sumr mulr_suml; apply: eq_bigr => n _; rewrite rmorphM /=; cring C. Qed.
Lemma C_XX_rot f : C_XX X' f = rot (D f) (D f) (C_XX X f).
Proof.
apply/matrixP=> c d; rewrite rotE /C_XX [LHS]mxE [in RHS]mxE rotateE.
under eq_bigr => n _ do rewrite !rot1E.
rewrite num_rot1; set S := \sum_n _; cring C.
Qed.
Lemma C_XbarX_rot f t : C_XbarX X' (delayed nT dl X') f t = rot (D f) (D f) (C_XbarX X (delayed nT dl X) f t).
Proof.
apply/matrixP=> c d; rewrite rotE /C_XbarX [LHS]mxE [in RHS]mxE delayed_rot rotateE.
under eq_bigr => n _ do rewrite ffunE !rot1E.
rewrite num_rot1; set S := \sum_n _; cring C.
Qed.
Lemma background_update_rot W H e :
  background_update (rotW W) (rotH H) X' (delayed nT dl X') e =
  rmap rotJ (background_update W H X (delayed nT dl X) e).
Proof.
rewrite /background_update /rotJ -(gather_rmap _ _ (fun f => rot (dB f) (dS f))).
apply: eq_gather => f; rewrite -background_f_rot // !ffunE C_XX_rot.
by apply: background_f_ext => t; exact: C_XbarX_rot.
Qed.
Lemma demix_background_rot J : demix_background X' (rotJ J) = [ffun f => rot (dB f) one (demix_background X J f)].
Proof.
by apply/ffunP => f; rewrite [RHS]ffunE !demix_backgroundF rotateE ffunE usub_rot dsub_rot rotM // rotB.
Qed.
Lemma gain_rot (Y : sig nS) s : gain eps (rotY Y) s = gain eps Y s.
Proof.
rewrite /gain; congr (clamp (_ / _) _); apply: eq_bigr => f _; apply: eq_bigr => n _.
by rewrite (@mag_sq_norm _ _ (Y f s n)) // ffunE norm_rot.
Qed.
Lemma rotY_mag (Y : sig nS) : same_mag (rotY Y) Y.
Proof. by move=> f s n; rewrite ffunE norm_rot. Qed.
Lemma scale_rot m n (d : 'I_m -> C) (e : 'I_n -> C) (g : 'I_m -> C) (A : 'M[C]_(m, n)) ep :
  \matrix_(s, c) divide (rot d e A s c) (g s) ep = rot d e (\matrix_(s, c) divide (A s c) (g s) ep).
Proof. apply/matrixP=> s c; rewrite mxE !rotE mxE /divide; cring C. Qed.
Lemma one_iter_rot x : one_iter dl model X' eps (rotS x) = rmap rotS (one_iter dl model X eps x).
Proof.
case: x => Y W H J m; rewrite /one_iter /=.
rewrite (hM m (rotY_mag Y)); case: (model m Y) => w m'.
have -> : [ffun f => \matrix_(s, n) divide (rotY Y f s n) (sqrtC (gain eps (rotY Y) s)) eps] =
   rotY [ffun f => \matrix_(s, n) divide (Y f s n) (sqrtC (gain eps Y s)) eps].
  apply/ffunP => f; rewrite !ffunE -scale_rot; apply/matrixP=> s n; by rewrite !mxE gain_rot.
have -> : [ffun f => \matrix_(s, c) divide (rotW W f s c) (sqrtC (gain eps (rotY Y) s)) eps] =
   rotW [ffun f => \matrix_(s, c) divide (W f s c) (sqrtC (gain eps Y s)) eps].
  apply/ffunP => f; rewrite !ffunE -scale_rot; apply/matrixP=> s n; by rewrite !mxE gain_rot.
have -> : [ffun f => [ffun t => \matrix_(s, c) divide (rotH H f t s c) (sqrtC (gain eps (rotY Y) s)) eps]] =
   rotH [ffun f => [ffun t => \matrix_(s, c) divide (H f t s c) (sqrtC (gain eps Y s)) eps]].
  apply/ffunP => f; rewrite !ffunE; apply/ffunP => t; rewrite !ffunE -scale_rot.
  apply/matrixP=> s n; by rewrite !mxE gain_rot.
have -> : [ffun f => \matrix_(s, n) (w f s n * gain eps (rotY Y) s)] =
          [ffun f => \matrix_(s, n) (w f s n * gain eps Y s)] :> sig nS.
  apply/ffunP => f; rewrite !ffunE; apply/matrixP=> s n; by rewrite !mxE gain_rot.
set Y1 := [ffun f => \matrix_(s, n) divide (Y f s n) _ _]; set W1 := [ffun f => \matrix_(s, c) divide (W f s c) _ _].
set H1 := [ffun f => [ffun t => _]]; set w1 := [ffun f => \matrix_(s, n) (_ * _)].
have -> : (if (0 < nB)%N then background_update (rotW W1) (rotH H1) X' (Xb nT dl X') (eps_bg C) else Ok (rotJ J)) =
   rmap rotJ (if (0 < nB)%N then background_update W1 H1 X (Xb nT dl X) (eps_bg C) else Ok J).
  by case: ifP => _ //; exact: background_update_rot.
rewrite bind_rmap rmap_bind; apply: eq_bind => J1.
case: ifP => // _ /=; congr Ok.
have E f : iss_updates (w1 f) eps (demix_background X' (rotJ J1) f) (rotJ J1 f) (Xb nT dl X' f)
      (rotY Y1 f, rotW W1 f, rotH H1 f) =
   rotst (D f) (iss_updates (w1 f) eps (demix_background X J1 f) (J1 f) (Xb nT dl X f) (Y1 f, W1 f, H1 f)).
  by rewrite demix_background_rot /Xb delayed_rot -iss_updates_rot // /rotst !ffunE.
congr mkst.
- apply/ffunP => f; rewrite [LHS]ffunE [X in X.1.1]ffunE E [RHS]ffunE [X in rot _ _ X]ffunE [X in rot _ _ X.1.1]ffunE.
  by case: (iss_updates _ _ _ _ _ _) => [[a b] c].
- apply/ffunP => f; rewrite [LHS]ffunE [X in X.1.2]ffunE E [RHS]ffunE [X in rot _ _ X]ffunE [X in rot _ _ X.1.2]ffunE.
  by case: (iss_updates _ _ _ _ _ _) => [[a b] c].
- apply/ffunP => f; rewrite [LHS]ffunE [X in X.2]ffunE E [RHS]ffunE; apply/ffunP => t.
  have F (r : {ffun 'I_nF -> issst C nS nB nT nN}) : [ffun f => (r f).2] f = (r f).2 by rewrite ffunE.
  rewrite [RHS]ffunE F; set r := finfun _; have -> : r f = iss_updates (w1 f) eps (demix_background X J1 f) (J1 f)
    (Xb nT dl X f) (Y1 f, W1 f, H1 f) by rewrite /r ffunE.
  by case: (iss_updates _ _ _ _ _ _) => [[a b] c]; rewrite ffunE.
Qed.
Lemma iterate_rot (body body' : st -> result st) n x : (forall x, body' (rotS x) = rmap rotS (body x)) ->
  iterate body' n (rotS x) = rmap rotS (iterate body n x).
Proof.
move=> h; elim: n x => //= n IH x; rewrite h bind_rmap rmap_bind; apply: eq_bind => y; exact: IH.
Qed.
Lemma eyeW_rot : rotW (eyeW C nS nB nF) = eyeW C nS nB nF.
Proof.
apply/ffunP => f; rewrite !ffunE -row_mx_rot rot0; congr row_mx; exact: rot1.
Qed.
Lemma zeroH_rot : rotH (zeroH C nS nB nF nT) = zeroH C nS nB nF nT.
Proof. by apply/ffunP => f; rewrite !ffunE; apply/ffunP => t; rewrite !ffunE rot0. Qed.
Lemma demix_derevF W (H : tfilt C nF nT nS nC) (Y : sig nC) Yb f : demix_derev Y Yb W H f = W f *m Y f - \sum_t H f t *m Yb f t :> 'M[C]_(nS, nN).
Proof.
apply/matrixP=> s n; rewrite ffunE mxBE summxE !mxE exchange_big /=; congr (_ - _).
by apply: eq_bigr => t _; rewrite mxE.
Qed.
Lemma demix_derev_rot W H :
  demix_derev X' (Xb nT dl X') (rotW W) (rotH H) = rotY (demix_derev X (Xb nT dl X) W H).
Proof.
apply/ffunP => f; rewrite [RHS]ffunE !demix_derevF rotateE rotB rot_sum ffunE rotM //; congr (_ - _).
by apply: eq_bigr => t _; rewrite /Xb delayed_rot !ffunE rotM.
Qed.
Lemma init_rot m0 : init nT dl X' eps m0 = rmap rotS (init nT dl X eps m0).
Proof.
rewrite /init -{1}eyeW_rot -{1}zeroH_rot.
have -> : (if (0 < nB)%N then background_update (rotW (eyeW C nS nB nF)) (rotH (zeroH C nS nB nF nT)) X' (Xb nT dl X') eps
           else Ok [ffun=> 0]) =
   rmap rotJ (if (0 < nB)%N then background_update (eyeW C nS nB nF) (zeroH C nS nB nF nT) X (Xb nT dl X) eps
              else Ok [ffun=> 0]).
  case: ifP => _; first exact: background_update_rot.
  by congr Ok; apply/ffunP => f; rewrite !ffunE rot0.
rewrite bind_rmap rmap_bind; apply: eq_bind => J /=; congr Ok.
by rewrite -{1}eyeW_rot -{1}zeroH_rot demix_derev_rot eyeW_rot zeroH_rot.
Qed.
Lemma one_iter_dmc_rot x : one_iter_dmc dl model X' eps (rotS x) = rmap rotS (one_iter_dmc dl model X eps x).
Proof.
case: x => Y W H J m; rewrite /one_iter_dmc /rotS demix_derev_rot.
rewrite (one_iter_rot (mkst (demix_derev X (Xb nT dl X) W H) W H J m)) bind_rmap rmap_bind.
by apply: eq_bind => -[].
Qed.
Lemma forward_raw_rot n_iter use_dmc m0 :
  forward_raw nT dl model X' eps n_iter use_dmc m0 = rmap rotS (forward_raw nT dl model X eps n_iter use_dmc m0).
Proof.
rewrite /forward_raw init_rot bind_rmap rmap_bind; apply: eq_bind => x; case: use_dmc.
  rewrite (iterate_rot (body := one_iter_dmc dl model X eps)); last exact: one_iter_dmc_rot.
  by rewrite bind_rmap rmap_bind; apply: eq_bind => -[Y W H J m] /=; rewrite demix_derev_rot.
by rewrite (iterate_rot (body := one_iter dl model X eps)) //; exact: one_iter_rot.
Qed.
(* output: rotated like the reference microphone, or each like its own microphone *)
Definition out_phase (n_iter : nat) (pb : option 'I_nC) f (s : 'I_nS) : C :=
  match pb with Some ref => if (0 < n_iter)%N then D f ref else D f (lshift nB s) | None => D f (lshift nB s) end.
Lemma forward_rot n_iter use_dmc pb m0 :
  forward nT dl model X' eps n_iter use_dmc pb m0 =
  rmap (fun r => let: (Y, W, J, m) := r in (rotate (out_phase n_iter pb) Y, rotW W, rotJ J, m))
       (forward nT dl model X eps n_iter use_dmc pb m0).
Proof.
have r0 (Y : sig nS) : rotY Y = rotate (fun f s => D f (lshift nB s)) Y.
  by apply/ffunP => f; rewrite !ffunE; apply/matrixP=> s n; rewrite rot1E mxE.
rewrite /forward forward_raw_rot bind_rmap rmap_bind; apply: eq_bind => -[Y W H J m] /=.
case: pb => [ref|] /=; last by rewrite r0.
case: ifP => hn /=; last first.
  by rewrite r0; congr (Ok (_, _, _, _)); apply/ffunP => f; rewrite !ffunE /out_phase hn.
rewrite (@eq_gather _ _ _ _ (fun f => rmap (rot (cj (dS f)) (fun=> (D f ref)^*)) (pb_f (W f) (J f) ref))).
  rewrite (gather_rmap _ _ (fun f => rot (cj (dS f)) (fun=> (D f ref)^*))) bind_rmap rmap_bind; apply: eq_bind => a /=.
  congr (Ok (_, _, _, _)); apply/ffunP => f; rewrite !ffunE; apply/matrixP=> s n; rewrite !mxE.
  rewrite /PhaseProofs.one conjC1 mulr1 conjCK /cj /out_phase hn.
  have e := uni_mul s (@uDS f); rewrite -[RHS]mul1r -e; cring C.
by move=> f; rewrite !ffunE; exact: pb_f_rot.
Qed.
End Loop.
End PT.
