(* Model of torchiva/five.py (one batch element).  n_freq = nF + 1 (an input without
   any frequency is not modelled), n_chan = k + 1, proj_back_mic a valid index
   0 <= mic < n_chan.  proj_back_mic = None gives wrong shapes, see the shape tier.
   adjust_global_scale (76-81) is never called. *)
From mathcomp Require Import all_ssreflect all_algebra.
From Verif Require Import CAlg Py Batch LinalgModel TissModel.
Set Implicit Arguments. Unset Strict Implicit. Unset Printing Implicit Defensive.
Import GRing.Theory Num.Theory Order.TTheory.
Local Open Scope ring_scope.
Local Open Scope py_scope.

Section Five.
Variable C : numClosedFieldType.
Variable eighO : forall n, eigh_oracle C n.     (* torch.linalg.eigh *)
Variables (k nF nN : nat).
Local Notation nC := k.+1.
Implicit Types mic : 'I_nC.

(* ---- pre-whitening, one frequency *)
(* five.py:178-179  covariance, made Hermitian; n_frames > 0 *)
Definition five_Cx (X : 'M[C]_(nC, nN)) : 'M[C]_nC :=
  let Cx : 'M[C]_nC := \matrix_(c, d) ((\sum_n X c n * (X d n)^*) / nN%:R) in
  (1 / 2%:R) *: (Cx + hermite Cx).
(* five.py:183-187  eigenvectors and eigenvalues, descending *)
Definition five_vec (X : 'M[C]_(nC, nN)) : 'M[C]_nC :=
  \matrix_(i, j) (eigh eighO (five_Cx X)).2 i (rev_ord j).
Definition five_val (X : 'M[C]_(nC, nN)) (j : 'I_nC) : C := (eigh eighO (five_Cx X)).1 (rev_ord j).
(* five.py:190 *)
Definition five_sqrt (X : 'M[C]_(nC, nN)) (j : 'I_nC) : C := sqrtC (clamp (five_val X j) (10%:R ^- 5)).
(* five.py:191-192 *)
Definition five_Q (X : 'M[C]_(nC, nN)) : 'M[C]_nC :=
  \matrix_(i, j) ((five_sqrt X i)^-1 * hermite (five_vec X) i j).
Definition five_Qinv (X : 'M[C]_(nC, nN)) : 'M[C]_nC := \matrix_(i, j) (five_vec X i j * five_sqrt X j).
(* five.py:203  whitened input *)
Definition five_white (X : 'M[C]_(nC, nN)) : 'M[C]_(nC, nN) := five_Q X *m X.
(* five.py:207, 212-215  first whitened channel times z = Q[0, :] @ Cx[:, mic] *)
Definition five_init mic (X : 'M[C]_(nC, nN)) : 'rV[C]_nN :=
  let z := \sum_d five_Q X 0 d * five_Cx X d mic in
  \row_n (z * five_white X 0 n).

(* ---- one iteration *)
(* five.py:223-224  weighted covariance (not divided by the number of frames) *)
Definition five_V (w : 'rV[C]_nN) (Xw : 'M[C]_(nC, nN)) : 'M[C]_nC :=
  let V : 'M[C]_nC := \matrix_(c, d) \sum_n w 0 n * Xw c n * (Xw d n)^* in
  (1 / 2%:R) *: (V + hermite V).
(* five.py:36-50  smallest eigenvector through torch.linalg.eigh; the returned inverse
   eigenvalue is not used by the caller *)
Definition smallest_eigh (V : 'M[C]_nC) : 'cV[C]_nC := col 0 (@eighO nC V).2.
(* five.py:53-73  power method over all frequencies.  normalize (32-33) divides by the
   norm along dim -2, which is the frequency axis here.  If that norm is zero for some
   channel, 0/0 makes that channel NaN at all frequencies and the first matrix product
   (65) all channels; this is the outcome NotANumber.  The norms in 66-67 are never zero
   (power_nonzero in FiveBridge.v).  n_iter <= 1 never binds ev (73). *)
Definition sgn (z : C) : C := if z == 0 then 0 else z / `|z|.
Definition vnorm (x : 'cV[C]_nC) : C := sqrtC (\sum_c `|x c 0| ^+ 2).
Definition power_step (Vinv : 'M[C]_nC) (x : 'cV[C]_nC) : 'cV[C]_nC :=       (* 65-67 *)
  let y := Vinv *m x in (vnorm y)^-1 *: y.
Definition smallest_power (V : 'I_nF -> 'M[C]_nC) (n_iter : nat) : result {ffun 'I_nF -> 'cV[C]_nC} :=
  let* Vinv := gather 0 (fun f => inv_loaded (V f) (10%:R ^- 5)) in          (* 58 *)
  let nrm c := sqrtC (\sum_f `|Vinv f c 0| ^+ 2) in
  let x0 f : 'cV[C]_nC := \col_c (Vinv f c 0 / nrm c) in                     (* 61-62 *)
  if (n_iter <= 1)%N then raise UnboundLocalError else
  if (0 < nF)%N && [exists c, nrm c == 0] then raise NotANumber else
  let x f := iter (n_iter - 1) (power_step (Vinv f)) (x0 f) in
  Ok [ffun f => (sgn (x f 0 0))^* *: x f].                                   (* 70-71 *)

Section Loop.
Variable St : Type.                                            (* state of the source model *)
Variable model : St -> 'M[C]_(nF, nN) -> 'M[C]_(nF, nN) * St.  (* weights, new state *)
Variables (X : sig C nF.+1 nN nC) (mic : 'I_nC) (n_power_iter : option nat).
Definition no_dc f : 'M[C]_(nC, nN) := X (lift ord0 f).                      (* 173 *)
(* five.py:229-235 *)
Definition five_eigvec (w : 'M[C]_(nF, nN)) : result {ffun 'I_nF -> 'cV[C]_nC} :=
  let V f := five_V (row f w) (five_white (no_dc f)) in
  match n_power_iter with
  | None => Ok [ffun f => smallest_eigh (V f)]
  | Some p => smallest_power V p
  end.
(* five.py:238-242  scale by the reference row of Q^-1, new output *)
Definition five_output (u : 'I_nF -> 'cV[C]_nC) : 'M[C]_(nF, nN) :=
  let z f := \sum_c five_Qinv (no_dc f) mic c * u f c 0 in
  let w f c := u f c 0 * (z f)^* in
  \matrix_(f, n) \sum_c (w f c)^* * five_white (no_dc f) c n.
Fixpoint five_loop (n : nat) (Y : 'M[C]_(nF, nN)) (m : St) : result ('M[C]_(nF, nN) * St) :=  (* 217-242 *)
  match n with
  | O => Ok (Y, m)
  | S n' => let: (w, m') := model m Y in
            let* u := five_eigvec w in
            five_loop n' (five_output u) m'
  end.
(* five.py:173-248 forward after the parameters are resolved and the source model reset
   to m0; the last step puts a zero DC bin back *)
Definition five_forward (n_iter : nat) (m0 : St) : result ('M[C]_(nF.+1, nN) * St) :=
  let Y0 : 'M[C]_(nF, nN) := \matrix_(f, n) five_init mic (no_dc f) 0 n in
  let* r := five_loop n_iter Y0 m0 in
  Ok (\matrix_(f, n) (if unlift ord0 f is Some g then r.1 g n else 0), r.2).
End Loop.
End Five.
