(* Model of torchiva/t_iss.py (one batch element; batch dimensions are covered
   by the shape tier).  Python index order W[s, f, c] becomes W f s c.
   nS = n_src, nS + nB = n_chan, nF = n_freq, nT = n_taps, dl = n_delay,
   nN = n_frames.  "J is None" in the code is exactly the case nB = 0. *)
From mathcomp Require Import all_ssreflect all_algebra.
From Verif Require Import CAlg Py Batch LinalgModel.
Set Implicit Arguments. Unset Strict Implicit. Unset Printing Implicit Defensive.
Import GRing.Theory Num.Theory Order.TTheory.
Local Open Scope ring_scope.
Local Open Scope py_scope.

Section Tiss.
Variable C : numClosedFieldType.
Variables (nS nB nF nT dl nN : nat).
Local Notation nC := (nS + nB)%N.

(* tensors of shape (c, n_freq, n_frames), (s, n_freq, c), (s, n_freq, c, t) *)
Definition sig c := {ffun 'I_nF -> 'M[C]_(c, nN)}.
Definition filt s c := {ffun 'I_nF -> 'M[C]_(s, c)}.
Definition taps m n := {ffun 'I_nT -> 'M[C]_(m, n)}.
Definition tfilt s c := {ffun 'I_nF -> taps s c}.

(* ---- delayed frames: torchiva/t_iss.py:463-466 (pad, hankel_view, slice) *)
(* entry p of row c, for p in range *)
Definition rowget m (M : 'M[C]_(m, nN)) (c : 'I_m) (p : nat) : C :=
  if insub p is Some k then M c k else 0.
(* torch.nn.functional.pad(X, (n_taps + n_delay, 0)) *)
Definition xpad m (M : 'M[C]_(m, nN)) (c : 'I_m) (p : nat) : C :=
  if (p < nT + dl)%N then 0 else rowget M c (p - (nT + dl)).
(* hankel_view(X_pad, n_taps + n_delay + 1)[..., : -n_delay - 1, :] at (t, n) is X_pad at t + n *)
Definition delayed m (X : sig m) : {ffun 'I_nF -> taps m nN} :=
  [ffun f => [ffun t : 'I_nT => \matrix_(c, n) xpad (X f) c (t + n)]].

(* torchiva/t_iss.py:39-42  demix_derev *)
Definition demix_derev m (X : sig nC) (Xb : {ffun 'I_nF -> taps nC nN})
    (W : filt m nC) (H : tfilt m nC) : sig m :=
  [ffun f => \matrix_(s, n) (\sum_d W f s d * X f d n
     - \sum_d \sum_t H f t s d * Xb f t d n)].

(* torchiva/t_iss.py:45-53  demix_background (J not None) *)
Definition demix_background (X : sig nC) (J : filt nB nS) : sig nB :=
  [ffun f => J f *m usubmx (X f) - dsubmx (X f)].

(* ---- the three ISS coefficient vectors, at one frequency *)
(* torchiva/t_iss.py:56-78  type 1 *)
Definition iss1 (src : 'I_nS) (Y w : 'M[C]_(nS, nN)) (eps : C) : 'cV[C]_nS :=
  let norm := 1 / nN%:R in
  let v_num c := (\sum_n w c n * Y c n * (Y src n)^*) * norm in
  let v_denom c := (\sum_n w c n * mag_sq (Y src n)) * norm in
  \col_c (if c == src then 1 - 1 / sqrtC (clamp (v_denom src) eps)
          else divide (v_num c) (v_denom c) eps).
(* torchiva/t_iss.py:81-98 and 101-122  types 2 and 3; z is the steering signal
   Z[bak] resp. X_bar[src, tap] *)
Definition iss23 (Y w : 'M[C]_(nS, nN)) (z : 'rV[C]_nN) (eps : C) : 'cV[C]_nS :=
  let v_num c := \sum_n w c n * Y c n * (z 0 n)^* in
  let v_denom c := \sum_n w c n * mag_sq (z 0 n) in
  \col_c divide (v_num c) (v_denom c) eps.

(* ---- iss_updates_with_H at one frequency: torchiva/t_iss.py:125-194 *)
Definition issst := ('M[C]_(nS, nN) * 'M[C]_(nS, nC) * taps nS nC)%type.

(* lines 170-174 *)
Definition step1 (w : 'M[C]_(nS, nN)) (eps : C) (st : issst) (src : 'I_nS) : issst :=
  let: (Y, W, H) := st in
  let v := iss1 src Y w eps in
  (Y - v *m row src Y, W - v *m row src W, [ffun t => H t - v *m row src (H t)]).
(* lines 178-184 *)
Definition step2 (w : 'M[C]_(nS, nN)) (eps : C) (Z : 'M[C]_(nB, nN)) (J : 'M[C]_(nB, nS))
    (st : issst) (bak : 'I_nB) : issst :=
  let: (Y, W, H) := st in
  let v := iss23 Y w (row bak Z) eps in
  (Y - v *m row bak Z,
   row_mx (lsubmx W - v *m row bak J) (rsubmx W + v *m delta_mx 0 bak), H).
(* lines 187-192 *)
Definition step3 (w : 'M[C]_(nS, nN)) (eps : C) (Xb : taps nC nN)
    (st : issst) (ct : 'I_nC * 'I_nT) : issst :=
  let: (Y, W, H) := st in
  let: (src, tap) := ct in
  let v := iss23 Y w (row src (Xb tap)) eps in
  (Y - v *m row src (Xb tap), W,
   [ffun t => if t == tap then H t + v *m delta_mx 0 src else H t]).
(* the three loops in order; the background loop is empty when J is None *)
Definition iss_updates (w : 'M[C]_(nS, nN)) (eps : C) (Z : 'M[C]_(nB, nN)) (J : 'M[C]_(nB, nS))
    (Xb : taps nC nN) (st : issst) : issst :=
  let st := foldl (step1 w eps) st (enum 'I_nS) in
  let st := foldl (step2 w eps Z J) st (enum 'I_nB) in
  foldl (step3 w eps Xb) st (allpairs pair (enum 'I_nC) (enum 'I_nT)).

(* ---- background filter: torchiva/t_iss.py:197-227.  The second half of the
   function is the same computation as solve_loaded_general(mat, rhs, load=eps, eps=eps). *)
Definition C_XX (X : sig nC) (f : 'I_nF) : 'M[C]_nC :=                       (* 469 *)
  \matrix_(c, d) ((\sum_n X f c n * (X f d n)^*) / nN%:R).
Definition C_XbarX (X : sig nC) (Xb : {ffun 'I_nF -> taps nC nN}) (f : 'I_nF) (t : 'I_nT) :
    'M[C]_nC :=                                                              (* 470-472 *)
  \matrix_(c, d) ((\sum_n Xb f t c n * (X f d n)^*) / nN%:R).
Definition background_f (Wf : 'M[C]_(nS, nC)) (Hf : taps nS nC) (CXX : 'M[C]_nC)
    (CXbX : 'I_nT -> 'M[C]_nC) (eps : C) : result 'M[C]_(nB, nS) :=
  let A1 := Wf *m CXX in
  let A2 := \sum_t Hf t *m CXbX t in
  let A := A1 + A2 in
  let* JH := solve_loaded_general (lsubmx A) (rsubmx A) eps eps in
  Ok (ctr JH).
Definition background_update (W : filt nS nC) (H : tfilt nS nC) (X : sig nC)
    (Xb : {ffun 'I_nF -> taps nC nN}) (eps : C) : result (filt nB nS) :=
  gather 0 (fun f => background_f (W f) (H f) (C_XX X f) (C_XbarX X Xb f) eps).

(* ---- one iteration: torchiva/t_iss.py:230-256 *)
Section Loop.
Variable St : Type.                                  (* state of the source model *)
Variable model : St -> sig nS -> sig nS * St.        (* weights, new state *)
Variables (X : sig nC) (eps : C).
Definition Xb := delayed X.

Record st := mkst { stY : sig nS; stW : filt nS nC; stH : tfilt nS nC; stJ : filt nB nS; stM : St }.

Definition gain (Y : sig nS) (s : 'I_nS) : C :=                              (* 239 *)
  clamp ((\sum_f \sum_n mag_sq (Y f s n)) / (nF * nN)%:R) eps.
Definition eps_bg : C := 10%:R ^- 3.                                         (* 250 *)

(* 1.0 / n_frames raises ZeroDivisionError in iss_block_update_type_1 (line 69)
   when n_frames = 0 and n_src > 0; RuntimeError stands for it here. *)
Definition one_iter (x : st) : result st :=
  let: mkst Y W H J m := x in
  let: (weights, m') := model m Y in                                         (* 234 *)
  let g := gain Y in
  let Y1 : sig nS := [ffun f => \matrix_(s, n) divide (Y f s n) (sqrtC (g s)) eps] in
  let W1 : filt nS nC := [ffun f => \matrix_(s, c) divide (W f s c) (sqrtC (g s)) eps] in
  let H1 : tfilt nS nC :=
    [ffun f => [ffun t => \matrix_(s, c) divide (H f t s c) (sqrtC (g s)) eps]] in
  let w1 : sig nS := [ffun f => \matrix_(s, n) (weights f s n * g s)] in
  let* J1 := if (0 < nB)%N then background_update W1 H1 X Xb eps_bg else Ok J in
  let Z := demix_background X J1 in                                          (* 251 *)
  if (nN == 0%N) && (0 < nS)%N then raise RuntimeError else
  let r := [ffun f => iss_updates (w1 f) eps (Z f) (J1 f) (Xb f) (Y1 f, W1 f, H1 f)] in
  Ok (mkst [ffun f => (r f).1.1] [ffun f => (r f).1.2] [ffun f => (r f).2] J1 m').

(* torchiva/t_iss.py:259-269  the DMC variant recomputes Y from W and H first *)
Definition one_iter_dmc (x : st) : result st :=
  let: mkst Y W H J m := x in
  let* x' := one_iter (mkst (demix_derev X Xb W H) W H J m) in
  (* Y of the enclosing loop is not updated *)
  Ok (mkst Y (stW x') (stH x') (stJ x') (stM x')).

Fixpoint iterate (body : st -> result st) (n : nat) (x : st) : result st :=
  match n with O => Ok x | S n' => let* y := body x in iterate body n' y end.

(* ---- projection back: torchiva/t_iss.py:272-302; load and eps of
   solve_loaded_general are its defaults 1e-5; reference microphone 0 <= ref < n_chan *)
Definition c5 : C := 10%:R ^- 5.
Definition pb_f (Wf : 'M[C]_(nS, nC)) (Jf : 'M[C]_(nB, nS)) (ref : 'I_nC) : result 'M[C]_(nS, 1) :=
  let: (lhs, rhs) :=
    if (0 < nB)%N then
      let B := lsubmx Wf + rsubmx Wf *m Jf in
      (B^T, match split ref with
            | inl r => delta_mx r 0 : 'cV[C]_nS
            | inr r => (row r Jf)^T
            end)
    else ((lsubmx Wf)^T,   (* n_chan = n_src: W itself *)
          match split ref with inl r => delta_mx r 0 | inr _ => 0 end) in
  solve_loaded_general lhs rhs c5 c5.

(* ---- forward: torchiva/t_iss.py:450-539 after the parameters are resolved and
   the source model reset to m0; n_src > n_chan (ValueError) is excluded by types *)
Definition eyeW : filt nS nC := [ffun f => row_mx 1%:M 0].                   (* 477, 482-483 *)
Definition zeroH : tfilt nS nC := [ffun f => [ffun t => 0]].                 (* 485 *)
Definition init (m0 : St) : result st :=
  let* J := if (0 < nB)%N then background_update eyeW zeroH X Xb eps
            else Ok [ffun f => 0] in
  Ok (mkst (demix_derev X Xb eyeW zeroH) eyeW zeroH J m0).
Definition forward_raw (n_iter : nat) (use_dmc : bool) (m0 : St) : result st :=
  let* x0 := init m0 in
  if use_dmc then
    let* x := iterate one_iter_dmc n_iter x0 in
    Ok (mkst (demix_derev X Xb (stW x) (stH x)) (stW x) (stH x) (stJ x) (stM x))  (* 526-528 *)
  else iterate one_iter n_iter x0.
Definition forward (n_iter : nat) (use_dmc : bool) (proj_back : option 'I_nC) (m0 : St) :
    result (sig nS * filt nS nC * filt nB nS * St) :=
  let* x := forward_raw n_iter use_dmc m0 in
  match proj_back with
  | Some ref =>
      if (0 < n_iter)%N then
        let* a := gather 0 (fun f => pb_f (stW x f) (stJ x f) ref) in
        Ok ([ffun f => \matrix_(s, n) (a f s 0 * stY x f s n)], stW x, stJ x, stM x)
      else Ok (stY x, stW x, stJ x, stM x)
  | None => Ok (stY x, stW x, stJ x, stM x)
  end.
End Loop.
End Tiss.
