(* Model of torchiva/scaling.py.  B indexes the flattened batch dimensions,
   nC = n_channels, nF = n_freq, nN = n_frames. *)
From mathcomp Require Import all_ssreflect all_algebra all_fingroup.
From Verif Require Import CAlg Py Batch LinalgModel.
Set Implicit Arguments. Unset Strict Implicit. Unset Printing Implicit Defensive.
Import GRing.Theory Num.Theory Order.TTheory.
Local Open Scope ring_scope.
Local Open Scope py_scope.

Section Scaling.
Variable C : numClosedFieldType.
Variable B : finType.
Variables (nC nF nN : nat).
(* Y[b, c, f, n] and ref[b, f, n] *)
Definition spec := B -> 'I_nC -> 'I_nF -> 'rV[C]_nN.
Definition refs := B -> 'I_nF -> 'rV[C]_nN.

(* torchiva/parameters.py eps_scaling *)
Definition eps_mdp : C := 10%:R ^- 7.
Definition eps_gmdp : C := 10%:R ^- 5.

(* torchiva/scaling.py:81-101 minimum_distortion_l2 *)
Definition minimum_distortion_l2 (Y : spec) (ref : refs) : spec := fun b c f =>
  let num := (\sum_n (ref b f 0 n)^* * Y b c f 0 n) / nN%:R in           (* 94 *)
  let denom := (\sum_n mag_sq (Y b c f 0 n)) / nN%:R in                  (* 95 *)
  let cc := 'Re num / clamp denom eps_mdp + 'i * ('Im num / clamp denom eps_mdp) in (* 97-99 *)
  \row_n (Y b c f 0 n * cc^*).

(* torchiva/scaling.py:104-123 minimum_distortion_l2_phase *)
Definition minimum_distortion_l2_phase (Y : spec) (ref : refs) : spec := fun b c f =>
  let num := (\sum_n (ref b f 0 n)^* * Y b c f 0 n) / nN%:R in           (* 119 *)
  let d := clamp (sqrtC ('Re num ^+ 2 + 'Im num ^+ 2)) (10%:R ^- 5) in
  let cc := 'Re num / d + 'i * ('Im num / d) in                          (* 121 *)
  \row_n (Y b c f 0 n * cc^*).

(* torchiva/scaling.py:42-78 projection_back.  The frames are chosen by argsort of
   the total magnitude of each frame (an oracle: any permutation); with fewer frames
   than channels the reshapes at 70-71 and 78 fail. *)
Variable argsort : ('I_nN -> C) -> {perm 'I_nN}.
Definition frame_mag (Y : spec) (b : B) (n : 'I_nN) : C := \sum_f \sum_c mag (Y b c f 0 n).
(* [..., -n_chan:] *)
Definition last_frames (h : (nC <= nN)%N) (s : {perm 'I_nN}) (j : 'I_nC) : 'I_nN :=
  s (cast_ord (subnK h) (rshift (nN - nC) j)).
Definition pb_system (Y : spec) (sel : 'I_nC -> 'I_nN) (b : B) (f : 'I_nF) : 'M[C]_nC :=
  \matrix_(j, c) Y b c f 0 (sel j).                                      (* 64 *)
Definition projection_back (Y : spec) (ref : refs) : result spec :=
  match (nC <= nN)%N as x return (nC <= nN)%N = x -> _ with
  | true => fun h =>
      let sel b := last_frames h (argsort (frame_mag Y b)) in
      let* cc := gather (0 : 'cV[C]_nC) (fun bf : B * 'I_nF => let: (b, f) := bf in
         torch_solve (pb_system Y (sel b) b f + (10%:R ^- 5) *: 1%:M)
                     (\col_j ref b f 0 (sel b j))) in                    (* 73-76 *)
      Ok (fun b c f => \row_n (Y b c f 0 n * cc (b, f) c 0))             (* 78 *)
  | false => fun _ => raise RuntimeError
  end erefl.

(* ---- iterative minimum distortion *)
Definition coef := {ffun B * 'I_nF * 'I_nC -> C}.
Definition err_t := B -> 'I_nF -> 'I_nC -> 'rV[C]_nN.
Variable pw : C -> C -> C.    (* x.pow(y) for real x >= 0 and real y *)

(* torchiva/scaling.py:214-217 lp_norm *)
Definition lp_norm (E : err_t) (p : C) : result err_t :=
  if (0 < p) && (p < 2%:R) then
    Ok (fun b f c => \row_n (p / clamp (2%:R * pw `|E b f c 0 n| (2%:R - p)) eps_gmdp))
  else raise AssertionError.
(* torchiva/scaling.py:220-228 lpq_norm with axis=-3 (frequency) *)
Definition lpq_norm (E : err_t) (p q : C) : result err_t :=
  if [&& 0 < p, p <= q & q <= 2%:R] then
    let E1 b f c n := pw (`|E b f c 0 n| + 10%:R ^- 5) q + 10%:R ^- 5 in
    let rn b c n := pw (\sum_f E1 b f c n) (1 - p / q) in
    let qfn b f c n := pw (E1 b f c n) (2%:R - q) in
    Ok (fun b f c => \row_n (p / clamp (2%:R * rn b c n * qfn b f c n) eps_gmdp))
  else raise AssertionError.

(* 178: the current error *)
Definition md_error (Y : spec) (ref : refs) (cc : coef) : err_t := fun b f c =>
  \row_n (ref b f 0 n - cc (b, f, c) * Y b c f 0 n).
(* 192-195: minimise the weighted error *)
Definition md_min (Y : spec) (ref : refs) (w : err_t) : coef := [ffun x => let: (b, f, c) := x in
  (\sum_n ref b f 0 n * (Y b c f 0 n)^* * w b f c 0 n) /
  clamp (\sum_n `|Y b c f 0 n| ^+ 2 * w b f c 0 n) eps_gmdp].
Definition fro (x : coef) : C := sqrtC (\sum_i `|x i| ^+ 2).
(* 202-204: relative step; a comparison with NaN or inf is false *)
Definition small_step (cc prev : coef) (rtol : C) : bool :=
  (fro prev != 0) && (fro [ffun i => cc i - prev i] / fro prev < rtol).
(* torchiva/scaling.py:173-209, the while loop; fuel = max_iter - epoch; wf computes
   the weights from the error (a model, lp_norm or lpq_norm) *)
Section Loop.
Variables (Y : spec) (ref : refs) (wf : err_t -> result err_t) (rtol : C).
Fixpoint md_loop (fuel : nat) (cc : coef) (prev : option coef) : result coef :=
  match fuel with
  | O => Ok cc
  | S n =>
      let* w := wf (md_error Y ref cc) in
      let cc' := md_min Y ref w in
      match prev with
      | None => md_loop n cc' (Some cc')
      | Some pr => if small_step cc' pr rtol then Ok cc' else md_loop n cc' (Some cc')
      end
  end.
End Loop.
(* torchiva/scaling.py:126-211 minimum_distortion, model = None; max_iter <= 0 is 0 *)
Definition minimum_distortion (Y : spec) (ref : refs) (p q : option C) (rtol : C) (max_iter : nat) :
    result spec :=
  match p with
  | None => Ok (minimum_distortion_l2 Y ref)
  | Some p =>
      if (p == 2%:R) && (if q is Some q then p == q else true) then Ok (minimum_distortion_l2 Y ref)
      else
        let wf E := match q with
                    | None => lp_norm E p
                    | Some q => if p == q then lp_norm E p else lpq_norm E p q
                    end in
        let* cc := md_loop Y ref wf rtol max_iter [ffun=> 1] None in
        Ok (fun b c f => \row_n (Y b c f 0 n * cc (b, f, c)))
  end.
End Scaling.
