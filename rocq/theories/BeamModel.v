(* Model of torchiva/beamformer.py (one batch element).  The number of channels is
   k.+1 (an input without channels fails at X[..., ref_mic, :, :]); the reference
   microphone is a valid index 0 <= ref < n_chan. *)
From mathcomp Require Import all_ssreflect all_algebra.
From Verif Require Import CAlg Py Batch LinalgModel TissModel.
Set Implicit Arguments. Unset Strict Implicit. Unset Printing Implicit Defensive.
Import GRing.Theory Num.Theory Order.TTheory.
Local Open Scope ring_scope.
Local Open Scope py_scope.

Section Beam.
Variable C : numClosedFieldType.
Variable eighO : forall n, eigh_oracle C n.     (* torch.linalg.eigh *)
Variable k : nat.
Local Notation nC := k.+1.
Implicit Types (Rt Rn : 'M[C]_nC) (ref : 'I_nC).

(* torchiva/beamformer.py:27-63 compute_mwf_bf; with ref_mic the default load 1e-6
   of solve_loaded is used and eps is ignored *)
Definition c6 : C := 10%:R ^- 6.
Definition compute_mwf_all Rt Rn (eps : C) : result 'M[C]_nC := solve_loaded (Rt + Rn) Rt eps.
Definition compute_mwf_ref Rt Rn (eps : C) ref : result 'cV[C]_nC :=
  solve_loaded (Rt + Rn) (col ref Rt) c6.

(* torch.nn.functional.normalize(v, dim=-1): v / max(norm, 1e-12) *)
Definition f_normalize (v : 'cV[C]_nC) : 'cV[C]_nC :=
  (clamp (sqrtC (\sum_i `|v i 0| ^+ 2)) (10%:R ^- 12))^-1 *: v.

(* torchiva/beamformer.py:66-109 compute_mvdr_rtf_eigh; division by a zero reference
   entry gives inf/NaN in torch, here zero: statements exclude it *)
Definition rtf_vector Rt Rn (power_iterations : option nat) : result 'cV[C]_nC :=
  match power_iterations with
  | None => Ok (col ord_max (geigh eighO Rt Rn).2)                             (* 90-92 *)
  | Some p =>                                                                 (* 94-100 *)
      let* Phi := solve_loaded Rn Rt (10%:R ^- 5) in
      Ok (iter (p - 1) (fun v => f_normalize (Phi *m v)) (col 0 Phi))
  end.
Definition compute_mvdr_rtf_eigh Rt Rn ref (power_iterations : option nat) : result 'cV[C]_nC :=
  let* v := rtf_vector Rt Rn power_iterations in
  let steering := Rn *m v in                                                  (* 102 *)
  Ok ((steering ref 0)^-1 *: steering).                                       (* 105-106 *)

(* torchiva/beamformer.py:112-122 compute_mvdr_bf *)
Definition compute_mvdr_bf Rn (d : 'cV[C]_nC) (eps : C) : result 'cV[C]_nC :=
  let* a := solve_loaded Rn d eps in
  let denom := clamp ('Re (\sum_c (d c 0)^* * a c 0)) eps in
  Ok (denom^-1 *: a).

(* torchiva/beamformer.py:125-136 compute_mvdr_bf2; eps is not used *)
Definition compute_mvdr_bf2 Rt Rn ref (eps : C) : result 'cV[C]_nC :=
  let* num := torch_solve Rn Rt in
  let denom := \sum_i num i i in
  Ok (col ref (denom^-1 *: num)).

(* torchiva/beamformer.py:139-158 compute_gev_bf, one source and frequency; the
   result is a row applied to the input without conjugation *)
Definition compute_gev_bf Rt Rn ref : result 'rV[C]_nC :=
  let V := (geigh eighO Rt Rn).2 in
  let* steering := torch_solve (hermite V) (delta_mx ord_max 0 : 'cV[C]_nC) in
  Ok (\row_c ((V c ord_max)^* * steering ref 0)).

(* ---- the three beamformer classes *)
Variables (nS nF nN : nat).
(* covariance of the masked input, torchiva/beamformer.py:264, 284, 394, 485 *)
Definition cov (mask : 'rV[C]_nN) (X : 'M[C]_(nC, nN)) : 'M[C]_nC :=
  \matrix_(c, d) \sum_n mask 0 n * X c n * (X d n)^*.
(* output of a filter bank, torchiva/beamformer.py:304 and 402 *)
Definition apply_bf (X : sig C nF nN nC) (bf : {ffun 'I_nS * 'I_nF -> 'cV[C]_nC}) : sig C nF nN nS :=
  [ffun f => \matrix_(s, n) \sum_c X f c n * (bf (s, f) c 0)^*].

(* masks (source, frequency, frame) number i; n_masks of them *)
Definition masks := 'I_nS -> 'I_nF -> 'rV[C]_nN.
Definition mask_model := 'M[C]_(nF, nN) -> seq masks.
Definition ref_channel (X : sig C nF nN nC) ref : 'M[C]_(nF, nN) := \matrix_(f, n) X f ref n.

(* torchiva/beamformer.py:235-306 MVDR.forward; an unbound local name (bf) when the
   number of masks or mvdr_type is not handled *)
Inductive mvdr_type := Rtf | Scm | OtherType.
Definition mvdr_forward (X : sig C nF nN nC) (model : mask_model) ref (eps : C) (ty : mvdr_type)
    (n_power_iter : option nat) : result (sig C nF nN nS) :=
  match model (ref_channel X ref) with
  | [:: mt; mn] =>
      match ty with
      | Rtf =>
          let* bf := gather 0 (fun sf : 'I_nS * 'I_nF => let: (s, f) := sf in
            let Rt := cov (mt s f) (X f) in let Rn := cov (mn s f) (X f) in
            let* rtf := compute_mvdr_rtf_eigh Rt Rn ref n_power_iter in
            compute_mvdr_bf Rn rtf eps) in
          Ok (apply_bf X bf)
      | Scm =>
          let* bf := gather 0 (fun sf : 'I_nS * 'I_nF => let: (s, f) := sf in
            compute_mvdr_bf2 (cov (mt s f) (X f)) (cov (mn s f) (X f)) ref eps) in
          Ok (apply_bf X bf)
      | OtherType => raise UnboundLocalError
      end
  | [:: mt; mn; mn2] =>
      let* bf := gather 0 (fun sf : 'I_nS * 'I_nF => let: (s, f) := sf in
        let* rtf := compute_mvdr_rtf_eigh (cov (mt s f) (X f)) (cov (mn2 s f) (X f)) ref n_power_iter in
        compute_mvdr_bf (cov (mn s f) (X f)) rtf eps) in
      Ok (apply_bf X bf)
  | _ => raise UnboundLocalError
  end.

(* torchiva/beamformer.py:367-418 MWF.forward; masks[..., i, :, :] for i in range(2)
   raises IndexError with fewer than two masks *)
Definition mwf_forward (X : sig C nF nN nC) (model : mask_model) ref (eps : C) (time_invariant : bool) :
    result (sig C nF nN nS) :=
  match model (ref_channel X ref) with
  | mt :: mn :: rest =>
      if time_invariant then
        let* bf := gather 0 (fun sf : 'I_nS * 'I_nF => let: (s, f) := sf in
          compute_mwf_ref (cov (mt s f) (X f)) (cov (mn s f) (X f)) eps ref) in
        Ok (apply_bf X bf)
      else
        match rest with
        | [:: vt; vn] =>
            (* one filter per frame, lines 405-416 *)
            let* bf := gather [ffun=> 0] (fun sf : 'I_nS * 'I_nF => let: (s, f) := sf in gather 0 (fun n : 'I_nN =>
              compute_mwf_ref (vt s f 0 n *: cov (mt s f) (X f)) (vn s f 0 n *: cov (mn s f) (X f)) eps ref)) in
            Ok [ffun f => \matrix_(s, n) \sum_c X f c n * (bf (s, f) n c 0)^*]
        | _ => raise AssertionError
        end
  | _ => raise IndexError
  end.

(* torchiva/beamformer.py:468-500 GEV.forward *)
Definition gev_forward (X : sig C nF nN nC) (model : mask_model) ref : result (sig C nF nN nS) :=
  match model (ref_channel X ref) with
  | mt :: mn :: _ =>
      let* bf := gather 0 (fun sf : 'I_nS * 'I_nF => let: (s, f) := sf in compute_gev_bf (cov (mt s f) (X f)) (cov (mn s f) (X f)) ref) in
      Ok [ffun f => \matrix_(s, n) bmm (bf (s, f)) (X f) 0 n]
  | _ => raise IndexError
  end.
End Beam.
