(* Model of torchiva/models/classic.py (one signal X[n_freq, n_frames] at a time; the
   batch of NMFModel is a family indexed by 'I_nB). *)
From mathcomp Require Import all_ssreflect all_algebra.
From Verif Require Import CAlg Py LinalgModel TissModel.
Set Implicit Arguments. Unset Strict Implicit. Unset Printing Implicit Defensive.
Import GRing.Theory Num.Theory Order.TTheory.
Local Open Scope ring_scope.

Section Src.
Variable C : numClosedFieldType.
Variables (nF nN : nat).
Implicit Types X P : 'M[C]_(nF, nN).

(* torchiva/models/parameters.py  eps_models *)
Definition eps_models : C := 10%:R ^- 5.
(* classic.py:25, 49, 70  eps if eps is not None else eps_models[...] *)
Definition model_eps (eps : option C) : C := odflt eps_models eps.

(* classic.py:33-43  LaplaceModel.forward *)
Definition laplace (eps : C) X : 'M[C]_(nF, nN) :=
  let denom n := 2%:R * sqrtC (\sum_f mag_sq (X f n)) in
  \matrix_(f, n) (1 / clamp (denom n) eps).
(* classic.py:54-64  GaussModel.forward *)
Definition gauss (eps : C) X : 'M[C]_(nF, nN) :=
  let denom n := (\sum_f mag_sq (X f n)) / nF%:R in
  \matrix_(f, n) (1 / clamp (denom n) eps).

(* classic.py:67-155  NMFModel *)
Section NMF.
Variable K : nat.                                    (* n_basis *)
Variable eps : C.
Definition factors := ('M[C]_(nF, K) * 'M[C]_(nN, K))%type.   (* T, V *)
(* classic.py:107-110  _recompute_estimate: the reciprocal estimate iR *)
Definition nmf_iR (tv : factors) : 'M[C]_(nF, nN) :=
  \matrix_(f, n) (clamp (\sum_k tv.1 f k * tv.2 n k) eps)^-1.
(* classic.py:99-102  _init_state: u, v are the uniform draws *)
Definition nmf_init (u : 'M[C]_(nF, K)) (v : 'M[C]_(nN, K)) : factors :=
  let scale (x : C) := 9%:R / 10%:R * x + 1 / 10%:R in
  (\matrix_(f, k) scale (u f k), \matrix_(n, k) scale (v n k)).
(* classic.py:133-136  basis matrix update *)
Definition nmf_T P (tv : factors) : factors :=
  let: (T, V) := tv in let iR := nmf_iR tv in
  (\matrix_(f, k) clamp (T f k * sqrtC ((\sum_n P f n * iR f n ^+ 2 * V n k) / (\sum_n iR f n * V n k))) eps, V).
(* classic.py:142-147  activation matrix update *)
Definition nmf_V P (tv : factors) : factors :=
  let: (T, V) := tv in let iR := nmf_iR tv in
  (T, \matrix_(n, k) clamp (V n k * sqrtC ((\sum_f P f n * iR f n ^+ 2 * T f k) / (\sum_f iR f n * T f k))) eps).
(* classic.py:112-155  forward after initialisation: new factors and output *)
Definition nmf_update X (tv : factors) : factors * 'M[C]_(nF, nN) :=
  let P : 'M[C]_(nF, nN) := \matrix_(f, n) mag_sq (X f n) in
  let tv2 := nmf_V P (nmf_T P tv) in
  (tv2, nmf_iR tv2).

(* the object: factors once initialised, and the state of torch's random generator.
   A call with other dimensions than the stored ones is not modelled (the dimensions
   are types); classic.py:75-88 reset, 91-106 _init_state *)
Variables (nB : nat) (Rng : Type).
Variable draw : Rng -> ('I_nB -> 'M[C]_(nF, K)) * ('I_nB -> 'M[C]_(nN, K)) * Rng.
Definition nmf_state := (option ('I_nB -> factors) * Rng)%type.
Definition nmf_reset (s : nmf_state) : nmf_state := (None, s.2).
Definition nmf_forward (s : nmf_state) (X : 'I_nB -> 'M[C]_(nF, nN)) : ('I_nB -> 'M[C]_(nF, nN)) * nmf_state :=
  let: (tv, r) := match s with
    | (Some tv, r) => (tv, r)
    | (None, r) => let: (u, v, r') := draw r in ((fun b => nmf_init (u b) (v b)), r')
    end in
  let res b := nmf_update (X b) (tv b) in
  ((fun b => (res b).2), (Some (fun b => (res b).1), r)).
(* a history of reset() and forward(X) on one object: outputs in order, final state *)
Inductive nmf_op := NReset | NCall of 'I_nB -> 'M[C]_(nF, nN).
Fixpoint nmf_run (h : seq nmf_op) (s : nmf_state) : seq ('I_nB -> 'M[C]_(nF, nN)) * nmf_state :=
  match h with
  | [::] => ([::], s)
  | NReset :: h' => nmf_run h' (nmf_reset s)
  | NCall X :: h' => let: (y, s1) := nmf_forward s X in
                     let: (ys, s2) := nmf_run h' s1 in (y :: ys, s2)
  end.
End NMF.
End Src.
