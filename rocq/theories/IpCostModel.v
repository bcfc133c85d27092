(* The cost printed by AuxIVA_IP with verbose=True (torchiva/auxiva_ip.py:108-122), one
   batch element.  lg is the logarithm of torch.linalg.slogdet. *)
From mathcomp Require Import all_ssreflect all_algebra.
From Verif Require Import CAlg Py LinalgModel TissModel.
Set Implicit Arguments. Unset Strict Implicit. Unset Printing Implicit Defensive.
Import GRing.Theory Num.Theory Order.TTheory.
Local Open Scope ring_scope.

Section Cost.
Variable C : numClosedFieldType.
Variable lg : C -> C.
Variables (nS nB nF nN : nat).
(* auxiva_ip.py:112-115  W completed by [J, -I]; unchanged when J is None (nB = 0) *)
Definition cost_W (W : 'M[C]_(nS, nS + nB)) (J : 'M[C]_(nB, nS)) : 'M[C]_(nS + nB) :=
  \matrix_(i, j) match split i with
    | inl s => W s j
    | inr b => match split j with inl c => J b c | inr c => - (b == c)%:R end
    end.
(* auxiva_ip.py:117-122  the norm is over the frequencies (dim -2) *)
Definition ip_cost (Y : sig C nF nN nS) (W : filt C nF nS (nS + nB)) (J : filt C nF nB nS) : C :=
  let c1 := \sum_s \sum_n sqrtC (\sum_f `|Y f s n| ^+ 2) in                  (* 117 *)
  let c2 f := lg `|\det (cost_W (W f) (J f))| in                             (* 118 *)
  c1 - 2%:R * nN%:R * \sum_f c2 f.                                           (* 120 *)
End Cost.

(* auxiva_ip.py:109  n_freq, n_src, n_chan = W.shape *)
Definition cost_unpack (shape : seq nat) : result (nat * nat * nat) :=
  if shape is [:: f; s; c] then Ok (f, s, c) else Err ValueError.
