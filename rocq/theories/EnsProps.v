(* Property C59: averaging the weights of several epochs. *)
From mathcomp Require Import all_ssreflect all_algebra.
From Verif Require Import Py EnsModel EnsProofs.
Set Implicit Arguments.
Unset Strict Implicit.
Unset Printing Implicit Defensive.
Import GRing.Theory Num.Theory.
Local Open Scope ring_scope.

(* m + 1 epochs whose dictionaries have the same keys, each key k with N k entries of a floating
   point (isf k) or an integer type; v j k i is entry i under key k in epoch j.  The result has
   the same keys and holds the mean of each floating point entry, the mean truncated towards
   zero of each integer one *)
Theorem c59_mean (F : numFieldType) (K : eqType) (ks : seq K) (isf : K -> bool) (N : K -> nat)
    (v : nat -> K -> nat -> F) (w : nat -> K -> nat -> int) m : uniq ks ->
  let tens j k := if isf k then FT (mkseq (v j k) (N k)) else IT F (mkseq (w j k) (N k)) in
  ensemble [seq [seq (k, tens j k) | k <- ks] | j <- iota 0 m.+1] = Ok [seq (k,
    if isf k then FT (mkseq (fun i => (\sum_(j < m.+1) v j k i) / m.+1%:R) (N k))
    else IT F (mkseq (fun i => let s := \sum_(j < m.+1) w j k i in sgz s * (absz s %/ m.+1)%N%:Z) (N k))) | k <- ks].
Proof. move=> u; exact: ensemble_mean. Qed.
Print Assumptions c59_mean.
(* the truncated quotient by n of an integer is the one closest to zero within 1 of it *)
Theorem c59_truncation (s : int) n : (0 < n)%N ->
  let q := sgz s * (absz s %/ n)%N%:Z in `|q * n%:Z| <= `|s| /\ `|s - q * n%:Z| < n%:Z.
Proof. exact: trunc_div. Qed.
Print Assumptions c59_truncation.
(* no epochs *)
Theorem c59_no_epoch (F : numFieldType) (K : eqType) : @ensemble F K [::] = Err UnboundLocalError.
Proof. exact: ensemble_none. Qed.
Print Assumptions c59_no_epoch.

Example c59_example :
  ensemble [:: [:: (true, FT [:: 1; 5%:R : rat]); (false, IT _ [:: 3%:Z])]; [:: (true, FT [:: 3%:R; 0]); (false, IT _ [:: 4%:Z])]]
  = Ok [:: (true, FT [:: 2%:R; 5%:R / 2%:R]); (false, IT _ [:: 3%:Z])].
Proof. by rewrite /ensemble /=; congr (Ok [:: (_, FT _); _]); congr [:: _; _]; apply/eqP. Qed.
