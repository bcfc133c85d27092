(* Specification side of C82: what the options of the evaluation script ask for. *)
From Coq Require Import String List ZArith.
From Verif Require Import Py PyObj ParamModel SepModel ChoiceModel.
Local Open Scope string_scope.

(* the hop, a quarter of the transform unless given *)
Definition asked_hop (o : options) : Z := match o_hop o with Some h => h | None => (o_n_fft o / 4)%Z end.
(* the arguments of a separator with the classic source model idsrc, n sources and no dereverberation *)
Definition asked (idsrc : nat) (o : options) (n : Z) : separgs :=
  mkargs (o_n_fft o) (VInt (o_n_iter o)) (VInt (asked_hop o)) (o_window o) (VInt 0) (VInt 0) (VInt n)
    (VStr (o_algo o)) (SVal (VMod idsrc)) (VInt 0) (VBool false) VNone (VFloat 1 (-5)).
