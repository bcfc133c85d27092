(* Specification side of C51 and C52. *)
From Coq Require Import String List ZArith.
From Verif Require Import Py PyObj SepModel LoadModel CliModel.
Import ListNotations.
Set Implicit Arguments.

(* the arguments with another number of microphones / iterations *)
Definition with_mic (c : cli) (m : Z) : cli :=
  mkcli m (c_src c) (c_nfft c) (c_hop c) (c_win c) (c_algo c) (c_n_iter c) (c_taps c) (c_delay c) (c_ref c) (c_eps c)
    (c_model_type c) (c_model_path c) (c_n_basis c) (c_model_eps c).
Definition with_iter (c : cli) (n : Z) : cli :=
  mkcli (c_mic c) (c_src c) (c_nfft c) (c_hop c) (c_win c) (c_algo c) n (c_taps c) (c_delay c) (c_ref c) (c_eps c)
    (c_model_type c) (c_model_path c) (c_n_basis c) (c_model_eps c).
(* the last element of a list satisfying a test *)
Definition is_last_with (A : Type) (test : A -> Prop) (l : list A) (x : A) : Prop :=
  exists l1 l2, l = l1 ++ x :: l2 /\ test x /\ forall y, In y l2 -> ~ test y.
