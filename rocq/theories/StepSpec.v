(* Specification for C85: the datasets of a data module whose references are not shuffled. *)
From Coq Require Import List ZArith.
From Verif Require Import Py DataModel ItemModel.

(* the validation (or test) set, or a training set when shuffle_ref is off *)
Definition plain_set (q : params) (train valid : list room) (d : dataset) : Prop :=
  exists sets v, data_module q train valid = Ok (sets, v) /\
    (d = v \/ p_shuffle_ref q = false /\ exists m b, In (m, b, d) sets).
