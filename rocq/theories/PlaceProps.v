(* C78 and C79: files, lengths, repeated entries and sampling rates. *)
From Coq Require Import List ZArith String.
From Verif Require Import Py DataModel ItemModel ItemSpec MixModel PlaceSpec PlaceProofs.
Import ListNotations.

(* the files of an item are those of the last three parts of the paths in the metadata, below dataset_location *)
Theorem c78_location load ws d idx x y : getitem load ws d idx = Ok (x, y) ->
  exists r m fs, In r (metadata d) /\ load (last_three (mix_file (noiseless d) r)) = Some (m, fs) /\
    Forall (fun f => exists z, load (last_three f) = Some (z, fs)) (ref_files (ref_is_reverb d) r).
Proof. exact (location_lemma load ws d idx x y). Qed.
Print Assumptions c78_location.
(* max_len_s of the training sets: -1 stands for no limit, everything else is passed on; validation has none *)
Theorem c78_limit q train valid sets v : data_module q train valid = Ok (sets, v) -> max_len_s v = None /\
  forall m b d, In (m, b, d) sets ->
    ((p_max_len_s q = None \/ exists l, p_max_len_s q = Some l /\ minus_one l) -> max_len_s d = None) /\
    (forall l, p_max_len_s q = Some l -> ~ minus_one l -> max_len_s d = Some l).
Proof. exact (crop_lemma q train valid sets v). Qed.
Print Assumptions c78_limit.
(* of several entries for one number of channels (6 and "6") the last one counts *)
Theorem c78_last_entry q train valid sets v pre k m n : p_train_n_channels q = CDict (pre ++ [(k, n)]) -> names k m ->
  data_module q train valid = Ok (sets, v) -> exists b d, In (m, b, d) sets /\ selected n train (metadata d).
Proof. exact (last_lemma q train valid sets v pre k m n). Qed.
Print Assumptions c78_last_entry.
(* without an expected sampling rate files of any rates are read *)
Theorem c79_any_rate load fns xs : Forall2 (fun f x => exists fs, load f = Some (x, fs)) fns xs -> xs <> [] ->
  (forall a b, In a xs -> In b xs -> chans a = chans b /\ len a = len b) ->
  exists c, read_all load fns None = Ok c /\ c_n c = List.length xs /\
    forall k a, nth_error xs k = Some a -> forall i t, c_at c k i t = at_ a i t.
Proof. exact (any_rate_lemma load fns xs). Qed.
Print Assumptions c79_any_rate.

Local Open Scope string_scope.
Example c78_location_ex : last_three ["home"; "data"; "si284"; "mix"; "0.wav"] = ["si284"; "mix"; "0.wav"] /\
  last_three ["mix"; "0.wav"] = ["mix"; "0.wav"].
Proof. split; reflexivity. Qed.
Definition p_room : room := mkroom [] [] [[]] [[]] [] [].
Definition p_q (l : Z * positive) := mkparams 4 (Some l) false false (CDict [(KInt 6, Some 1%Z); (KStr "6", Some 2%Z)]) None None false None.
Example c78_limit_ex : minus_one (-2, 2%positive)%Z /\ ~ minus_one (7, 1%positive)%Z /\
  (exists sets v, data_module (p_q (-2, 2%positive)%Z) [p_room; p_room; p_room] [] = Ok (sets, v) /\
     map (fun x => (fst x, max_len_s (snd x), List.length (metadata (snd x)))) sets = [((6, 4)%Z, None, 2)]) /\
  exists sets v, data_module (p_q (7, 1%positive)%Z) [p_room] [] = Ok (sets, v) /\
     map (fun x => max_len_s (snd x)) sets = [Some (7, 1%positive)%Z].
Proof.
  split; [reflexivity|]. split; [discriminate|]. split; eexists; eexists; split; reflexivity.
Qed.
Example c79_any_rate_ex : let load f := if String.eqb f "a" then Some (mksig 1 1 (fun _ _ => 3%Z), 8000%Z) else Some (mksig 1 1 (fun _ _ => 4%Z), 16000%Z) in
  (exists c, read_all load ["a"; "b"] None = Ok c /\ c_at c 1 0 0 = 4%Z) /\ read_all load ["a"; "b"] (Some 8000%Z) = Err AssertionError.
Proof. split; [eexists; split; reflexivity|reflexivity]. Qed.
