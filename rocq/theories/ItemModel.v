(* Model of one item of the training data and of the parameters of the data module:
   examples/dataloader.py:78-213 (WSJ1SpatialDataset) and examples/data_module.py:38-127
   (WSJ6chDataModule.__init__ and setup).
   Samples are integers (the files hold PCM; torchaudio divides all of them by one power of two),
   and torch.mean is exact, so that it is zero exactly when the sum is.  The rounding of float
   numbers is not modelled; in particular max_len_s is a fraction. *)
From Coq Require Import List ZArith Bool String DecimalString.
From Verif Require Import Py DataModel.
Import ListNotations.
Local Open Scope py_scope.
Set Implicit Arguments.

(* l[i] of a Python list or of a one-dimensional tensor: negative indices count from the end *)
Definition pyget {A} (l : list A) (i : Z) : result A :=
  let n := Z.of_nat (List.length l) in
  let j := if (i <? 0)%Z then (i + n)%Z else i in
  if ((0 <=? j) && (j <? n))%Z then
    match nth_error l (Z.to_nat j) with Some a => Ok a | None => raise IndexError end
  else raise IndexError.
(* one end of a slice of something with n elements *)
Definition bound (n : nat) (i : Z) : nat :=
  let m := Z.of_nat n in Z.to_nat (Z.min m (Z.max 0 (if (i <? 0)%Z then i + m else i)%Z)).
(* l[:n] *)
Definition upto {A} (l : list A) (n : Z) : list A := firstn (bound (List.length l) n) l.
(* x[..., s:e] of a tensor (channels, samples) *)
Definition crop (s e : Z) (x : sig Z) : sig Z :=
  let a := bound (len x) s in
  mksig (chans x) (bound (len x) e - a) (fun c t => at_ x c (a + t)).

(* dataloader.py:126-128 the entries of a line of mixinfo_noise.json that are used, paths being lists
   of parts *)
Definition path := list string.
Record room := mkroom {
  mixed_reverberant : path; mixed_noise_reverb : path;
  image_reverberant : list path; image_anechoic : list path;
  n_samples_original : list Z; offset : list Z }.
(* dataloader.py:116-123 the attributes of the dataset; max_len_s is num/den seconds *)
Record dataset := mkds {
  max_len_s : option (Z * positive); ref_mic : Z; shuffle_channels : bool; shuffle_ref : bool;
  ref_is_reverb : bool; noiseless : bool; metadata : list room }.
(* 103-132 __init__, given the values of the JSON object in the file's order *)
Definition dataset_init (max_len_s : option (Z * positive)) (ref_mic : Z)
    (shuffle_channels shuffle_ref ref_is_reverb noiseless : bool) (max_n_samples : option Z)
    (values : list room) : dataset :=
  mkds max_len_s ref_mic shuffle_channels shuffle_ref ref_is_reverb noiseless
    match max_n_samples with None => values | Some n => upto values n end.         (* 131-132 *)
(* 134-135 __len__ *)
Definition n_items (d : dataset) : nat := List.length (metadata d).

(* 150, 159 Path("").joinpath of parts[-3:] *)
Definition relative (p : path) : path := skipn (List.length p - 3) p.

Section Item.
(* torchaudio.load of a file below dataset_location: samples and sampling rate *)
Variable load : path -> option (sig Z * Z).
Definition open_wav (p : path) : result (sig Z * Z) :=
  match load p with Some w => Ok w | None => raise FileError end.
(* the random numbers of one call of __getitem__: torch.randperm, torch.randint and
   random.randint(0, len - 1) *)
Record draw := mkdraw { d_perm : nat -> list nat; d_ref : nat -> nat; d_idx : nat -> Z }.

(* 181-188 the references *)
Fixpoint load_refs (fs : Z) (mic : nat) (fns : list path) : result (list (nat * (nat -> Z))) :=
  match fns with
  | [] => Ok []
  | f :: fns' =>
      let* (x, fs') := open_wav (relative f) in
      if negb (fs =? fs')%Z then raise AssertionError                              (* 186 *)
      else if negb (mic <? chans x)%nat then raise IndexError                      (* 188 *)
      else
        let* r := load_refs fs mic fns' in
        Ok ((len x, at_ x mic) :: r)
  end.
(* 190 torch.cat(dim=0) of tensors (1, samples) *)
Definition cat (l : list (nat * (nat -> Z))) : result (sig Z) :=
  match l with
  | [] => raise RuntimeError
  | (n, _) :: _ =>
      if forallb (fun r => (fst r =? n)%nat) l
      then Ok (mksig (List.length l) n (fun c t => match nth_error l c with Some r => snd r t | None => 0%Z end))
      else raise RuntimeError
  end.
(* 142-192 the mixture with its channels in the order p, the references and the sampling rate *)
Definition signals (d : dataset) (w : draw) (r : room) : result (sig Z * sig Z * Z) :=
  let mix_fn := if noiseless d then mixed_reverberant r else mixed_noise_reverb r in        (* 144-147 *)
  let ref_fns := if ref_is_reverb d then image_reverberant r else image_anechoic r in       (* 152-155 *)
  let* (mix, fs) := open_wav (relative mix_fn) in                                           (* 163 *)
  let n := chans mix in                                                                     (* 166 *)
  let p := if shuffle_channels d then d_perm w n else seq 0 n in                            (* 169-172 *)
  let* mic := if shuffle_ref d
              then (if (n =? 0)%nat then raise RuntimeError else Ok (d_ref w n))            (* 179 *)
              else pyget p (ref_mic d) in                                                   (* 176 *)
  let* refs := load_refs fs mic ref_fns in
  let* ref := cat refs in
  Ok (mksig n (len mix) (fun c t => at_ mix (nth c p 0%nat) t), ref, fs).                   (* 192 *)

(* 206 torch.mean(dim=-1) == 0: the mean of no samples is nan *)
Definition sum_upto (n : nat) (f : nat -> Z) : Z := fold_right (fun t s => (f t + s)%Z) 0%Z (seq 0 n).
Definition mean_zero (x : sig Z) (c : nat) : bool :=
  negb (len x =? 0)%nat && (sum_upto (len x) (at_ x c) =? 0)%Z.
(* 140-213 __getitem__: every call uses one element of the list of random numbers; when the list
   ends the recursion is too deep (RecursionError is a RuntimeError) *)
Fixpoint getitem (ws : list draw) (d : dataset) (idx : Z) : result (sig Z * sig Z) :=
  match ws with
  | [] => raise RuntimeError
  | w :: ws' =>
      let* r := pyget (metadata d) idx in                                                   (* 142 *)
      let* (mix, ref, fs) := signals d w r in
      match max_len_s d with
      | None => Ok (mix, ref)                                                               (* 194-195 *)
      | Some (num, den) =>
          let n_target := Z.quot (fs * num) (Zpos den) in                                   (* 198: int() *)
          let* (s, e) := compute_interval n_target (Z.of_nat (len mix))
                           (n_samples_original r) (offset r) in                             (* 199-204 *)
          if existsb (mean_zero (crop s e ref)) (seq 0 (chans ref))                         (* 206-211 *)
          then getitem ws' d (d_idx w (n_items d))
          else Ok (crop s e mix, crop s e ref)                                              (* 213 *)
      end
  end.
End Item.

(* ---- data_module.py *)
(* the keys of train_n_channels: integers, or strings when the dict comes from a JSON file *)
Inductive key := KInt (z : Z) | KStr (s : string).
Definition key_eqb (a b : key) : bool :=
  match a, b with
  | KInt x, KInt y => (x =? y)%Z
  | KStr x, KStr y => String.eqb x y
  | _, _ => false
  end.
(* int(nch); strings with spaces, underscores or a plus sign, which int accepts as well, are not
   modelled *)
Definition to_int (k : key) : result Z :=
  match k with
  | KInt z => Ok z
  | KStr s => match NilZero.int_of_string s with Some i => Ok (Z.of_int i) | None => raise ValueError end
  end.
(* str(nch) *)
Definition str (z : Z) : string := NilZero.string_of_int (Z.to_int z).
(* d[k] = v of a dict, which keeps the place of a key that is present *)
Fixpoint dset {K V} (eqb : K -> K -> bool) (d : list (K * V)) (k : K) (v : V) : list (K * V) :=
  match d with
  | [] => [(k, v)]
  | (k', v') :: d' => if eqb k' k then (k', v) :: d' else (k', v') :: dset eqb d' k v
  end.
Fixpoint dget {K V} (eqb : K -> K -> bool) (d : list (K * V)) (k : K) : result V :=
  match d with
  | [] => raise KeyError
  | (k', v) :: d' => if eqb k' k then Ok v else dget eqb d' k
  end.
(* train_n_channels: an integer (or string), a list of them, or a dict with the number of samples *)
Inductive channels := COne (k : key) | CList (l : list key) | CDict (l : list (key * option Z)).
(* data_module.py:71-77 *)
Definition as_dict (c : channels) : list (key * option Z) :=
  match c with
  | COne k => [(k, None)]
  | CList l => fold_left (fun d k => dset key_eqb d k None) l []
  | CDict l => l
  end.
(* 78-83 *)
Fixpoint convert (acc : list (Z * option Z)) (l : list (key * option Z)) : result (list (Z * option Z)) :=
  match l with
  | [] => Ok acc
  | (k, n) :: l' =>
      let* z := to_int k in
      convert (dset Z.eqb acc z (match n with Some (-1)%Z => None | _ => n end)) l'
  end.
Definition train_channels (c : channels) : result (list (Z * option Z)) := convert [] (as_dict c).
(* 86-92 *)
Fixpoint sizes (given : list (string * Z)) (l : list (Z * option Z)) : result (list (Z * Z)) :=
  match l with
  | [] => Ok []
  | (m, _) :: l' =>
      let* b := dget String.eqb given (str m) in
      let* r := sizes given l' in
      Ok ((m, b) :: r)
  end.
Definition train_sizes (batch_size : Z) (given : option (list (string * Z))) (l : list (Z * option Z))
    : result (list (Z * Z)) :=
  match given with
  | None => Ok (map (fun p => (fst p, batch_size)) l)
  | Some g => sizes g l
  end.

(* the parameters of WSJ6chDataModule that reach a dataset (38-52); ref_is_reverb may be left out,
   and -1 stands for no max_len_s *)
Record params := mkparams {
  p_batch_size : Z; p_max_len_s : option (Z * positive); p_shuffle_channels : bool; p_shuffle_ref : bool;
  p_train_n_channels : channels; p_train_n_batch_sizes : option (list (string * Z));
  p_valid_n_channels : option Z; p_noiseless : bool; p_ref_is_reverb : option bool }.
(* 61-63 *)
Definition crop_length (m : option (Z * positive)) : option (Z * positive) :=
  match m with
  | Some (num, den) => if (num =? - Zpos den)%Z then None else m
  | None => None
  end.
(* `if self.ref_is_reverb` (dataloader.py:152) of None *)
Definition truth (b : option bool) : bool := match b with Some b => b | None => false end.
(* __init__ and setup, 94-127: the training sets with their number of channels and batch size, and
   the validation (or test) set, given the rooms of si284 and of dev93 (eval92) *)
Definition data_module (q : params) (train valid : list room)
    : result (list (Z * Z * dataset) * dataset) :=
  let* l := train_channels (p_train_n_channels q) in
  let* b := train_sizes (p_batch_size q) (p_train_n_batch_sizes q) l in
  Ok (map (fun x : (Z * option Z) * (Z * Z) =>
        (fst (fst x), snd (snd x),
         dataset_init (crop_length (p_max_len_s q)) 0 (p_shuffle_channels q) (p_shuffle_ref q)
           (truth (p_ref_is_reverb q)) (p_noiseless q) (snd (fst x)) train)) (combine l b),
      dataset_init None 0 false false (truth (p_ref_is_reverb q)) (p_noiseless q) None valid).
