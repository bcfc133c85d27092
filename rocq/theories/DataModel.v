(* Model of the data pipeline of the examples: examples/dataloader.py. *)
From Coq Require Import List ZArith Bool.
From Verif Require Import Py.
Import ListNotations.
Local Open Scope py_scope.
Set Implicit Arguments.

(* ---- dataloader.py:34-75  compute_interval.  All numbers are integers below 2^52, so that the
   float midpoint is exact; it is kept doubled here.  np.max / np.min of nothing raises
   ValueError; arrays of different lengths (which numpy might broadcast) are not modelled. *)
Definition list_max (x : Z) (l : list Z) : Z := fold_left Z.max l x.
Definition list_min (x : Z) (l : list Z) : Z := fold_left Z.min l x.
Definition compute_interval (n_target n_mix : Z) (n_originals n_offsets : list Z) : result (Z * Z) :=
  if (n_mix <=? n_target)%Z then Ok (0%Z, n_mix)                                  (* 51-52 *)
  else
    let ends := map (fun p => fst p + snd p)%Z (combine n_offsets n_originals) in
    match n_offsets, ends with
    | o :: os, e :: es =>
        let left := list_max o os in                                             (* 60 *)
        let right := list_min e es in
        let start2 := (left + right - 2 * (n_target / 2))%Z in                   (* 64-67 *)
        let end2 := (start2 + 2 * n_target)%Z in
        if (start2 <? 0)%Z then Ok (0%Z, n_target)                               (* 71-72 *)
        else if (2 * n_mix <=? end2)%Z then Ok ((n_mix - n_target)%Z, n_mix)     (* 73-74 *)
        else Ok (Z.quot start2 2, Z.quot end2 2)                                 (* 75-76: int() *)
    | _, _ => raise ValueError
    end.

(* ---- dataloader.py:216-238  collator *)
Section Collate.
Variables (S : Type) (zero : S).
(* a tensor (channels, samples) *)
Record sig := mksig { chans : nat; len : nat; at_ : nat -> nat -> S }.
Definition maximum (x : nat) (l : list nat) : nat := fold_left Nat.max l x.
(* buf[:, o : o + L] = d, buf having nch channels of n samples: the slice stops at n, and d must
   have its shape, or be broadcast to it *)
Definition assign (nch n o : nat) (buf : nat -> nat -> S) (d : sig) : result (nat -> nat -> S) :=
  let L := Nat.min (o + len d) n - Nat.min o n in
  if ((chans d =? nch) || (chans d =? 1)) && ((len d =? L) || (len d =? 1)) then
    Ok (fun c t => if (o <=? t) && (t <? o + L)
                   then at_ d (if chans d =? 1 then 0 else c) (if len d =? 1 then 0 else t - o)
                   else buf c t)
  else raise RuntimeError.
(* one row of data and of target *)
Fixpoint fill (mix_ch ref_ch max_len : nat) (l : list (sig * sig)) : result (list ((nat -> nat -> S) * (nat -> nat -> S))) :=
  match l with
  | [] => Ok []
  | (d, t) :: l' =>
      let o := (max_len - len d) / 2 in                                          (* 232 *)
      let* x := assign mix_ch max_len o (fun _ _ => zero) d in                   (* 235 *)
      let* y := assign ref_ch max_len o (fun _ _ => zero) t in                   (* 236 *)
      let* r := fill mix_ch ref_ch max_len l' in
      Ok ((x, y) :: r)
  end.
(* shapes and contents of data and target: (batch, mix channels, ref channels, samples) *)
Record collated := mkcol { n_batch : nat; mix_ch : nat; ref_ch : nat; n_samples : nat;
  rows : list ((nat -> nat -> S) * (nat -> nat -> S)) }.
Definition collator (l : list (sig * sig)) : result collated :=
  match l with
  | [] => raise ValueError                                                       (* max([]) *)
  | (d, t) :: l' =>
      let m := maximum (len d) (map (fun p => len (fst p)) l') in
      let* r := fill (chans d) (chans t) m l in
      Ok (mkcol (length l) (chans d) (chans t) m r)
  end.
End Collate.

(* ---- dataloader.py:275-316  InterleavedLoaders *)
Section Loaders.
Variable B : Type.
(* the batches of every loader the e-th time iter() is called on it (a loader may shuffle) *)
Variable contents : nat -> list (list B).
(* an iterator is the list of the batches it has not delivered yet *)
Record inter := mkinter { iters : list (list B); calls : nat }.
Definition reset (e : nat) : inter := mkinter (contents e) (S e).                (* 291-292 *)
Definition init : inter := reset 0.                                              (* 287-289 *)
Definition total (e : nat) : nat := fold_right (fun l n => length l + n) 0 (contents e).   (* 294-295 *)
(* 301-313  tried: the iterators found empty so far *)
Fixpoint scan (tried rest : list (list B)) : option (B * list (list B)) :=
  match rest with
  | [] => None
  | (b :: dl) :: rest' => Some (b, rest' ++ tried ++ [dl])
  | [] :: rest' => scan (tried ++ [[]]) rest'
  end.
(* None is StopIteration *)
Definition next (s : inter) : option B * inter :=
  match scan [] (iters s) with
  | Some (b, it) => (Some b, mkinter it (calls s))
  | None => (None, reset (calls s))                                              (* 315-317 *)
  end.
End Loaders.
