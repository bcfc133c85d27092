(* Strided tensors: a model of torch storage, strides, as_strided, pad and
   slicing, and of the delay line built in torchiva/t_iss.py:463-466 and
   torchiva/wpe.py:157-160.  Dimensions are kept in reversed order: the head of
   the list is the last dimension; the tail (channels, frequencies, batch) is
   arbitrary. *)
From mathcomp Require Import all_ssreflect.
From Verif Require Import Py.
Set Implicit Arguments. Unset Strict Implicit. Unset Printing Implicit Defensive.
Local Open Scope py_scope.

Section Strided.
Variables (V : Type) (zero : V).

(* a tensor: its storage (a flat list of cells), offset and reversed (size, stride) list *)
Record tensor := Tensor { data : seq V; off : nat; dims : seq (nat * nat) }.
Definition addr_of (o : nat) (ds : seq (nat * nat)) (idx : seq nat) : nat :=
  o + sumn [seq p.1 * p.2.2 | p <- zip idx ds].
Definition addr t idx := addr_of (off t) (dims t) idx.
Definition inside (ds : seq (nat * nat)) (idx : seq nat) : bool :=
  (size idx == size ds) && all (fun p => p.1 < p.2.1) (zip idx ds).
Definition get (t : tensor) (idx : seq nat) : V := nth zero (data t) (addr t idx).

(* torch's check that a strided view stays inside its storage; an empty view needs no cell *)
Definition numel (ds : seq (nat * nat)) : nat := \prod_(d <- ds) d.1.
Definition last_addr (o : nat) (ds : seq (nat * nat)) : nat :=
  o + sumn [seq (d.1).-1 * d.2 | d <- ds].
Definition fits (n o : nat) (ds : seq (nat * nat)) : bool :=
  (numel ds == 0) || (last_addr o ds < n).

(* torch.as_strided(x, size, stride): same storage and offset as x; RuntimeError when out of bounds *)
Definition as_strided (t : tensor) (ds : seq (nat * nat)) : result tensor :=
  if fits (size (data t)) (off t) ds then Ok (Tensor (data t) (off t) ds) else raise RuntimeError.

(* torchiva/linalg.py:315-321 hankel_view; a negative size is a RuntimeError; a
   0-dimensional x is an IndexError (x.shape[-1]) *)
Definition hankel_view (t : tensor) (n_rows : nat) : result tensor :=
  match dims t with
  | [::] => raise IndexError
  | (len, s) :: tl =>
      if (len + 1 < n_rows)%N then raise RuntimeError
      else as_strided t ((len + 1 - n_rows, s) :: (n_rows, s) :: tl)
  end.

(* a freshly allocated contiguous tensor with given sizes and content *)
Fixpoint cstrides (s : nat) (ds : seq nat) : seq (nat * nat) :=
  if ds is d :: ds' then (d, s) :: cstrides (s * d) ds' else [::].
Fixpoint unravel (ds : seq nat) (a : nat) : seq nat :=
  if ds is d :: ds' then (a %% d) :: unravel ds' (a %/ d) else [::].
Definition contig (ds : seq nat) (f : seq nat -> V) : tensor :=
  Tensor [seq f (unravel ds a) | a <- iota 0 (\prod_(d <- ds) d)] 0 (cstrides 1 ds).

(* torch.nn.functional.pad(x, (k, 0)) with zeros *)
Definition pad_left (t : tensor) (k : nat) : result tensor :=
  match dims t with
  | [::] => raise RuntimeError
  | (len, s) :: tl =>
      Ok (contig (len + k :: unzip1 tl)
        (fun idx => if idx is p :: r then (if p < k then zero else get t (p - k :: r)) else zero))
  end.

(* x[..., : -d - 1, :]  for d >= 0 *)
Definition drop_last_rows (t : tensor) (d : nat) : result tensor :=
  match dims t with
  | c :: (n, s) :: tl => Ok (Tensor (data t) (off t) (c :: (n - (d + 1), s) :: tl))
  | _ => raise IndexError
  end.

(* torchiva/t_iss.py:464-466, torchiva/wpe.py:158-160 *)
Definition delay_line (x : tensor) (n_taps n_delay : nat) : result tensor :=
  let* x_pad := pad_left x (n_taps + n_delay) in
  let* x_hankel := hankel_view x_pad (n_taps + n_delay + 1) in
  drop_last_rows x_hankel n_delay.
End Strided.
