(* Shapes of tensors and the torch operations used in /repo, as far as shapes are
   concerned.  A shape is the list of the sizes with the LAST dimension FIRST (the
   code addresses dimensions from the end), so that a tensor of Python shape
   batch + (c, f, n) is  n :: f :: c :: rev batch.  Position p below is the Python
   dimension -(p+1).  Exceptions that depend on the values (singular matrices, ...) are
   not part of this tier; they are in the numeric tier. *)
From Coq Require Import String Ascii List ZArith Bool Arith.
From Verif Require Import Py.
Import ListNotations.
Local Open Scope string_scope.
Local Open Scope list_scope.
Local Open Scope py_scope.
Set Implicit Arguments.

Notation shape := (list nat) (only parsing).

(* torch broadcasting semantics (used by every elementwise operation) *)
Definition bc2 (a b : nat) : result nat :=
  if Nat.eqb a b then Ok a else if Nat.eqb a 1 then Ok b else if Nat.eqb b 1 then Ok a else raise RuntimeError.
Fixpoint bcast (a b : shape) : result shape :=
  match a, b with
  | [], _ => Ok b
  | _, [] => Ok a
  | x :: a', y :: b' => let* z := bc2 x y in let* r := bcast a' b' in Ok (z :: r)
  end.
Fixpoint seqb (a b : shape) : bool :=
  match a, b with
  | [], [] => true
  | x :: a', y :: b' => Nat.eqb x y && seqb a' b'
  | _, _ => false
  end.
(* torch.broadcast_to(v, t), and the assignment of v to a slice of shape t (torch also
   drops leading dimensions of size 1 of v in an assignment; not needed here) *)
Definition expand_to (v t : shape) : result shape :=
  let* r := bcast v t in if seqb r t then Ok t else raise RuntimeError.

(* s.shape[-(p+1)] *)
Definition size (p : nat) (s : shape) : result nat :=
  match nth_error s p with Some n => Ok n | None => raise IndexError end.
Definition set (p n : nat) (s : shape) : shape := firstn p s ++ n :: skipn (S p) s.
Definition del (p : nat) (s : shape) : shape := firstn p s ++ skipn (S p) s.
Definition ins (p n : nat) (s : shape) : shape := firstn p s ++ n :: skipn p s.
(* an index i is valid for a dimension of size n when -n <= i < n *)
Definition valid (n : nat) (i : Z) : bool := (Z.leb (- Z.of_nat n) i && Z.ltb i (Z.of_nat n))%bool.
(* s[..., i, (p times :)] *)
Definition select (p : nat) (i : Z) (s : shape) : result shape :=
  let* n := size p s in if valid n i then Ok (del p s) else raise IndexError.
(* s[..., [i], (p times :)] *)
Definition pick (p : nat) (i : Z) (s : shape) : result shape :=
  let* n := size p s in if valid n i then Ok (set p 1 s) else raise IndexError.
(* s[..., lo:hi, (p times :)] for 0 <= lo, hi *)
Definition slice (p lo hi : nat) (s : shape) : result shape :=
  let* n := size p s in Ok (set p (Nat.min n hi - Nat.min n lo) s).
Definition slice_to p hi s := slice p 0 hi s.
Definition slice_from (p lo : nat) (s : shape) : result shape :=
  let* n := size p s in Ok (set p (n - lo) s).
(* s[..., :-k, (p times :)] for k > 0 *)
Definition slice_last (p k : nat) (s : shape) : result shape :=
  let* n := size p s in Ok (set p (n - k) s).
(* s[..., None, (p times :)] *)
Definition unsq (p : nat) (s : shape) : result shape :=
  if Nat.leb p (length s) then Ok (ins p 1 s) else raise IndexError.
(* transpose(-(p+1), -(q+1)) *)
Definition transpose (p q : nat) (s : shape) : result shape :=
  let* a := size p s in let* b := size q s in Ok (set q a (set p b s)).
(* moveaxis(-(p+1), -(q+1)) *)
Definition moveaxis (p q : nat) (s : shape) : result shape :=
  let* a := size p s in let* _ := size q s in Ok (ins q a (del p s)).
(* permute([-2, -1, -3]): all dimensions must be listed *)
Definition permute_213 (s : shape) : result shape :=
  match s with
  | [a; b; c] => Ok [c; a; b]
  | _ => raise RuntimeError
  end.
(* sum, mean, norm over dimension -(p+1), keepdim=True / False *)
Definition reduce_keep (p : nat) (s : shape) : result shape := let* _ := size p s in Ok (set p 1 s).
Definition reduce (p : nat) (s : shape) : result shape := let* _ := size p s in Ok (del p s).
(* max(dim=-(p+1), keepdim=True).values needs a non-empty dimension *)
Definition amax_keep (p : nat) (s : shape) : result shape :=
  let* n := size p s in if Nat.eqb n 0 then raise IndexError else Ok (set p 1 s).
(* torch.diagonal(dim1=-2, dim2=-1) *)
Definition diagonal (s : shape) : result shape :=
  match s with b :: a :: r => Ok (Nat.min a b :: r) | _ => raise IndexError end.
(* torch.cat of two tensors along dimension -(p+1) *)
Definition cat2 (p : nat) (a b : shape) : result shape :=
  let* x := size p a in let* y := size p b in
  if seqb (del p a) (del p b) then Ok (set p (x + y) a) else raise RuntimeError.
(* torch.stack of two tensors along the new last dimension *)
Definition stack2 (a b : shape) : result shape := if seqb a b then Ok (2 :: a) else raise RuntimeError.
(* a @ b and torch.matmul for at least two dimensions *)
Definition matmul (a b : shape) : result shape :=
  match a, b with
  | k :: n :: ra, m :: k' :: rb =>
      if Nat.eqb k k' then let* r := bcast ra rb in Ok (m :: n :: r) else raise RuntimeError
  | _, _ => raise RuntimeError
  end.
Definition square (a : shape) : bool := match a with m :: n :: _ => Nat.eqb m n | _ => false end.
(* torch.linalg.solve: b is a (batch of) vector(s) when it has one dimension or the
   shape of A without its last dimension, otherwise a (batch of) matrices *)
Definition is_vector_rhs (A b : shape) : bool :=
  Nat.eqb (length b) 1 || (Nat.eqb (length A) (S (length b)) && seqb b (tl A)).
Definition solve (A b : shape) : result shape :=
  if negb (square A) then raise RuntimeError else
  if is_vector_rhs A b then
    match A, b with
    | n :: _ :: rA, n' :: rb => if Nat.eqb n n' then let* r := bcast rA rb in Ok (n :: r) else raise RuntimeError
    | _, _ => raise RuntimeError
    end
  else
    match A, b with
    | n :: _ :: rA, k :: n' :: rb =>
        if Nat.eqb n n' then let* r := bcast rA rb in Ok (k :: n :: r) else raise RuntimeError
    | _, _ => raise RuntimeError
    end.
(* torch.linalg.inv *)
Definition inv (A : shape) : result shape := if square A then Ok A else raise RuntimeError.
(* torch.linalg.eigh: eigenvalues, eigenvectors *)
Definition eigh_torch (A : shape) : result (shape * shape) :=
  if square A then Ok (tl A, A) else raise RuntimeError.
Definition numel (s : shape) : nat := fold_right Nat.mul 1 s.
Definition reshape (t s : shape) : result shape :=
  if Nat.eqb (numel s) (numel t) then Ok t else raise RuntimeError.
(* reshape((-1,) + t): ambiguous, hence an error, when t has no elements *)
Definition reshape_m1 (t s : shape) : result shape :=
  let n := numel t in
  if Nat.eqb n 0 then raise RuntimeError
  else if Nat.eqb (Nat.modulo (numel s) n) 0 then Ok (t ++ [Nat.div (numel s) n]) else raise RuntimeError.
(* torch.nn.functional.pad(x, (n, 0)) *)
Definition pad_left (n : nat) (s : shape) : result shape := let* k := size 0 s in Ok (set 0 (n + k) s).

(* torch.einsum where every operand and the output start with an ellipsis; the
   subscripts are given without it.  Sizes of a label broadcast between operands. *)
Fixpoint chars (s : string) : list ascii :=
  match s with EmptyString => [] | String c s' => c :: chars s' end.
Fixpoint lookup (c : ascii) (e : list (ascii * nat)) : option nat :=
  match e with [] => None | (d, n) :: e' => if Ascii.eqb c d then Some n else lookup c e' end.
Fixpoint update (c : ascii) (n : nat) (e : list (ascii * nat)) : list (ascii * nat) :=
  match e with
  | [] => [(c, n)]
  | (d, m) :: e' => if Ascii.eqb c d then (d, n) :: e' else (d, m) :: update c n e'
  end.
(* labels (last first) of one operand: label sizes so far, ellipsis dimensions so far *)
Fixpoint bind_labels (ls : list ascii) (s : shape) (e : list (ascii * nat)) : result (list (ascii * nat) * shape) :=
  match ls, s with
  | [], _ => Ok (e, s)
  | c :: ls', n :: s' =>
      let* m := match lookup c e with Some m => bc2 m n | None => Ok n end in
      bind_labels ls' s' (update c m e)
  | _, [] => raise RuntimeError
  end.
Fixpoint bind_operands (subs : list string) (ops : list shape) (e : list (ascii * nat)) (ell : shape) :
    result (list (ascii * nat) * shape) :=
  match subs, ops with
  | [], [] => Ok (e, ell)
  | l :: subs', s :: ops' =>
      let* (e', r) := bind_labels (rev (chars l)) s e in
      let* ell' := bcast ell r in
      bind_operands subs' ops' e' ell'
  | _, _ => raise RuntimeError
  end.
Fixpoint read_labels (ls : list ascii) (e : list (ascii * nat)) : result shape :=
  match ls with
  | [] => Ok []
  | c :: ls' => match lookup c e with
                | Some n => let* r := read_labels ls' e in Ok (n :: r)
                | None => raise RuntimeError end
  end.
Definition einsum (subs : list string) (out : string) (ops : list shape) : result shape :=
  let* (e, ell) := bind_operands subs ops [] [] in
  let* r := read_labels (rev (chars out)) e in
  Ok (r ++ ell).

(* for i in range(n): a loop over a state, whose body may raise *)
Section Loop.
Variables (A : Type) (body : Z -> A -> result A).
Fixpoint loop_from (i n : nat) (a : A) : result A :=
  match n with O => Ok a | S n' => let* a' := body (Z.of_nat i) a in loop_from (S i) n' a' end.
Definition for_range (n : nat) (a : A) : result A := loop_from 0 n a.
End Loop.
(* a size given as a Python integer *)
Definition new_size (z : Z) : result nat := if Z.ltb z 0 then raise RuntimeError else Ok (Z.to_nat z).
