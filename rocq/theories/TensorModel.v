(* Tensors with their values and the torch operations used in /repo.  A tensor is its shape
   (last dimension first, as in TorchShape.v) and the value at each index list (last index
   first).  The shape of every result, and every exception that depends on shapes only, is
   that of TorchShape.v.  Values are exact complex numbers; dtypes, strides and devices
   are not modelled (a view is a copy: no modelled function writes into a view). *)
From Coq Require Import String Ascii ZArith.
From mathcomp Require Import all_ssreflect all_algebra.
From Verif Require TorchShape.
From Verif Require Import CAlg Py Batch LinalgModel.
Set Implicit Arguments. Unset Strict Implicit. Unset Printing Implicit Defensive.
Import GRing.Theory Num.Theory.
Local Open Scope ring_scope.
Local Open Scope py_scope.

(* i is an index list for shape s *)
Fixpoint inr (s i : seq nat) : bool :=
  match s, i with
  | [::], [::] => true
  | n :: s', x :: i' => (x < n)%N && inr s' i'
  | _, _ => false
  end.
(* all index lists *)
Fixpoint idxs (s : seq nat) : seq (seq nat) :=
  if s is n :: s' then flatten [seq [seq x :: i | x <- iota 0 n] | i <- idxs s'] else [:: [::]].
(* broadcasting: the index used in an operand of shape s *)
Fixpoint clip (s i : seq nat) : seq nat :=
  match s, i with
  | n :: s', x :: i' => (if n == 1%N then 0%N else x) :: clip s' i'
  | _, _ => [::]
  end.
(* position of an index in memory order, and back *)
Fixpoint flat (s i : seq nat) : nat :=
  match s, i with n :: s', x :: i' => (x + n * flat s' i')%N | _, _ => 0%N end.
Fixpoint unflat (s : seq nat) (k : nat) : seq nat :=
  if s is n :: s' then (k %% n)%N :: unflat s' (k %/ n)%N else [::].
(* an index i, possibly negative, of a dimension of size n *)
Definition zidx (n : nat) (i : Z) : nat := Z.to_nat (if Z.ltb i Z0 then Z.add (Z.of_nat n) i else i).

Section Tensor.
Variable C : numClosedFieldType.
Record tensor := mkT { sh : seq nat; at_ : seq nat -> C }.
Implicit Types (t u : tensor) (i j : seq nat).

(* elementwise functions of one and of two tensors *)
Definition tmap (f : C -> C) t : tensor := mkT (sh t) (fun i => f (at_ t i)).
Definition tzip (f : C -> C -> C) t u : result tensor :=
  let* s := TorchShape.bcast (sh t) (sh u) in
  Ok (mkT s (fun i => f (at_ t (clip (sh t) i)) (at_ u (clip (sh u) i)))).
Definition tadd t u := tzip +%R t u.
Definition tsub t u := tzip (fun x y => x - y) t u.
Definition tmul t u := tzip *%R t u.
(* division by zero gives inf or NaN in torch, here zero: statements exclude it *)
Definition tdiv t u := tzip (fun x y => x / y) t u.
(* indexing, see TorchShape.v *)
Definition select (p : nat) (k : Z) t : result tensor :=
  let* s := TorchShape.select p k (sh t) in
  Ok (mkT s (fun i => at_ t (TorchShape.ins p (zidx (nth 0%N (sh t) p) k) i))).
Definition pick (p : nat) (k : Z) t : result tensor :=
  let* s := TorchShape.pick p k (sh t) in
  Ok (mkT s (fun i => at_ t (TorchShape.set p (zidx (nth 0%N (sh t) p) k) i))).
Definition slice_to (p hi : nat) t : result tensor :=
  let* s := TorchShape.slice_to p hi (sh t) in Ok (mkT s (at_ t)).
Definition slice_from (p lo : nat) t : result tensor :=
  let* s := TorchShape.slice_from p lo (sh t) in
  Ok (mkT s (fun i => at_ t (TorchShape.set p (lo + nth 0%N i p)%N i))).
Definition slice_last (p k : nat) t : result tensor :=
  let* s := TorchShape.slice_last p k (sh t) in Ok (mkT s (at_ t)).
Definition unsq (p : nat) t : result tensor :=
  let* s := TorchShape.unsq p (sh t) in Ok (mkT s (fun i => at_ t (TorchShape.del p i))).
Definition transpose (p q : nat) t : result tensor :=
  let* s := TorchShape.transpose p q (sh t) in
  Ok (mkT s (fun i => at_ t (TorchShape.set q (nth 0%N i p) (TorchShape.set p (nth 0%N i q) i)))).
(* sums over one dimension *)
Definition tsum (p : nat) t : result tensor :=
  let* s := TorchShape.reduce p (sh t) in
  Ok (mkT s (fun i => \sum_(k < nth 0%N (sh t) p) at_ t (TorchShape.ins p k i))).
Definition tsum_keep (p : nat) t : result tensor :=
  let* s := TorchShape.reduce_keep p (sh t) in
  Ok (mkT s (fun i => \sum_(k < nth 0%N (sh t) p) at_ t (TorchShape.set p k i))).
(* mean; over an empty dimension NaN in torch, here zero *)
Definition tmean (p : nat) t : result tensor :=
  let* s := tsum p t in Ok (tmap (fun x => x / (nth 0%N (sh t) p)%:R) s).
(* max(dim, keepdim=True).values of non-negative numbers *)
Definition tmax_keep (p : nat) t : result tensor :=
  let* s := TorchShape.amax_keep p (sh t) in
  Ok (mkT s (fun i => \big[Num.max/0]_(k < nth 0%N (sh t) p) at_ t (TorchShape.set p k i))).
Definition diagonal t : result tensor :=
  let* s := TorchShape.diagonal (sh t) in
  Ok (mkT s (fun i => if i is x :: r then at_ t (x :: x :: r) else 0)).
Definition reshape (s : seq nat) t : result tensor :=
  let* s := TorchShape.reshape s (sh t) in Ok (mkT s (fun i => at_ t (unflat (sh t) (flat s i)))).
(* torch.nn.functional.pad(x, (n, 0)) *)
Definition pad_left (n : nat) t : result tensor :=
  let* s := TorchShape.pad_left n (sh t) in
  Ok (mkT s (fun i => if i is x :: r then (if (x < n)%N then 0 else at_ t ((x - n)%N :: r)) else 0)).
(* torch.eye(n) *)
Definition teye (n : nat) : tensor := mkT [:: n; n] (fun i => if i is [:: x; y] then (x == y)%:R else 0).

(* ---- torch.einsum, subscripts without the ellipsis at the start of each *)
Definition labels (l : string) : seq ascii := List.rev (TorchShape.chars l).
Definition read (e : seq (ascii * nat)) (c : ascii) : nat :=
  if TorchShape.lookup c e is Some x then x else 0%N.
(* sum over the values of the given labels *)
Fixpoint sum_labels (ls : seq (ascii * nat)) (e : seq (ascii * nat)) (g : seq (ascii * nat) -> C) : C :=
  if ls is (c, n) :: ls' then \sum_(k < n) sum_labels ls' ((c, nat_of_ord k) :: e) g else g e.
Fixpoint operands (subs : seq string) (ops : seq tensor) (b : seq nat) (e : seq (ascii * nat)) : seq C :=
  match subs, ops with
  | l :: subs', t :: ops' => at_ t (clip (sh t) ([seq read e c | c <- labels l] ++ b)) :: operands subs' ops' b e
  | _, _ => [::]
  end.
Definition product (l : seq C) : C := if l is x :: l' then foldl *%R x l' else 1.
Definition einsum (subs : seq string) (out : string) (ops : seq tensor) : result tensor :=
  let* s := TorchShape.einsum subs out [seq sh t | t <- ops] in
  let* (e, _) := TorchShape.bind_operands subs [seq sh t | t <- ops] [::] [::] in
  let lo := labels out in
  let summed := [seq p <- e | ~~ List.existsb (Ascii.eqb p.1) lo] in
  Ok (mkT s (fun i => sum_labels summed (zip lo (take (List.length lo) i)) (fun e' => product (operands subs ops (drop (List.length lo) i) e')))).

(* ---- linear algebra: every matrix of the batch *)
Definition mat n k t (b : seq nat) : 'M[C]_(n, k) := \matrix_(i, j) at_ t (nat_of_ord j :: nat_of_ord i :: b).
Definition vec n t (b : seq nat) : 'cV[C]_n := \col_i at_ t (nat_of_ord i :: b).
Definition get n k (M : 'M[C]_(n, k)) (x y : nat) : C :=
  match insub x, insub y with Some i, Some j => M i j | _, _ => 0 end.
(* all results, or the first exception *)
Definition mapb (U : Type) (dflt : U) (s : seq nat) (g : seq nat -> result U) : result (seq nat -> U) :=
  if pmap (@err_of U) (map g (idxs s)) is e :: _ then Err e else Ok (fun i => if g i is Ok x then x else dflt).
(* a @ b *)
Definition matmul t u : result tensor :=
  let* s := TorchShape.matmul (sh t) (sh u) in
  match sh t, sh u with
  | k :: _ :: rt, _ :: _ :: ru =>
      Ok (mkT s (fun i => if i is y :: x :: b then \sum_(j < k) at_ t [:: nat_of_ord j, x & clip rt b] * at_ u [:: y, nat_of_ord j & clip ru b] else 0))
  | _, _ => raise RuntimeError
  end.
(* torch.linalg.solve *)
Definition solve (A b : tensor) : result tensor :=
  let* s := TorchShape.solve (sh A) (sh b) in
  if TorchShape.is_vector_rhs (sh A) (sh b) then
    match sh A, sh b, s with
    | n :: _ :: rA, _ :: rb, _ :: r =>
        let* X := mapb 0 r (fun i => torch_solve (mat n n A (clip rA i)) (vec n b (clip rb i))) in
        Ok (mkT s (fun j => if j is x :: i then get (X i) x 0 else 0))
    | _, _, _ => raise RuntimeError
    end
  else
    match sh A, sh b, s with
    | n :: _ :: rA, k :: _ :: rb, _ :: _ :: r =>
        let* X := mapb 0 r (fun i => torch_solve (mat n n A (clip rA i)) (mat n k b (clip rb i))) in
        Ok (mkT s (fun j => if j is y :: x :: i then get (X i) x y else 0))
    | _, _, _ => raise RuntimeError
    end.

(* ---- torchiva/linalg.py *)
(* linalg.py:82-88 *)
Definition solve_loaded (A b : tensor) (load : C) : result tensor :=
  let* n := TorchShape.size 0 (sh A) in
  let eye := teye n in
  let* m := tmax_keep 1 (tmap (fun x => `|x|) A) in let* m := tmax_keep 0 m in
  let load_factor := tmap (fun x => clamp (load * x) load) m in
  let* d := tmul load_factor eye in
  let* Al := tadd A d in
  solve Al b.
(* linalg.py:65-72 *)
Definition bmm (A B : tensor) : result tensor :=
  let re := (fun z : C => 'Re z) in let im := (fun z : C => 'Im z) in
  let* rr := matmul (tmap re A) (tmap re B) in let* ii := matmul (tmap im A) (tmap im B) in
  let* ri := matmul (tmap re A) (tmap im B) in let* ir := matmul (tmap im A) (tmap re B) in
  let* real_part := tsub rr ii in let* imag_part := tadd ri ir in
  tzip (fun x y => x + 'i * y) real_part imag_part.
(* linalg.py:75-79 *)
Definition hermite (A : tensor) : result tensor := let* T := transpose 1 0 A in Ok (tmap conjC T).
(* linalg.py:315-321: row r, column c of the Hankel matrix is x[..., r + c] *)
Definition hankel_view (x : tensor) (n_rows : nat) : result tensor :=
  let* n := TorchShape.size 0 (sh x) in
  if (n + 1 < n_rows)%N then raise RuntimeError
  else Ok (mkT (n + 1 - n_rows :: n_rows :: behead (sh x))%N (fun i => if i is c :: r :: i' then at_ x ((r + c)%N :: i') else 0)).
End Tensor.
Arguments einsum {C}. Arguments mkT {C}.
