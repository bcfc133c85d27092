(* A batched torch operation (torch.linalg.solve over frequencies) succeeds only
   when it succeeds on every element of the batch; otherwise it raises. *)
From mathcomp Require Import all_ssreflect all_algebra.
From Verif Require Import Py.
Set Implicit Arguments. Unset Strict Implicit. Unset Printing Implicit Defensive.

Section Gather.
Variables (I : finType) (T : Type) (dflt : T).
Definition err_of (r : result T) : option exn := if r is Err e then Some e else None.
Definition gather (g : I -> result T) : result {ffun I -> T} :=
  if pmap err_of (map g (enum I)) is e :: _ then Err e
  else Ok [ffun f => if g f is Ok x then x else dflt].

Lemma pmap_nil (g : I -> result T) l :
  pmap err_of (map g l) = [::] -> forall f, f \in l -> exists x, g f = Ok x.
Proof.
elim: l => [|a l IH] //=; case E: (g a) => [x|e] //= H f.
rewrite inE => /orP [/eqP ->|]; [by exists x|exact: IH].
Qed.

Lemma gather_ok (g : I -> result T) (h : I -> T) :
  (forall f, g f = Ok (h f)) -> gather g = Ok [ffun f => h f].
Proof.
move=> H; rewrite /gather.
have -> : pmap err_of (map g (enum I)) = [::].
  by elim: (enum I) => [|a l IH] //=; rewrite H /= IH.
by congr Ok; apply/ffunP => f; rewrite !ffunE H.
Qed.

Lemma gather_inv (g : I -> result T) r :
  gather g = Ok r -> forall f, g f = Ok (r f).
Proof.
rewrite /gather; case E: (pmap _ _) => [|//] [<-] f.
have [x Hx] := pmap_nil E (mem_enum _ f).
by rewrite ffunE Hx.
Qed.

Lemma gather_total (g : I -> result T) :
  (forall f, is_ok (g f)) -> is_ok (gather g).
Proof.
move=> H; pose h f := if g f is Ok x then x else dflt.
rewrite (@gather_ok g h) // => f; rewrite /h; by move: (H f); case: (g f).
Qed.
End Gather.

Section GatherErr.
Variables (I : finType) (T : Type) (dflt : T).
Lemma gather_err (g : I -> result T) f e : g f = Err e -> exists f' e', gather dflt g = Err e' /\ g f' = Err e'.
Proof.
move=> H; case E: (gather dflt g) => [r|e'].
  by have := gather_inv E f; rewrite H.
suff [f' h] : exists f', g f' = Err e' by exists f', e'.
move: E; rewrite /gather; elim: (enum I) => [|a l IH] //=; case E: (g a) => [x|e1] //= [<-].
by exists a.
Qed.
Lemma gather_err_inv (g : I -> result T) e : gather dflt g = Err e -> exists f, g f = Err e.
Proof.
rewrite /gather; elim: (enum I) => [|a l IH] //=; case E: (g a) => [x|e1] //= [<-].
by exists a.
Qed.
End GatherErr.
