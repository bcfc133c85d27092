(* Model of examples/autoclip_module.py. *)
From Coq Require Import List ZArith QArith Qround Bool.
From Verif Require Import Py.
Import ListNotations.
Set Implicit Arguments.

(* gradient norms: finite values (exact), infinity, and NaN *)
Inductive num := Fin (q : Q) | Inf | NaN.
(* x < y on floats: False as soon as one of them is NaN *)
Definition lt (x y : num) : bool :=
  match x, y with
  | Fin a, Fin b => negb (Qle_bool b a)
  | Fin _, Inf => true
  | _, _ => false
  end.
(* bisect.insort (= insort_right) of the standard library: binary search for the position,
   then list.insert.  fuel: number of steps allowed, the length of the list suffices *)
Fixpoint bisect (a : list num) (x : num) (fuel lo hi : nat) : nat :=
  match fuel with
  | O => lo
  | S f =>
      if (lo <? hi)%nat then
        let mid := ((lo + hi) / 2)%nat in
        if lt x (nth mid a NaN) then bisect a x f lo mid else bisect a x f (mid + 1) hi
      else lo
  end.
Definition insort (a : list num) (x : num) : list num :=
  let p := bisect a x (length a) 0 (length a) in firstn p a ++ x :: skipn p a.
(* int() of a float *)
Definition trunc (q : Q) : Z := if Qle_bool 0 q then Qfloor q else (- Qfloor (- q))%Z.
(* a[i] with Python's negative indices *)
Definition py_index (a : list num) (i : Z) : result num :=
  let i := if (i <? 0)%Z then (Z.of_nat (length a) + i)%Z else i in
  if (i <? 0)%Z then Err IndexError
  else match nth_error a (Z.to_nat i) with Some x => Ok x | None => Err IndexError end.

Section Clip.
(* rounding of a float product; autoclip_p = p / 100 *)
Variable fl : Q -> Q.
Variable autoclip_p : Q.
(* autoclip_module.py:56-75  the call, given the gradient norm of lines 27-37: (gnorm,
   grad_clip_norm) or an error, and the history afterwards *)
Definition auto_clip (history : list num) (gnorm : num) : result (num * num) * list num :=
  let history := insort history gnorm in                                                   (* 65 *)
  let n := Z.of_nat (length history) in
  let index := trunc (fl (autoclip_p * inject_Z n)) in                                     (* 68 *)
  let index := if (index =? n)%Z then (index - 1)%Z else index in                          (* 69-70 *)
  (match py_index history index with                                                       (* 71 *)
   | Ok c => Ok (gnorm, c)
   | Err e => Err e
   end, history).
(* a sequence of calls from a new object: all outcomes and the final history *)
Fixpoint run (history : list num) (gs : list num) : list (result (num * num)) * list num :=
  match gs with
  | [] => ([], history)
  | g :: gs' => let '(r, h) := auto_clip history g in let '(rs, h') := run h gs' in (r :: rs, h')
  end.
End Clip.

(* torch.nn.utils.clip_grad_norm_: every gradient is multiplied by
   clamp(max_norm / (total_norm + 1e-6), max=1.0) *)
Definition clip_factor (max_norm total_norm : num) : num :=
  match max_norm, total_norm with
  | Fin t, Fin g => let c := (t / (g + (1 # 1000000)))%Q in if Qle_bool c 1 then Fin c else Fin 1
  | Fin _, Inf => Fin 0
  | Inf, Fin _ => Fin 1
  | _, _ => NaN
  end.
