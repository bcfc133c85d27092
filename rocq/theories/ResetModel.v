(* Model of the reset discipline: torchiva/base.py:113-115 and its callers, and
   torchiva/nn.py:153-178 as far as the state of the source model is concerned. *)
From mathcomp Require Import all_ssreflect all_algebra.
From Verif Require Import CAlg Py LinalgModel TissModel IvaModel WpeModel FiveModel.
Set Implicit Arguments. Unset Strict Implicit. Unset Printing Implicit Defensive.

Section Reset.
Variable St : Type.
Variable rst : option (St -> St).        (* the reset method of the source model, if it has one *)
(* base.py:113-115  _reset *)
Definition base_reset (m : St) : St := if rst is Some r then r m else m.

(* outcome of a call and state of the source model afterwards; when the call raises the
   model is left in some state (onerr) depending on the state the loop started from *)
Definition settle (Out : Type) (onerr : St -> St) (r : result (Out * St)) (m1 : St) : result Out * St :=
  match r with Ok (o, m2) => (Ok o, m2) | Err e => (Err e, onerr m1) end.

Variable C : numClosedFieldType.
(* t_iss.py:459 then 463-539 *)
Definition tiss_call nS nB nF nT dl nN model eps n_iter use_dmc pb onerr (X : sig C nF nN (nS + nB)) (m : St) :=
  let m1 := base_reset m in
  settle onerr (@forward C nS nB nF nT dl nN St model X eps n_iter use_dmc pb m1) m1.
(* auxiva_ip.py:228 then 230-306 *)
Definition ip_call nS nB nF nN model eps n_iter pb onerr (X : sig C nF nN (nS + nB)) (m : St) :=
  let m1 := base_reset m in
  settle onerr (@ip_forward C nS nB nF nN St model X eps n_iter pb m1) m1.
(* auxiva_ip2.py:176 then 178-213 *)
Definition ip2_call nF nN model eps n_iter mic (X : sig C nF nN 2) (m : St) : result (sig C nF nN 2) * St :=
  let m1 := base_reset m in
  let: (Y, m2) := @ip2_forward C nF nN St model X eps n_iter mic m1 in (Ok Y, m2).
(* five.py:170 then 173-248 *)
Definition five_call k nF nN eighO model mic np n_iter onerr (X : sig C nF.+1 nN k.+1) (m : St) :=
  let m1 := base_reset m in
  settle onerr (@five_forward C eighO k nF nN St model X mic np n_iter m1) m1.
(* wpe.py:136-168: no reset *)
Definition wpe_call nC nF nT dl nN model eps n_iter onerr (X : sig C nF nN nC) (m : St) :=
  settle onerr (@wpe_forward C nC nF nT dl nN St model X eps n_iter m) m.

(* nn.py:155-165  BSSSeparator.forward resets the model it shares with the separator when
   asked to (STFT and length handling do not touch the model), then calls the separator *)
Section Sep.
Variables (In Out : Type) (call : In -> St -> result Out * St).
Definition sep_forward (reset : bool) (x : In) (m : St) : result Out * St :=
  call x (if reset then base_reset m else m).
(* a history of calls on one separator: outcomes in order *)
Fixpoint sep_run (h : seq (In * bool)) (m : St) : seq (result Out) :=
  match h with
  | [::] => [::]
  | (x, reset) :: h' => let: (o, m') := sep_forward reset x m in o :: sep_run h' m'
  end.
End Sep.
End Reset.
