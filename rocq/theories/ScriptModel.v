(* Model of the example scripts examples/example.py:50-222 and examples/example_dnn.py:36-105: which
   warnings are shown, which references are chosen, which channels are separated and what is
   compared.  Shapes only, last dimension first as in ShapeModel.v; the values computed by the separators
   are in the numeric tier.  The overlap condition of torch.istft on the window, which
   example.py leaves at the default, is not part of this model (StftModel.v has it).  The options tap, delay,
   n_fft, hop and n_iter are natural numbers; bss_eval_sources and the printing are not
   modelled. *)
From Coq Require Import List ZArith Bool Arith.
From Verif Require Import Py TorchShape ShapeModel DataModel ItemModel.
Import ListNotations.
Local Open Scope list_scope.
Local Open Scope py_scope.
Set Implicit Arguments.

(* example.py:62-67 choices of the argument algorithm *)
Inductive algorithm := Tiss | AuxivaIp | AuxivaIp2 | Five.
(* 76-90 *)
Record args := mkargs {
  algo : algorithm; n_fft : nat; hop : option nat; n_iter : nat; delay : nat; tap : nat;
  n_src : Z; n_chan : option Z }.
(* 111-112 *)
Definition used_chan (a : args) : Z := match n_chan a with Some c => c | None => n_src a end.
(* the number in the text of a warning *)
Inductive warning := NoDereverberation (shown : Z) | OneSourceOnly (shown : Z).
(* 114 args.algorithm != "overiss_t": none of the choices is "overiss_t" *)
Definition is_overiss_t (x : algorithm) : bool := match x with Tiss | AuxivaIp | AuxivaIp2 | Five => false end.
(* 114-117, 194-197 *)
Definition warnings (a : args) : list warning :=
  (if negb (is_overiss_t (algo a)) && (0 <? tap a)%nat then [NoDereverberation (Z.of_nat (tap a))] else [])
  ++ (match algo a with
      | Five => if negb (n_src a =? 1)%Z then [OneSourceOnly (Z.of_nat (tap a))] else []
      | _ => []
      end).
(* 129-158 the recordings used as references *)
Inductive reference := Reverberant | Anechoic.
Definition references (a : args) : reference :=
  if (delay a =? 0)%nat && (tap a =? 0)%nat then Reverberant else Anechoic.
(* 170-171 number of taps and delay of the separator, if it has any *)
Definition prediction (a : args) : option (nat * nat) :=
  match algo a with Tiss => Some (tap a, delay a) | _ => None end.

(* torch.stft and torch.istft (centred), shapes *)
Definition used_hop (a : args) : nat := match hop a with Some h => h | None => (n_fft a / 4)%nat end.
Definition stft_shape (a : args) (x : shape) : result shape :=
  match x with
  | n :: s =>
      let h := used_hop a in let half := (n_fft a / 2)%nat in
      if (h =? 0)%nat || (n <=? half)%nat then raise RuntimeError
      else Ok (S ((n + 2 * half - n_fft a) / h) :: S half :: s)%nat
  | [] => raise IndexError
  end.
Definition istft_shape (a : args) (X : shape) : result shape :=
  match X with
  | n :: f :: s =>
      let h := used_hop a in let half := (n_fft a / 2)%nat in
      let l := (n_fft a + h * (n - 1) - 2 * half)%nat in
      if (h =? 0)%nat || (n_fft a <? h)%nat || (n =? 0)%nat || (l =? 0)%nat then raise RuntimeError
      else Ok (l :: s)
  | _ => raise ValueError
  end.
Section Run.
Variable St : Type.
Variable model : St -> shape -> result (shape * St).         (* 165 the source model *)
(* 167-205 the separator, with REF_MIC = 0 *)
Definition separate (a : args) (m0 : St) (X : shape) : result shape :=
  match algo a with
  | Tiss => tiss_forward model (n_iter a) (tap a) (delay a) (Some (n_src a)) (Some 0%Z) false m0 X
  | AuxivaIp => ip_forward model (n_iter a) (Some (n_src a)) (Some 0%Z) m0 X
  | AuxivaIp2 => ip2_forward model (n_iter a) (Some 0%Z) m0 X
  | Five => five_forward model (n_iter a) (Some 0%Z) None m0 X
  end.
(* 160-217 shapes of the two arguments of bss_eval_sources, given a mixture of chans channels and
   samples samples, and references of len samples each *)
Definition run (a : args) (m0 : St) (chans samples len : nat) : result (shape * shape) :=
  if match algo a with AuxivaIp2 => negb ((used_chan a =? 2)%Z && (n_src a =? 2)%Z) | _ => false end
  then raise AssertionError                                                      (* 186 *)
  else
    let* X := stft_shape a [samples; bound chans (used_chan a)] in               (* 207 *)
    let* Y := separate a m0 X in                                                 (* 208 *)
    let* y := istft_shape a Y in                                                 (* 209 *)
    match y with
    | t :: s :: b =>
        let s' := if (2 <? s)%nat then 2%nat else s in                           (* 212-213 *)
        let m := Nat.min len t in                                                (* 215 *)
        Ok ([m; 2%nat], m :: s' :: b)                                            (* 216 *)
    | _ => raise IndexError
    end.
End Run.

(* example_dnn.py:79, 94 the channels given to the separator; mic: -m, src: -s *)
Definition dnn_input (V : Type) (mic src : Z) (mix : sig V) : result (sig V) :=
  if (src <=? mic)%Z then Ok (mksig (bound (chans mix) src) (len mix) (at_ mix)) else raise AssertionError.
