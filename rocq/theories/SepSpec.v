(* Specification side of C46 and C48: documented algorithm names and the parameters each
   algorithm takes from BSSSeparator. *)
From Coq Require Import String List ZArith.
From Verif Require Import Py PyObj ParamModel SepModel.
Import ListNotations.
Local Open Scope string_scope.
Set Implicit Arguments.

Definition named (v : val) (c : cls) : Prop :=
  match c with
  | IP2 => v = VStr "ip2" \/ v = VMember "SepAlgo" "AUXIVA_IP2"
  | TISS => v = VStr "tiss" \/ v = VMember "SepAlgo" "T_ISS"
  | Five => v = VStr "five" \/ v = VMember "SepAlgo" "FIVE"
  | MVDR => v = VStr "mvdr" \/ v = VMember "SepAlgo" "MVDR"
  | MWF => v = VStr "mwf" \/ v = VMember "SepAlgo" "MWF"
  | GEV => v = VStr "gev" \/ v = VMember "SepAlgo" "GEV"
  | IP | Wpe => False
  end.
(* the value of parameter p of algorithm c, m being the source model *)
Definition iva (c : cls) := match c with TISS | IP | IP2 | Five | Wpe => True | _ => False end.
Inductive wanted (c : cls) (a : separgs) (m : val) : string -> val -> Prop :=
  | w_iter : iva c -> wanted c a m "n_iter" (a_n_iter a)
  | w_model : iva c -> wanted c a m "model" m
  | w_pb : iva c -> wanted c a m "proj_back_mic" (a_pb a)
  | w_eps : iva c -> a_eps a <> VNone -> wanted c a m "eps" (a_eps a)
  | w_eps0 : iva c -> a_eps a = VNone -> wanted c a m "eps" (VFloat 1 (-5))
  | w_taps : c = TISS -> wanted c a m "n_taps" (a_n_taps a)
  | w_delay : c = TISS -> wanted c a m "n_delay" (a_n_delay a)
  | w_src : c = TISS -> wanted c a m "n_src" (a_n_src a)
  | w_dmc : c = TISS -> wanted c a m "use_dmc" (a_use_dmc a)
  | w_power : c = Five \/ c = MVDR -> wanted c a m "n_power_iter" (a_n_power_iter a)
  | w_mask : ~ iva c -> wanted c a m "mask_model" m
  | w_ref : ~ iva c -> wanted c a m "ref_mic" (a_pb a)
  | w_epsb : ~ iva c -> wanted c a m "eps" (a_eps a)
  | w_type : c = MVDR -> wanted c a m "mvdr_type" (VStr "rtf")
  | w_ti : c = MWF -> wanted c a m "time_invariant" (VBool true).
(* the source model a separator gets from its argument *)
Definition source_is (inst : dict -> result nat) (idm : nat) (s : srcarg) (m : val) : Prop :=
  match s with
  | SVal VNone => m = VMod idm
  | SVal v => m = v
  | SDict d => exists i, inst d = Ok i /\ m = VMod i
  end.
(* events which do not replace the two engines *)
Definition harmless (e : event) : Prop :=
  match e with Write k _ => k <> "separator" | Forward _ => True end.
