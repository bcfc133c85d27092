(* Model of the sample recordings of the examples: how examples/samples/make_mix.py turns simulated
   signals into files, and how examples/samples/read_samples.py reads files into batches.
   Signals are rational numbers before, and integers after, the conversion to 16 bits; the room
   simulation and wavfile.read of the dry signals are not modelled: the simulated signals are
   arbitrary.  The rounding of float numbers is not modelled. *)
From Coq Require Import List ZArith QArith Qabs Qminmax Bool String.
From Verif Require Import Py DataModel ItemModel.
Import ListNotations.
Local Open Scope py_scope.
Set Implicit Arguments.

(* an array (sources, channels, samples), as returned by room.simulate (make_mix.py:38) *)
Record premix := mkpre { p_ch : nat; p_len : nat; p_src : list (nat -> nat -> Q) }.
(* make_mix.py:103 premix_wet.sum(axis=0) *)
Definition total (p : premix) : nat -> nat -> Q :=
  fun c t => fold_right Qplus 0%Q (map (fun f => f c t) (p_src p)).
(* 43-53 pad_to_max: one signal *)
Definition pad (n : nat) (f : nat -> nat -> Q) : nat -> nat -> Q :=
  fun c t => if (t <? n)%nat then f c t else 0%Q.
(* 61-62 abs(a).max() of arrays with the given signals, channels and samples *)
Definition magnitudes (ch n : nat) (l : list (nat -> nat -> Q)) : list Q :=
  flat_map (fun f => flat_map (fun c => map (fun t => Qabs (f c t)) (seq 0 n)) (seq 0 ch)) l.
Definition largest (l : list Q) : result Q :=
  match l with [] => raise ValueError | x :: l' => Ok (fold_left Qmax l' x) end.
(* 56-58 scale_, and 18 the conversion: astype(np.int16) cuts off the fraction, and numbers beyond
   16 bits wrap around *)
Definition trunc (q : Q) : Z := Z.quot (Qnum q) (Zpos (Qden q)).
Definition int16 (z : Z) : Z := ((z + 32768) mod 65536 - 32768)%Z.
Definition convert16 (scale x : Q) : Z := int16 (trunc (x * scale * 32768)).
(* 103-112: the contents of the files ref_anecho, ref_reverb and mix_reverb.  Channels are those of
   the wet signals (the dry ones have the same microphones) *)
Definition make_mix (dry wet : premix) : result (list (sig Z) * list (sig Z) * sig Z) :=
  let n := Nat.max (p_len dry) (p_len wet) in                                    (* 45 *)
  let dry' := map (pad (p_len dry)) (p_src dry) in                               (* 105 *)
  let wet' := map (pad (p_len wet)) (p_src wet) in
  let mix' := pad (p_len wet) (total wet) in
  let* a := largest (magnitudes (p_ch wet) n [mix']) in                          (* 107 *)
  let* b := largest (magnitudes (p_ch dry) n dry') in
  let* c := largest (magnitudes (p_ch wet) n wet') in
  let M := Qmax (Qmax a b) c in
  if Qeq_bool M 0 then raise NotANumber                                          (* 108: 0.95 / 0, times 0 *)
  else
    let s := (95 # 100) / M in
    let save ch f := mksig ch n (fun c t => convert16 s (f c t)) in
    Ok (map (save (p_ch dry)) dry', map (save (p_ch wet)) wet', save (p_ch wet) mix').
(* 16-19 save_files: as many files as there are names and signals *)
Definition save_files (names : list string) (signals : list (sig Z)) : list (string * sig Z) :=
  combine names signals.

Section Read.
(* torchaudio.load of a file in the directory of the samples *)
Variable load : string -> option (sig Z * Z).
Definition load_wav (f : string) : result (sig Z * Z) :=
  match load f with Some w => Ok w | None => raise FileError end.
(* read_samples.py:15-22 the files one after the other; expected: fs_expected *)
Fixpoint read_list (expected : option Z) (fns : list string) : result (list (sig Z)) :=
  match fns with
  | [] => Ok []
  | f :: fns' =>
      let* (x, fs) := load_wav f in
      if match expected with Some e => negb (e =? fs)%Z | None => false end then raise AssertionError
      else let* r := read_list expected fns' in Ok (x :: r)
  end.
(* 25 torch.stack: a tensor (files, channels, samples) *)
Record cube := mkcube { c_n : nat; c_ch : nat; c_len : nat; c_at : nat -> nat -> nat -> Z }.
Definition stack (l : list (sig Z)) : result cube :=
  match l with
  | [] => raise RuntimeError
  | x :: _ =>
      if forallb (fun y => (chans y =? chans x)%nat && (len y =? len x)%nat) l
      then Ok (mkcube (List.length l) (chans x) (len x)
             (fun k c t => match nth_error l k with Some y => at_ y c t | None => 0%Z end))
      else raise RuntimeError
  end.
(* 22, 27 audio[[ref_mic], :] and torch.cat: a tensor (files, samples) *)
Definition pick (mic : Z) (x : sig Z) : result (nat * (nat -> Z)) :=
  let* c := pyget (seq 0 (chans x)) mic in Ok (len x, at_ x c).
Fixpoint pick_all (mic : Z) (l : list (sig Z)) : result (list (nat * (nat -> Z))) :=
  match l with
  | [] => Ok []
  | x :: l' => let* y := pick mic x in let* r := pick_all mic l' in Ok (y :: r)
  end.
(* 13-29 read_audio, without and with ref_mic (an index error of one file is raised while later
   files are still to be loaded; which of two errors is raised is not modelled) *)
Definition read_all (fns : list string) (expected : option Z) : result cube :=
  let* l := read_list expected fns in stack l.
Definition read_mic (mic : Z) (fns : list string) (expected : option Z) : result (sig Z) :=
  let* l := read_list expected fns in let* r := pick_all mic l in cat r.
End Read.

(* read_samples.py:7-10 make_batch_array of tensors (channels, samples): x[None, :, :m] *)
Definition min_len (x : nat) (l : list nat) : nat := fold_left Nat.min l x.
Definition batch2 (l : list (sig Z)) : result cube :=
  match l with
  | [] => raise ValueError
  | x :: l' =>
      let m := min_len (len x) (map (@len Z) l') in
      if forallb (fun y => (chans y =? chans x)%nat) l
      then Ok (mkcube (List.length l) (chans x) m
             (fun b c t => match nth_error l b with Some y => at_ y c t | None => 0%Z end))
      else raise RuntimeError
  end.
(* the same of tensors (sources, channels, samples), which read_audio returns without ref_mic: the
   slice :m is then one of channels, the last axis is whole *)
Record tens4 := mkt4 { t_b : nat; t_src : nat; t_ch : nat; t_len : nat; t_at : nat -> nat -> nat -> nat -> Z }.
Definition batch3 (l : list cube) : result tens4 :=
  match l with
  | [] => raise ValueError
  | x :: l' =>
      let m := min_len (c_len x) (map c_len l') in
      if forallb (fun y => (c_n y =? c_n x)%nat && (Nat.min m (c_ch y) =? Nat.min m (c_ch x))%nat && (c_len y =? c_len x)%nat) l
      then Ok (mkt4 (List.length l) (c_n x) (Nat.min m (c_ch x)) (c_len x)
             (fun b k c t => match nth_error l b with Some y => c_at y k c t | None => 0%Z end))
      else raise RuntimeError
  end.

(* 32-55 read_samples, given the entries of samples_list.yaml, with and without ref_mic *)
Record sample := mksample { s_mix : string; s_wet : list string; s_dry : list string }.
Section Samples.
Variable load : string -> option (sig Z * Z).
Fixpoint gather A (read : list string -> option Z -> result A) (l : list sample)
    : result (list (sig Z) * list A * list A) :=
  match l with
  | [] => Ok ([], [], [])
  | s :: l' =>
      let* (m, fs) := load_wav load (s_mix s) in                                 (* 44-45 *)
      let* w := read (s_wet s) (Some fs) in                                      (* 48 *)
      let* d := read (s_dry s) (Some fs) in                                      (* 49 *)
      let* (ms, ws, ds) := gather read l' in
      Ok (m :: ms, w :: ws, d :: ds)
  end.
Definition read_samples_mic (mic : Z) (l : list sample) : result (cube * cube * cube) :=
  let* (ms, ws, ds) := gather (read_mic load mic) l in
  let* m := batch2 ms in let* w := batch2 ws in let* d := batch2 ds in Ok (m, w, d).
Definition read_samples_all (l : list sample) : result (cube * tens4 * tens4) :=
  let* (ms, ws, ds) := gather (read_all load) l in
  let* m := batch2 ms in let* w := batch3 ws in let* d := batch3 ds in Ok (m, w, d).
End Samples.
