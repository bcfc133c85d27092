(* Model of examples/test.py (evaluation of a separator over a dataset; its function
   load_ensemble_model is in EnsModel.v) and of validation_epoch_end in
   examples/separation_model.py. *)
From Coq Require Import String Ascii List ZArith QArith Qabs Qround Bool DecimalString.
From Verif Require Import Py.
Import ListNotations.
Local Open Scope string_scope.
Local Open Scope list_scope.
Local Open Scope py_scope.
Set Implicit Arguments.

(* ---- load_model, examples/test.py:108-139: the path of the checkpoint *)
Fixpoint contains (pat s : string) : bool :=                                   (* pat in s *)
  prefix pat s || match s with EmptyString => false | String _ s' => contains pat s' end.
(* 116-122; the name is unbound when the loop finds nothing.  ckpts is the list of
   str(ckpt) in the order of iterdir() *)
Definition pick_checkpoint (ckpts : list string) (epoch : string) : result string :=
  match find (contains ("epoch=" ++ epoch ++ "-")) ckpts with Some c => Ok c | None => raise UnboundLocalError end.

(* ---- examples/test.py:257-260: number of sources, from the last character of the path
   (never empty: str(Path("")) is "."); int() of an ASCII character *)
Definition digit (c : ascii) : option Z :=
  let n := Z.of_nat (nat_of_ascii c) in if (48 <=? n)%Z && (n <=? 57)%Z then Some (n - 48)%Z else None.
Fixpoint last_char (d : ascii) (s : string) : ascii :=
  match s with EmptyString => d | String c s' => last_char c s' end.
Definition n_src_of (path : string) : Z :=
  match digit (last_char "."%char path) with Some n => n | None => 2%Z end.

(* ---- examples/test.py:267-276: the microphones used *)
Definition channels (n_chan : Z) : result (list nat) :=
  match n_chan with
  | 2%Z => Ok [0; 3]%nat | 3%Z => Ok [0; 2; 4]%nat | 4%Z => Ok [0; 1; 3; 4]%nat | 5%Z => Ok [0; 1; 2; 3; 4]%nat
  | 6%Z => Ok [0; 1; 2; 3; 4; 5]%nat | _ => raise NameError                         (* at 424 *)
  end.

(* ---- the loop over the dataset, examples/test.py:415-512 *)
(* what evaluating one mixture gives: its identifier, the permutation and metrics found by
   fast_bss_eval, the annotation of the dataset and the separated signals *)
Record item (A : Type) := mkitem {
  data_id : string; perm : list nat; speaker_id : list string; transcript : list string;
  sdr : list Q; sir : list Q; mix_sdr : list Q; mix_sir : list Q; signals : list A }.
(* a line of the result tables and the wav file of one source *)
Record row (A : Type) := mkrow {
  utterance_id : string; wav_name : string; audio : option A; r_speaker : string; r_transcript : string }.
Definition str_nat (n : nat) : string := NilZero.string_of_uint (Nat.to_uint n).
(* 464-495; zip stops at the shortest; mixinfo["utterance_id"] is taken as long as speaker_id.
   A channel perm does not find in y raises IndexError in torch, here audio = None *)
Fixpoint rows_of (A : Type) (tag : string) (it : item A) (src : nat) (p : list nat) (spk tr : list string) : list (row A) :=
  match p, spk, tr with
  | o :: p', s :: spk', t :: tr' =>
      mkrow (tag ++ "_" ++ data_id it ++ "_" ++ str_nat src) (tag ++ "_" ++ data_id it ++ "_ch" ++ str_nat src ++ ".wav")
            (nth_error (signals it) o) s t :: rows_of tag it (S src) p' spk' tr'
  | _, _, _ => []
  end.
(* the mixtures processed: 415 and 511-512 *)
Fixpoint run (A : Type) (limit : option Z) (idx : Z) (ds : list A) : list A :=
  match ds with
  | [] => []
  | x :: ds' => x :: (if match limit with Some l => (idx =? l)%Z | None => false end then [] else run limit (idx + 1) ds')
  end.
Definition mean_of (l : list Q) : Q := fold_left Qplus l 0 / inject_Z (Z.of_nat (length l)).     (* pt.mean *)
Record summary := mksum { s_sdr : Q; s_sir : Q; s_mix_sdr : Q; s_mix_sir : Q }.
(* 410-413, 506-509, 523-526; idx is unbound for an empty dataset *)
Definition totals (A : Type) (f : item A -> list Q) (its : list (item A)) : Q :=
  fold_left (fun t it => t + mean_of (f it))%Q its 0%Q.
Record output (A : Type) := mkout { o_rows : list (row A); o_summary : summary; o_speaker : string }.
Definition evaluate (A : Type) (tag : string) (limit : option Z) (ds : list (item A)) : result (output A) :=
  let its := run limit 0 ds in
  match its with
  | [] => raise NameError                                                      (* 515 *)
  | _ =>
      let n := inject_Z (Z.of_nat (length its)) in
      let rows := flat_map (fun it => rows_of tag it 0 (perm it) (speaker_id it) (transcript it)) its in
      match rows with
      | [] => raise IndexError                                                 (* 542 *)
      | r :: _ => Ok (mkout rows (mksum (totals (@sdr A) its / n) (totals (@sir A) its / n)
                                     (totals (@mix_sdr A) its / n) (totals (@mix_sir A) its / n)) (r_speaker r))
      end
  end.

(* ---- write_wav, examples/test.py:89-96, of samples that are not int16: exact arithmetic
   instead of floats; astype truncates towards zero.  All samples zero: NaN in numpy,
   excluded in statements *)
Definition peak (x : list Q) : Q := fold_left (fun m v => if Qle_bool m (Qabs v) then Qabs v else m) x 0%Q.
Definition trunc (q : Q) : Z := if Qle_bool 0 q then Qfloor q else Qceiling q.
Definition write_wav (x : list Q) : list Z :=
  map (fun v => trunc (((95 # 100) * v / peak x) * inject_Z (2 ^ 15))) x.

(* ---- validation_epoch_end, examples/separation_model.py:154-179: the loss of one step is
   the mean over its batch *)
Definition val_loss (batches : list (list Q)) : Q :=
  fold_left (fun t b => t + mean_of b)%Q batches 0%Q / inject_Z (Z.of_nat (length batches)).
Definition val_cisdr (batches : list (list Q)) : Q :=
  fold_left (fun t b => t - mean_of b)%Q batches 0%Q / inject_Z (Z.of_nat (length batches)).
