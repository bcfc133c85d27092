(* Property C68: the evaluation script. *)
From Coq Require Import String Ascii List ZArith QArith Bool Lia.
From Verif Require Import Py EvalModel EvalSpec EvalProofs.
Import ListNotations.
Local Open Scope list_scope.
Set Implicit Arguments.

(* the mixtures evaluated: all of them without a limit or with a negative one, else the first
   limit + 1 *)
Theorem c68_processed (A : Type) (ds : list A) :
  run None 0 ds = ds /\ (forall l, (l < 0)%Z -> run (Some l) 0 ds = ds) /\
  (forall n, run (Some (Z.of_nat n)) 0 ds = firstn (S n) ds).
Proof. exact (run_all ds). Qed.
Print Assumptions c68_processed.
(* --limit n is said to be the number of data processed: with more than n mixtures it is n + 1 *)
Theorem c68_limit_refuted (A : Type) n (ds : list A) : (n < length ds)%nat ->
  length (run (Some (Z.of_nat n)) 0 ds) = S n.
Proof. exact (@run_limit A n ds). Qed.
Print Assumptions c68_limit_refuted.

(* the four summary figures are means over the mixtures evaluated of the means over the
   sources of each *)
Theorem c68_summary (A : Type) tag limit (ds : list (item A)) o : evaluate tag limit ds = Ok o ->
  Forall (fun it => sdr it <> [] /\ sir it <> [] /\ mix_sdr it <> [] /\ mix_sir it <> []) (run limit 0 ds) ->
  mean_of_means (@sdr A) (run limit 0 ds) (s_sdr (o_summary o)) /\ mean_of_means (@sir A) (run limit 0 ds) (s_sir (o_summary o)) /\
  mean_of_means (@mix_sdr A) (run limit 0 ds) (s_mix_sdr (o_summary o)) /\ mean_of_means (@mix_sir A) (run limit 0 ds) (s_mix_sir (o_summary o)).
Proof. exact (@summary_means A tag limit ds o). Qed.
Print Assumptions c68_summary.

(* exactly one line and one wav file for each source k of each mixture evaluated that has a
   permutation entry, a speaker and a transcript; the audio is the channel the permutation
   assigns to source k *)
Theorem c68_rows (A : Type) tag limit (ds : list (item A)) o : evaluate tag limit ds = Ok o -> forall r,
  In r (o_rows o) <-> exists it k c s t, In it (run limit 0 ds) /\ nth_error (perm it) k = Some c /\
    nth_error (speaker_id it) k = Some s /\ nth_error (transcript it) k = Some t /\
    r = mkrow (tag ++ "_" ++ data_id it ++ "_" ++ str_nat k) (tag ++ "_" ++ data_id it ++ "_ch" ++ str_nat k ++ ".wav")
       (nth_error (signals it) c) s t.
Proof. exact (@rows_iff A tag limit ds o). Qed.
Print Assumptions c68_rows.
(* no file is overwritten and no line repeated when the mixtures have different names *)
Theorem c68_distinct (A : Type) tag limit (ds : list (item A)) o : evaluate tag limit ds = Ok o ->
  NoDup (map (@data_id A) (run limit 0 ds)) ->
  NoDup (map (@utterance_id A) (o_rows o)) /\ NoDup (map (@wav_name A) (o_rows o)).
Proof. exact (@rows_distinct A tag limit ds o). Qed.
Print Assumptions c68_distinct.
(* when the script fails *)
Theorem c68_errors (A : Type) tag limit (ds : list (item A)) :
  (evaluate tag limit ds = Err NameError <-> ds = []) /\
  (evaluate tag limit ds = Err IndexError <-> ds <> [] /\
     forall it, In it (run limit 0 ds) -> perm it = [] \/ speaker_id it = [] \/ transcript it = []) /\
  (forall e, evaluate tag limit ds = Err e -> e = NameError \/ e = IndexError).
Proof. exact (evaluate_errors tag limit ds). Qed.
Print Assumptions c68_errors.

(* the checkpoint loaded is the first whose path has the text epoch=<epoch>- somewhere *)
Theorem c68_checkpoint ckpts e :
  (forall c, pick_checkpoint ckpts e = Ok c <-> exists l r, ckpts = l ++ c :: r /\
     occurs ("epoch=" ++ e ++ "-") c /\ forall x, In x l -> ~ occurs ("epoch=" ++ e ++ "-") x) /\
  (pick_checkpoint ckpts e = Err UnboundLocalError <-> forall x, In x ckpts -> ~ occurs ("epoch=" ++ e ++ "-") x).
Proof. exact (conj (fun c => pick_iff ckpts e c) (pick_err ckpts e)). Qed.
Print Assumptions c68_checkpoint.
(* files called epoch=<epoch>-<rest> in a directory without = in its path: a file of the
   epoch asked for, whenever there is one *)
Theorem c68_named dir l e : ~ occurs "=" dir -> ~ occurs "-" e ->
  (forall f r, In (f, r) l -> ~ occurs "-" f /\ ~ occurs "e" f /\ ~ occurs "epoch=" r) ->
  (forall c, pick_checkpoint (map (ckpt_path dir) l) e = Ok c -> exists r, In (e, r) l /\ c = ckpt_path dir (e, r)) /\
  (forall r, In (e, r) l -> is_ok (pick_checkpoint (map (ckpt_path dir) l) e) = true).
Proof. exact (@pick_named dir l e). Qed.
Print Assumptions c68_named.
(* a directory path with = can give another epoch *)
Theorem c68_checkpoint_refuted : let dir := "runs/epoch=5-lr/checkpoints/"%string in
  pick_checkpoint (map (ckpt_path dir) [("7", "step=80.ckpt"); ("5", "step=60.ckpt")]%string) "5" = Ok (ckpt_path dir ("7", "step=80.ckpt")%string).
Proof. exact eq_refl. Qed.
Print Assumptions c68_checkpoint_refuted.

(* number of sources: the last character of the path of the dataset, 2 when it is no digit *)
Theorem c68_sources p : (forall k, (k < 10)%nat -> n_src_of (p ++ str_nat k) = Z.of_nat k) /\
  (forall c, ~ (48 <= nat_of_ascii c <= 57)%nat -> n_src_of (p ++ String c "") = 2%Z).
Proof. exact (conj (n_src_digit p) (n_src_other p)). Qed.
Print Assumptions c68_sources.
(* microphones: as many as asked, different, beginning with the first, six at most *)
Theorem c68_channels n : (forall l, channels n = Ok l -> (2 <= n <= 6)%Z /\ Z.of_nat (length l) = n /\ NoDup l /\
    hd_error l = Some 0%nat /\ forall c, In c l -> (c < 6)%nat) /\
  (~ (2 <= n <= 6)%Z -> channels n = Err NameError).
Proof. exact (conj (@channels_ok n) (@channels_err n)). Qed.
Print Assumptions c68_channels.

(* the wav files: sixteen bits are never exceeded, and 95 % of the range is reached *)
Theorem c68_wav x : (exists v, In v x /\ ~ v == 0)%Q ->
  (forall z, In z (write_wav x) -> (Z.abs z <= 31129)%Z) /\ exists z, In z (write_wav x) /\ (Z.abs z = 31129)%Z.
Proof. exact (@wav_range x). Qed.
Print Assumptions c68_wav.

(* validation: the two figures reported are opposite; the loss is the mean over the batches of
   their means, which is the mean over the samples when the batches have equal size *)
Theorem c68_validation (b : list (list Q)) : b <> [] -> Forall (fun l => l <> []) b ->
  (val_cisdr b == - val_loss b)%Q /\ mean_of_means (fun l => l) b (val_loss b) /\
  (forall k, Forall (fun l => length l = S k) b -> is_mean (val_loss b) (concat b)).
Proof. exact (@val_all b). Qed.
Print Assumptions c68_validation.
(* with a smaller last batch it is not *)
Theorem c68_validation_refuted : exists b : list (list Q), b <> [] /\ Forall (fun l => l <> []) b /\
  ~ is_mean (val_loss b) (concat b).
Proof. exact val_refuted. Qed.
Print Assumptions c68_validation_refuted.

(* two mixtures of two sources, the second with swapped channels *)
Definition ex_it1 := mkitem "011" [0; 1]%nat ["f1"; "m1"]%string ["yes"; "no"]%string
  [10; 6]%Q [20; 10]%Q [0; 1]%Q [0; 1]%Q [1; 2]%Z.
Definition ex_it2 := mkitem "012" [1; 0]%nat ["f2"; "m2"]%string ["up"; "down"]%string
  [4; 2]%Q [8; 6]%Q [0; 1]%Q [0; 1]%Q [3; 4]%Z.
Example c68_example : exists o, evaluate "ilrma" None [ex_it1; ex_it2] = Ok o /\
  (s_sdr (o_summary o) == 11 # 2)%Q /\ o_speaker o = "f1"%string /\ map (@audio Z) (o_rows o) = [Some 1; Some 2; Some 4; Some 3]%Z /\
  map (@wav_name Z) (o_rows o) = ["ilrma_011_ch0.wav"; "ilrma_011_ch1.wav"; "ilrma_012_ch0.wav"; "ilrma_012_ch1.wav"]%string /\
  NoDup (map (@utterance_id Z) (o_rows o)).
Proof.
destruct (evaluate "ilrma" None [ex_it1; ex_it2]) as [o|] eqn:E; [|discriminate E]; exists o; split; [reflexivity|].
assert (h : NoDup (map (@utterance_id Z) (o_rows o))).
{ apply (@c68_distinct _ _ _ _ _ E); cbn; repeat constructor; cbn; intuition discriminate. }
vm_compute in E; injection E as <-; repeat split; try reflexivity; exact h.
Qed.
Example c68_named_example :
  pick_checkpoint (map (ckpt_path "runs/a/checkpoints/") [("15", "step=9.ckpt"); ("5", "step=6.ckpt")]%string) "5"
  = Ok (ckpt_path "runs/a/checkpoints/" ("5", "step=6.ckpt")%string) /\
  ~ occurs "=" "runs/a/checkpoints/" /\ ~ occurs "epoch=" "step=6.ckpt".
Proof.
split; [reflexivity|]; split; intros h; apply contains_iff in h; discriminate h.
Qed.
Example c68_wav_example : write_wav [1 # 2; -1 # 4; 0]%Q = [31129; -15564; 0]%Z.
Proof. reflexivity. Qed.
Example c68_sources_example : n_src_of "/data/wsj_mix3" = 3%Z /\ n_src_of "/data/libri" = 2%Z /\ n_src_of "/data/mix12" = 2%Z /\ n_src_of "/data/mix10" = 0%Z.
Proof. repeat split. Qed.
