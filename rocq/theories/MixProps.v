(* Property C79: the sample recordings of the examples. *)
From Coq Require Import List ZArith QArith Qabs String Lia.
From Verif Require Import Py DataModel MixModel MixSpec MixProofs MixReadProofs.
Import ListNotations.

(* all files of a sample are written with one positive gain, so the levels of sources, references and
   mixture keep their proportions; all have the length of the longer simulation, followed by zeros;
   every number is within one of the scaled signal; nothing overflows, since no magnitude exceeds
   31129; and some number has that magnitude *)
Theorem c79_files dry wet ds ws m : make_mix dry wet = Ok (ds, ws, m) ->
  exists g, 0 < g /\
    Forall2 (written g (p_ch dry) (Nat.max (p_len dry) (p_len wet)) (p_len dry)) (p_src dry) ds /\
    Forall2 (written g (p_ch wet) (Nat.max (p_len dry) (p_len wet)) (p_len wet)) (p_src wet) ws /\
    written g (p_ch wet) (Nat.max (p_len dry) (p_len wet)) (p_len wet)
      (fun c t => fold_right Qplus 0 (map (fun f => f c t) (p_src wet))) m /\
    exists y, In y (m :: ds ++ ws) /\ peaks y.
Proof. exact (@files_lemma dry wet ds ws m). Qed.
Print Assumptions c79_files.
(* the mixture file is the sum of the files of the reverberant references up to the number of sources
   minus one *)
Theorem c79_sum dry wet ds ws m c t : make_mix dry wet = Ok (ds, ws, m) ->
  (c < p_ch wet)%nat -> (t < Nat.max (p_len dry) (p_len wet))%nat ->
  (Z.abs (at_ m c t - sumZ (map (fun y => at_ y c t) ws)) <= Z.of_nat (List.length ws) - 1)%Z.
Proof. exact (@sum_lemma dry wet ds ws m c t). Qed.
Print Assumptions c79_sum.
(* it is not the sum itself: the fractions are cut off after the signals were added *)
Theorem c79_exact_refuted : exists dry wet ds ws m, make_mix dry wet = Ok (ds, ws, m) /\
  chans m = 1%nat /\ len m = 1%nat /\ List.length ws = 2%nat /\
  (at_ m 0 0 - sumZ (map (fun y => at_ y 0%nat 0%nat) ws) = 1)%Z.
Proof.
exact (let p := mkpre 1 1 [(fun _ _ => 1); (fun _ _ => 1)] in
  ex_intro _ p (ex_intro _ p (ex_intro _ _ (ex_intro _ _ (ex_intro _ _ (conj eq_refl
    (conj eq_refl (conj eq_refl (conj eq_refl eq_refl))))))))).
Qed.
Print Assumptions c79_exact_refuted.
(* files can be written if there are sources, microphones and a sound *)
Theorem c79_total dry wet : p_src dry <> [] -> p_src wet <> [] -> (0 < p_ch dry)%nat -> (0 < p_ch wet)%nat ->
  sounding dry \/ sounding wet -> exists r, make_mix dry wet = Ok r.
Proof. exact (@total_lemma dry wet). Qed.
Print Assumptions c79_total.
(* and not if everything is silent *)
Theorem c79_silent dry wet r : ~ sounding dry -> ~ sounding wet -> make_mix dry wet <> Ok r.
Proof. exact (@silent_lemma dry wet r). Qed.
Print Assumptions c79_silent.
(* the k-th name is given to the k-th signal *)
Theorem c79_names names signals k f y :
  nth_error (save_files names signals) k = Some (f, y) <-> nth_error names k = Some f /\ nth_error signals k = Some y.
Proof. exact (@save_lemma names signals k f y). Qed.
Print Assumptions c79_names.
(* sources without a name are not saved, and no error is raised *)
Theorem c79_all_saved_refuted : ~ (forall names signals y, In y signals -> exists f, In (f, y) (save_files names signals)).
Proof. exact (fun h => match h nil [mksig 1 1 (fun _ _ => 0%Z)] _ (or_introl eq_refl) with ex_intro _ _ h' => h' end). Qed.
Print Assumptions c79_all_saved_refuted.
(* samples read for one microphone: the mixtures, and channel ref_mic of every reference, of files
   with the sampling rate of their mixture; every batch is cut to its shortest member *)
Theorem c79_read load mic l m w d : read_samples_mic load mic l = Ok (m, w, d) ->
  exists xs, Forall2 (sample_of load mic) l xs /\
    (exists n, batch_of (map (fun x => fst (fst x)) xs) n m) /\
    (exists n, batch_of (map (fun x => snd (fst x)) xs) n w) /\
    (exists n, batch_of (map snd xs) n d).
Proof. exact (@read_lemma load mic l m w d). Qed.
Print Assumptions c79_read.
(* a batch is formed whenever the numbers of channels agree, and only then *)
Theorem c79_batch l : l <> [] -> (forall y z, In y l -> In z l -> chans y = chans z) -> exists x, batch2 l = Ok x.
Proof. exact (@batch2_total l). Qed.
Print Assumptions c79_batch.
Theorem c79_batch_channels l y z : In y l -> In z l -> chans y <> chans z -> batch2 l = Err RuntimeError.
Proof. exact (@batch2_channels l y z). Qed.
Print Assumptions c79_batch_channels.
(* mixtures and references are cut separately, so they need not have one length *)
Theorem c79_one_length_refuted : exists load l m w d, read_samples_mic load 0 l = Ok (m, w, d) /\ c_len m <> c_len w.
Proof.
exact (ex_intro _ (fun f => Some (mksig 1 (if String.eqb f "mix" then 2 else 1) (fun _ _ => 5%Z), 8000%Z))
  (ex_intro _ [mksample "mix" ["wet"%string] ["dry"%string]]
    (ex_intro _ _ (ex_intro _ _ (ex_intro _ _ (conj eq_refl (fun h : 2%nat = 1%nat => match h with eq_refl => I end))))))).
Qed.
Print Assumptions c79_one_length_refuted.
(* without ref_mic, references of different lengths are an error: the slice meant for samples is
   applied to channels *)
Theorem c79_shortest_refuted l y z : In y l -> In z l -> c_len y <> c_len z -> batch3 l = Err RuntimeError.
Proof. exact (@batch3_lengths l y z). Qed.
Print Assumptions c79_shortest_refuted.
(* what is returned otherwise: the references, but no more channels than there are samples *)
Theorem c79_batch_refs l x : batch3 l = Ok x ->
  t_b x = List.length l /\
  forall b y, nth_error l b = Some y -> c_len y = t_len x /\ c_n y = t_src x /\ t_ch x = Nat.min (t_len x) (c_ch y) /\
    forall k c t, t_at x b k c t = c_at y k c t.
Proof. exact (@batch3_lemma l x). Qed.
Print Assumptions c79_batch_refs.
(* so whatever read_samples returns without ref_mic holds references of one length: samples of
   different lengths cannot be read *)
Theorem c79_read_all load l m w d : read_samples_all load l = Ok (m, w, d) ->
  (exists xs n, Forall2 (fun s x => exists fs, load (s_mix s) = Some (x, fs)) l xs /\ batch_of xs n m) /\
  whole_refs load (map s_wet l) w /\ whole_refs load (map s_dry l) d.
Proof. exact (@read_all_lemma load l m w d). Qed.
Print Assumptions c79_read_all.

(* two sources, the dry ones shorter *)
Definition ex_dry := mkpre 1 1 [(fun _ _ => 1 # 2); (fun _ _ => - 1)].
Definition ex_wet := mkpre 1 2 [(fun _ t => match t with O => 1 # 3 | _ => 1 # 7 end); (fun _ _ => 1 # 5)].
Example c79_files_ex : exists ds ws m, make_mix ex_dry ex_wet = Ok (ds, ws, m) /\
  map (fun y => [at_ y 0%nat 0%nat; at_ y 0%nat 1%nat]) ds = [[15564; 0]; [-31129; 0]]%Z /\
  map (fun y => [at_ y 0%nat 0%nat; at_ y 0%nat 1%nat]) ws = [[10376; 4447]; [6225; 6225]]%Z /\
  [at_ m 0%nat 0%nat; at_ m 0%nat 1%nat] = [16602; 10673]%Z.
Proof. eexists _, _, _. split; [reflexivity|]. vm_compute. auto. Qed.
Example c79_total_ex : sounding ex_dry.
Proof.
exists (fun _ _ => 1 # 2), 0%nat, 0%nat. split; [now left|]. split; [cbn; lia|]. split; [cbn; lia|]. discriminate.
Qed.
Example c79_silent_ex : let p := mkpre 1 1 [(fun _ _ => 0)] in ~ sounding p /\ make_mix p p = Err NotANumber.
Proof. split; [|reflexivity]. intros (f & c & t & [<-|[]] & _ & _ & h). apply h. reflexivity. Qed.
Example c79_read_ex : exists m w d,
  read_samples_mic (fun f => Some (mksig 2 (String.length f) (fun c t => (Z.of_nat (10 * c + t))%Z), 8000%Z)) (-1)
    [mksample "mixed" ["abc"; "abd"] ["xy"; "xz"]; mksample "mix" ["vwxy"; "wxyz"] ["z"; "y"]]%string = Ok (m, w, d) /\
  c_len m = 3%nat /\ c_len w = 3%nat /\ c_len d = 1%nat /\ c_ch m = 2%nat /\ c_at w 1 1 2 = 12%Z.
Proof. eexists _, _, _. split; [reflexivity|]. vm_compute. auto 10. Qed.
Example c79_read_all_ex : exists m w d,
  read_samples_all (fun f => Some (mksig 2 (String.length f) (fun c t => (Z.of_nat (10 * c + t))%Z), 8000%Z))
    [mksample "mixed" ["abc"; "abd"] ["xyz"; "xyy"]; mksample "mix" ["vwx"; "wxy"] ["zzz"; "yyy"]]%string = Ok (m, w, d) /\
  c_len m = 3%nat /\ t_len w = 3%nat /\ t_ch w = 2%nat /\ t_at w 1 1 1 2 = 12%Z.
Proof. eexists _, _, _. split; [reflexivity|]. vm_compute. auto 10. Qed.
Example c79_shortest_ex : batch3 [mkcube 2 2 5 (fun _ _ _ => 0%Z); mkcube 2 2 6 (fun _ _ _ => 0%Z)] = Err RuntimeError.
Proof. reflexivity. Qed.
Example c79_batch_refs_ex : exists x, batch3 [mkcube 2 3 2 (fun k c t => Z.of_nat (k + c + t))] = Ok x /\ t_ch x = 2%nat /\ t_at x 0 1 1 1 = 3%Z.
Proof. eexists. split; [reflexivity|]. vm_compute. auto. Qed.
Example c79_batch_ex : exists x, batch2 [mksig 2 5 (fun c t => 1%Z); mksig 2 4 (fun c t => 2%Z)] = Ok x /\ c_len x = 4%nat.
Proof. eexists. split; reflexivity. Qed.
Example c79_batch_channels_ex : batch2 [mksig 2 5 (fun c t => 1%Z); mksig 3 5 (fun c t => 2%Z)] = Err RuntimeError.
Proof. reflexivity. Qed.
Example c79_names_ex : save_files ["a"%string] [mksig 1 1 (fun _ _ => 1%Z); mksig 1 1 (fun _ _ => 2%Z)] = [("a"%string, mksig 1 1 (fun _ _ => 1%Z))].
Proof. reflexivity. Qed.
