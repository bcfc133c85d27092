(* Proofs for C84. *)
From Coq Require Import String Ascii List Bool.
From Verif Require Import InstModel InstSpec.
Import ListNotations.
Local Open Scope string_scope.
Local Open Scope list_scope.

Lemma split_nonempty s : split_dot s <> [].
Proof. destruct s as [|c s]; simpl; [easy|]. destruct (Ascii.eqb c dot); [easy|]. now destruct (split_dot s). Qed.
Lemma join_split s : join_dot (split_dot s) = s.
Proof.
  induction s as [|c s IH]; [reflexivity|]. simpl. destruct (Ascii.eqb c dot) eqn:E.
  - apply Ascii.eqb_eq in E. subst c. unfold join_dot in *. cbn [String.concat].
    destruct (split_dot s) eqn:F; [now destruct (split_nonempty s)|]. rewrite IH. reflexivity.
  - unfold join_dot in *. destruct (split_dot s) as [|h [|h' t]] eqn:F; [now destruct (split_nonempty s)| |];
      cbn [String.concat] in *; rewrite <- IH; reflexivity.
Qed.
Lemma split_plain t : no_dot t -> split_dot t = [t].
Proof.
  induction t as [|c t IH]; [reflexivity|]. unfold no_dot. simpl. intro H.
  destruct (Ascii.eqb c dot) eqn:E; [apply Ascii.eqb_eq in E; exfalso; apply H; left; exact E|].
  rewrite IH; [reflexivity|]. intro K. apply H. now right.
Qed.
Lemma split_app m t : no_dot t -> split_dot (m ++ "." ++ t)%string = split_dot m ++ [t].
Proof.
  intro H. induction m as [|c m IH].
  - simpl. now rewrite split_plain.
  - simpl in IH |- *. rewrite IH. destruct (Ascii.eqb c dot); [reflexivity|].
    destruct (split_dot m) eqn:F; [now destruct (split_nonempty m)|reflexivity].
Qed.
Lemma split_cases s : no_dot s \/ exists m t, s = (m ++ "." ++ t)%string /\ no_dot t.
Proof.
  induction s as [|c s IH]; [left; intros []|].
  destruct IH as [IH|(m & t & -> & Ht)].
  - destruct (Ascii.eqb c dot) eqn:E.
    + apply Ascii.eqb_eq in E. subst c. right. exists "", s. split; [reflexivity|exact IH].
    + left. intros [K|K]; [|now apply IH]. subst c. discriminate E.
  - right. exists (String c m), t. split; [reflexivity|exact Ht].
Qed.

Section P.
Variables (A V : Type) (cv : ascii -> A) (env : string -> res modul).
Variables (call : nat -> list A -> list (string * A) -> res V) (kv : string -> A).

Lemma import_dotted m t : no_dot t ->
  import_name A env (m ++ "." ++ t)%string =
  andthen (import_module A env m) (fun M => andthen (from_list A env m t M) (fun o =>
    match o with Some o => ret A (Done o) | None => ret A (Fail ImportError) end)).
Proof.
  intro H. unfold import_name. rewrite split_app by exact H. rewrite removelast_last, last_last, join_split.
  destruct (split_dot m) as [|h [|h' l]] eqn:F; [now destruct (split_nonempty m)| |]; reflexivity.
Qed.
Lemma import_plain t : no_dot t ->
  import_name A env t = andthen (import_module A env t) (fun _ => ret A (Done (OMod t))).
Proof. intro H. unfold import_name. now rewrite split_plain. Qed.

Lemma module_io m : m <> "" -> import_module A env m = ([Import A m], env m).
Proof. intro H. unfold import_module. destruct (String.eqb_spec m ""); [easy|reflexivity]. Qed.
Lemma one_import m : imports_only [Import A m].
Proof. intros e [<-|[]]. now exists m. Qed.
Lemma io_app l l' : imports_only (A := A) l -> imports_only l' -> imports_only (l ++ l').
Proof. intros H H' e K. apply in_app_or in K. destruct K; auto. Qed.
Lemma io_nil : imports_only (A := A) []. Proof. intros e []. Qed.
Lemma module_only m : imports_only (fst (import_module A env m)).
Proof. unfold import_module. destruct (String.eqb m ""); [apply io_nil|apply one_import]. Qed.
Lemma from_only m t M : imports_only (fst (from_list A env m t M)).
Proof.
  unfold from_list. destruct (m_attr M t); [apply io_nil|]. destruct (m_pkg M); [|apply io_nil].
  destruct (env _) as [|[]]; apply one_import.
Qed.
Lemma then_only T U (x : run A T) (f : T -> run A U) :
  imports_only (fst x) -> (forall a, imports_only (fst (f a))) -> imports_only (fst (andthen x f)).
Proof.
  destruct x as [l [a|e]]; simpl; intros H H'; [|exact H]. specialize (H' a). destruct (f a) as [l' r].
  now apply io_app.
Qed.
Lemma name_only s : imports_only (fst (import_name A env s)).
Proof.
  destruct (split_cases s) as [H|(m & t & -> & H)].
  - rewrite import_plain by exact H. apply then_only; [apply module_only|]. intro. apply io_nil.
  - rewrite import_dotted by exact H. apply then_only; [apply module_only|]. intro M.
    apply then_only; [apply from_only|]. intros [o|]; apply io_nil.
Qed.
(* the object found *)
Lemma name_sound m t o : no_dot t -> snd (import_name A env (m ++ "." ++ t)%string) = Done o <-> names env m t o.
Proof.
  intro H. rewrite import_dotted by exact H. unfold import_module, names.
  destruct (String.eqb_spec m "") as [->|N]; [simpl; split; [easy|intros [K _]; easy]|].
  destruct (env m) as [M|e] eqn:E; simpl; [|split; [easy|intros (_ & M & K & _); easy]].
  unfold from_list. destruct (m_attr M t) as [o'|] eqn:F; simpl.
  - split; [intros [= ->]; split; [exact N|exists M; auto]|].
    intros (_ & M' & [= <-] & [K|[K _]]); congruence.
  - destruct (m_pkg M) eqn:P; simpl.
    + destruct (env (m ++ String "." t)%string) as [M1|e] eqn:G; simpl.
      * split; [intros [= <-]; split; [exact N|]; exists M; split; [reflexivity|]; right; split; [exact F|split; [exact P|split; [reflexivity|now exists M1]]]|].
        intros (_ & M' & [= <-] & [K|(_ & _ & -> & _)]); [congruence|reflexivity].
      * assert (X : (exists M0, Done M = Done M0 /\ (m_attr M0 t = Some o \/ m_attr M0 t = None /\ m_pkg M0 = true /\
            o = OMod (m ++ String "." t) /\ (exists M', @Fail modul e = Done M'))) -> False)
          by (intros (M' & [= <-] & [K|(_ & _ & _ & [? K])]); [congruence|easy]).
        destruct e; simpl; (split; [easy|intros (_ & K); destruct (X K)]).
    + split; [easy|]. intros (_ & M' & [= <-] & [K|(_ & K & _)]); congruence.
Qed.
Lemma name_absent m t : no_dot t -> absent env m t -> snd (import_name A env (m ++ "." ++ t)%string) = Fail ImportError.
Proof.
  intros H (N & M & E & F & P). rewrite import_dotted by exact H. rewrite module_io by exact N. rewrite E. simpl.
  unfold from_list. rewrite F. destruct P as [->|P]; [reflexivity|]. destruct (m_pkg M); [|reflexivity].
  cbv zeta. rewrite P. reflexivity.
Qed.

Local Notation inst := (instantiate cv env call kv).
Lemma keys_okE d : forallb (fun p : string * field A => existsb (String.eqb (fst p)) ["name"; "args"; "kwargs"]) d = true <-> keys_ok d.
Proof.
  rewrite forallb_forall. split; intros H p K.
  - specialize (H p K). apply existsb_exists in H. destruct H as (x & I & E). apply String.eqb_eq in E. now rewrite E.
  - apply existsb_exists. exists (fst p). split; [now apply H|apply String.eqb_refl].
Qed.

Lemma class_lemma m t c a k : no_dot t -> names env m t (OCall c) ->
  inst [("name", FStr A (m ++ "." ++ t)); ("args", FList a); ("kwargs", FDict k)] = ([Import A m; Call c a k], call c a k).
Proof.
  intros H (N & M & E & [F|(_ & _ & K & _)]); [|discriminate K].
  unfold instantiate. simpl fget. simpl forallb. cbv iota beta delta [negb].
  change (m ++ String "." t)%string with (m ++ "." ++ t)%string.
  rewrite import_dotted by exact H. rewrite module_io by exact N. rewrite E. simpl. unfold from_list. rewrite F. reflexivity.
Qed.
Lemma default_lemma m t c d : no_dot t -> names env m t (OCall c) ->
  In d [[("name", FStr A (m ++ "." ++ t))]; [("name", FStr A (m ++ "." ++ t)); ("args", FNone A); ("kwargs", FNone A)]] ->
  inst d = ([Import A m; Call c [] []], call c [] []).
Proof.
  intros H (N & M & E & [F|(_ & _ & K & _)]); [|discriminate K].
  intros [<-|[<-|[]]]; unfold instantiate; simpl fget; simpl forallb; cbv iota beta delta [negb];
  change (m ++ String "." t)%string with (m ++ "." ++ t)%string;
  rewrite import_dotted by exact H; rewrite module_io by exact N; rewrite E; simpl; unfold from_list; rewrite F; reflexivity.
Qed.

Lemma args_lemma f a : args_of cv kv f = Done a -> gives_args cv kv f a.
Proof. destruct f as [[| | | |]|]; simpl; intros [= <-]; constructor. Qed.
Lemma kwargs_lemma (f : option (field A)) k : kwargs_of f = Done k -> gives_kwargs f k.
Proof. destruct f as [[| | | |]|]; simpl; intros [= <-]; constructor. Qed.
(* the shape of every run *)
Lemma run_lemma d : let '(l, r) := inst d in
  (imports_only l /\ forall v, r <> Done v) \/
  exists i m t c a k, l = i ++ [Call c a k] /\ imports_only i /\ r = call c a k /\
    fget d "name" = Some (FStr A (m ++ "." ++ t)) /\ no_dot t /\ names env m t (OCall c) /\
    gives_args cv kv (fget d "args") a /\ gives_kwargs (fget d "kwargs") k.
Proof.
  unfold instantiate. destruct (negb _); [left; split; [apply io_nil|easy]|].
  destruct (fget d "name") as [[|s| | |]|]; try (left; split; [apply io_nil|easy]).
  pose proof (name_only s) as O. destruct (import_name A env s) as [l [o|e]] eqn:I; simpl in *;
    [|left; split; [exact O|easy]].
  destruct (args_of cv kv (fget d "args")) as [a|] eqn:EA; [|left; simpl; rewrite app_nil_r; split; [exact O|easy]].
  destruct (kwargs_of (fget d "kwargs")) as [k|] eqn:EK; [|left; simpl; rewrite app_nil_r; split; [exact O|easy]].
  destruct o as [n|c|n]; try (left; simpl; rewrite app_nil_r; split; [exact O|easy]).
  right. destruct (split_cases s) as [H|(m & t & -> & H)].
  - exfalso. rewrite import_plain in I by exact H. unfold import_module in I.
    destruct (String.eqb s ""); [discriminate I|]. destruct (env s); discriminate I.
  - exists l, m, t, c, a, k. split; [reflexivity|]. split; [exact O|]. split; [reflexivity|]. split; [reflexivity|].
    split; [exact H|]. split; [apply (name_sound m t (OCall c) H); now rewrite I|].
    split; [exact (args_lemma _ _ EA)|exact (kwargs_lemma _ _ EK)].
Qed.
Lemma missing_lemma d m t : keys_ok d -> fget d "name" = Some (FStr A (m ++ "." ++ t)) -> no_dot t -> absent env m t ->
  snd (inst d) = Fail ImportError /\ imports_only (fst (inst d)).
Proof.
  intros K N H B. unfold instantiate. apply keys_okE in K. rewrite K, N. simpl negb. cbv iota.
  pose proof (name_absent m t H B) as X. pose proof (name_only (m ++ "." ++ t)%string) as O.
  destruct (import_name A env (m ++ "." ++ t)%string) as [l r]. simpl in X. subst r. split; [reflexivity|exact O].
Qed.
Lemma bare_lemma d t : fget d "name" = Some (FStr A t) -> no_dot t ->
  imports_only (fst (inst d)) /\ forall v, snd (inst d) <> Done v.
Proof.
  intros N H. pose proof (run_lemma d) as X. destruct (inst d) as [l r]. simpl.
  destruct X as [X|(i & m & t' & c & a & k & _ & _ & _ & N' & _)]; [exact X|].
  exfalso. rewrite N in N'. injection N' as ->. apply H. clear.
  induction m; simpl; [now left|right; exact IHm].
Qed.
Lemma nested_lemma d m outer inner : keys_ok d -> fget d "name" = Some (FStr A (m ++ "." ++ outer ++ "." ++ inner)) ->
  no_dot inner -> env (m ++ "." ++ outer)%string = Fail ModuleNotFoundError ->
  inst d = ([Import A (m ++ "." ++ outer)], Fail ModuleNotFoundError).
Proof.
  intros K N H E. unfold instantiate. apply keys_okE in K. rewrite K, N. simpl negb. cbv iota.
  assert (X : (m ++ "." ++ outer ++ "." ++ inner = (m ++ "." ++ outer) ++ "." ++ inner)%string).
  { clear. induction m as [|c m IH]; [reflexivity|]. simpl in IH |- *. now rewrite IH. }
  rewrite X. rewrite import_dotted by exact H. rewrite module_io; [|now destruct m].
  rewrite E. reflexivity.
Qed.
Lemma key_lemma d : ~ keys_ok d \/ fget d "name" = None -> inst d = ([], Fail TypeErr).
Proof.
  intros [H|H]; unfold instantiate.
  - destruct (forallb _ d) eqn:E; [|reflexivity]. destruct H. now apply keys_okE.
  - rewrite H. now destruct (negb _).
Qed.
Lemma networks_lemma (network : nat -> Prop) m t c : no_dot t -> names env m t (OCall c) -> ~ network c ->
  forall a k, ~ (forall d c' a' k', In (Call c' a' k') (fst (inst d)) -> network c') /\ exists d, In (Call c a k) (fst (inst d)).
Proof.
  intros H N B a k. assert (X : exists d, In (Call c a k) (fst (inst d))).
  { eexists. rewrite (class_lemma m t c a k H N). right. left. reflexivity. }
  split; [|exact X]. intro F. destruct X as [d X]. exact (B (F d c a k X)).
Qed.
End P.
