(* C49: where the files of a model are fetched from and where they are kept. *)
From Coq Require Import String Ascii List.
From Verif Require Import Py LoadModel LoadSpec AddrSpec AddrProofs.
Import ListNotations.
Local Open Scope string_scope.

(* whatever the network does and the cache holds, only the two files below the address are requested, each for its
   place in the folder named after the last component *)
Theorem c49_address bytes home (net : nat -> string -> transfer bytes) w url base name i u fn :
  trimmed url base -> last_component url name ->
  nth_error (attempts (visit home net w url)) i = Some (u, fn) -> (length (attempts w) <= i)%nat ->
  (u = (base ++ "/model_weights.ckpt")%string /\ fn = cache_weights home name) \/
  (u = (base ++ "/model_config.yaml")%string /\ fn = cache_config home name).
Proof. exact (address_lemma bytes home net w url base name i u fn). Qed.
Print Assumptions c49_address.

(* the files returned are those of that folder *)
Theorem c49_place bytes home (net : nat -> string -> transfer bytes) w url name p :
  last_component url name -> fst (get_model_from_url home net w url) = Ok p ->
  p = (cache_weights home name, cache_config home name).
Proof. exact (place_lemma bytes home net w url name p). Qed.
Print Assumptions c49_place.

(* a model not yet in the cache, from a working server: both files are requested once and kept *)
Theorem c49_fetched bytes home (net : nat -> string -> transfer bytes) remote w url base name :
  trimmed url base -> last_component url name -> (forall n u, net n u = Complete (remote u)) ->
  files w (cache_weights home name) = None -> files w (cache_config home name) = None ->
  let w' := visit home net w url in
  attempts w' = (attempts w ++ [((base ++ "/model_weights.ckpt")%string, cache_weights home name);
                                ((base ++ "/model_config.yaml")%string, cache_config home name)])%list /\
  files w' (cache_weights home name) = Some (remote (base ++ "/model_weights.ckpt")%string) /\
  files w' (cache_config home name) = Some (remote (base ++ "/model_config.yaml")%string).
Proof. exact (fetched_lemma bytes home net remote w url base name). Qed.
Print Assumptions c49_fetched.

Example c49_address_ex :
  trimmed "https://example.org/models/tiss//" "https://example.org/models/tiss" /\
  last_component "https://example.org/models/tiss//" "tiss" /\
  let w := visit "/root" (fun _ u => Complete u) (mkworld (fun _ => None) []) "https://example.org/models/tiss//" in
  attempts w = [("https://example.org/models/tiss/model_weights.ckpt", "/root/.torchiva_models/tiss/model_weights.ckpt");
                ("https://example.org/models/tiss/model_config.yaml", "/root/.torchiva_models/tiss/model_config.yaml")] /\
  files w "/root/.torchiva_models/tiss/model_config.yaml" = Some "https://example.org/models/tiss/model_config.yaml".
Proof.
  split; [|split; [|split; reflexivity]].
  - exists "", "//". split; [reflexivity|]. split; [intros c []|].
    split; [intros c K; simpl in K; intuition|].
    split; [exists "h"%char; eexists; split; [reflexivity|discriminate]|].
    exists "https://example.org/models/tis", "s"%char. split; [reflexivity|discriminate].
  - exists "https://example.org/models", "//". split; [reflexivity|].
    split; [unfold no_slash; simpl; intuition discriminate|].
    split; [discriminate|]. split; [discriminate|]. intros c K; simpl in K; intuition.
Qed.
