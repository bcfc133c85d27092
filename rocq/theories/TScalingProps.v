(* Property C75: the scaling functions (projection back, minimum distortion) on whole tensors. *)
From Coq Require Import String Ascii ZArith.
From mathcomp Require Import all_ssreflect all_fingroup all_algebra.
From Verif Require TorchShape.
From Verif Require Import CAlg Py Batch LinalgModel ScalingModel ScalingSpec TensorModel TSpec TOpsModel TScalingModel TScalingSpec.
From Verif Require Import TensorProofs TScalingProofs TScalingLoop TScalingRun TScalingPb TScalingBatch TScalingStop.
Set Implicit Arguments. Unset Strict Implicit. Unset Printing Implicit Defensive.
Import GRing.Theory Num.Theory Order.TTheory.
Local Open Scope ring_scope.

(* ---- minimum_distortion_l2 and minimum_distortion_l2_phase: every element of the batch as the
   functions of C36, C37 scale it, and as it is scaled alone; the reference may be broadcast *)
Theorem c75_l2 (C : numClosedFieldType) K F N B R (Y ref : tensor C) : sh Y = [:: N, F, K & B] -> sh ref = [:: N, F & R] -> fits R B ->
  exists2 o, t_md_l2 Y ref = Ok o & scales B o (fun b => ScalingModel.minimum_distortion_l2 (spec_at K F N Y b) (ref_at F N ref (bc_elem R b))).
Proof. exact: l2_batch. Qed.
Print Assumptions c75_l2.
Theorem c75_l2_alone (C : numClosedFieldType) K F N B R (Y ref : tensor C) : sh Y = [:: N, F, K & B] -> sh ref = [:: N, F & R] -> fits R B ->
  separately N F K B (t_md_l2 Y ref) (fun b => t_md_l2 (alone Y b) (ref_alone ref (bc_elem R b))).
Proof. exact: l2_sep. Qed.
Print Assumptions c75_l2_alone.
Theorem c75_phase (C : numClosedFieldType) K F N B R (Y ref : tensor C) : sh Y = [:: N, F, K & B] -> sh ref = [:: N, F & R] -> fits R B ->
  exists2 o, t_md_phase Y ref = Ok o & scales B o (fun b => ScalingModel.minimum_distortion_l2_phase (spec_at K F N Y b) (ref_at F N ref (bc_elem R b))).
Proof. exact: phase_batch. Qed.
Print Assumptions c75_phase.
Theorem c75_phase_alone (C : numClosedFieldType) K F N B R (Y ref : tensor C) : sh Y = [:: N, F, K & B] -> sh ref = [:: N, F & R] -> fits R B ->
  separately N F K B (t_md_phase Y ref) (fun b => t_md_phase (alone Y b) (ref_alone ref (bc_elem R b))).
Proof. exact: phase_sep. Qed.
Print Assumptions c75_phase_alone.

(* two recordings with two channels, one frequency and three frames, and one reference for both *)
Example c75_example (C : numClosedFieldType) : exists Y ref : tensor C, [/\ sh Y = [:: 3; 1; 2; 2]%N, sh ref = [:: 3; 1]%N, fits [::] [:: 2%N],
  at_ Y [:: 2; 0; 1; 1]%N = 6%:R & at_ ref [:: 2; 0]%N = 2%:R].
Proof. by exists (mkT [:: 3; 1; 2; 2]%N (fun i => (nth 0 i 0 * (nth 0 i 2 + 1 + nth 0 i 3))%:R)%N), (mkT [:: 3; 1]%N (fun i => (nth 0 i 0)%:R)%N). Qed.

(* ---- minimum_distortion: without p, or with p = 2 (and q = 2), the squared error *)
Theorem c75_default (C : numClosedFieldType) pw St (p q : option C) rtol Y ref n (st : St) :
  (if p is Some p then (p == 2%:R) && (if q is Some q then p == q else true) else true) ->
  t_minimum_distortion pw None p q rtol Y ref n st = (let* o := t_md_l2 Y ref in Ok (o, st))%py.
Proof. exact: md_default. Qed.
Print Assumptions c75_default.

(* the iteration: all elements make the same number of steps k, and are what k steps compute for
   each alone; k = n when the relative tolerance is not positive *)
Theorem c75_iterative (C : numClosedFieldType) pw St K F N B R (Y ref : tensor C) p q rtol n (st : St) :
  (forall x y : C, 0 <= x -> 0 <= pw x y) -> sh Y = [:: N, F, K & B] -> sh ref = [:: N, F & R] -> fits R B -> exponents p q ->
  exists k o, [/\ t_minimum_distortion pw None (Some p) q rtol Y ref n st = Ok (o, st),
    sh o = [:: N, F, K & B], (minn 2 n <= k <= n)%N, rtol <= 0 -> k = n &
    forall b, inr B b -> exists2 out, minimum_distortion pw (spec_at K F N Y b) (ref_at F N ref (bc_elem R b)) (Some p) q 0 k = Ok out &
      forall c f (m : 'I_N), at_ o [:: nat_of_ord m, nat_of_ord f, nat_of_ord c & b] = out tt c f 0 m].
Proof. move=> hp sY sr hR hg; exact (md_batch hp sY sr hR rtol n st hg). Qed.
Print Assumptions c75_iterative.
Theorem c75_iterative_alone (C : numClosedFieldType) pw St K F N B R (Y ref : tensor C) p q rtol n (st : St) :
  (forall x y : C, 0 <= x -> 0 <= pw x y) -> sh Y = [:: N, F, K & B] -> sh ref = [:: N, F & R] -> fits R B -> exponents p q ->
  exists k o, [/\ (minn 2 n <= k <= n)%N, rtol <= 0 -> k = n,
    t_minimum_distortion pw None (Some p) q rtol Y ref n st = Ok (o, st) &
    separately N F K B (Ok o) (fun b => let* r := t_minimum_distortion pw None (Some p) q 0 (alone Y b) (ref_alone ref (bc_elem R b)) k st in Ok r.1)%py].
Proof. move=> hp sY sr hR hg; exact (md_sep sY sr hR hp rtol n st hg). Qed.
Print Assumptions c75_iterative_alone.
(* a single recording: the function of C38, stopping rule included *)
Theorem c75_single (C : numClosedFieldType) pw St K F N (Y ref : tensor C) p q rtol n (st : St) :
  (forall x y : C, 0 <= x -> 0 <= pw x y) -> sh Y = [:: N; F; K] -> sh ref = [:: N; F] -> exponents p q ->
  exists2 o, t_minimum_distortion pw None (Some p) q rtol Y ref n st = Ok (o, st) &
    sh o = [:: N; F; K] /\ exists2 out, minimum_distortion pw (spec_at K F N Y [::]) (ref_at F N ref [::]) (Some p) q rtol n = Ok out &
      forall c f (m : 'I_N), at_ o [:: nat_of_ord m; nat_of_ord f; nat_of_ord c] = out tt c f 0 m.
Proof. move=> hp sY sr hg; exact (md_single hp sY sr (isT : fits [::] [::]) rtol n st erefl hg). Qed.
Print Assumptions c75_single.
(* with a positive tolerance the result for a recording depends on the other recordings of the
   batch: the stopping rule looks at all coefficients together *)
Theorem c75_other_recordings_refuted (C : numClosedFieldType) pw St (st : St) :
  (forall x : C, 0 <= x -> pw x 1 = x) -> (forall x y : C, 0 <= x -> 0 <= pw x y) ->
  exists (Y ref o o1 : tensor C), [/\ sh Y = [:: 3; 1; 1; 2]%N /\ sh ref = [:: 3; 1; 2]%N,
    t_minimum_distortion pw None (Some 1) None (100%:R^-1) Y ref 3 st = Ok (o, st),
    t_minimum_distortion pw None (Some 1) None (100%:R^-1) (alone Y [:: 0%N]) (ref_alone ref [:: 0%N]) 3 st = Ok (o1, st) &
    at_ o [:: 0; 0; 0; 0]%N = 3%:R^-1 /\ at_ o1 [:: 0; 0; 0]%N = 3%:R / 17%:R].
Proof. move=> h1 h2; exact (stop_witness h1 h2 st). Qed.
Print Assumptions c75_other_recordings_refuted.
(* other exponents *)
Theorem c75_exponents (C : numClosedFieldType) pw St K F N B R (Y ref : tensor C) p q rtol n (st : St) :
  sh Y = [:: N, F, K & B] -> sh ref = [:: N, F & R] -> fits R B -> ~~ exponents p q ->
  ~~ ((p == 2%:R) && (if q is Some q then p == q else true)) ->
  t_minimum_distortion pw None (Some p) q rtol Y ref n.+1 st = Err AssertionError.
Proof. move=> sY sr hR hb hd; exact (md_bad_exponents pw sY sr hR rtol n st hb hd). Qed.
Print Assumptions c75_exponents.
Example c75_exponents_example (C : numClosedFieldType) : [/\ exponents (1 : C) None, exponents (1 : C) (Some 2%:R) & ~~ exponents (3%:R : C) None].
Proof. by rewrite /exponents eq_sym pnatr_eq1 /= ltr01 ltr1n ler1n lexx ltr_nat andbF. Qed.
Example c75_power_example (C : numClosedFieldType) : let pw (x t : C) := if t == 1 then x else 1 in
  (forall x : C, 0 <= x -> pw x 1 = x) /\ (forall x t : C, 0 <= x -> 0 <= pw x t).
Proof. by split=> [x|x t] x0 /=; [rewrite eqxx|case: ifP; rewrite ?ler01]. Qed.

(* ---- minimum_distortion with a model of the weights.  One batch dimension: the weights of element
   0 at frequency 0 are used for all elements and all frequencies *)
Theorem c75_model_shared (C : numClosedFieldType) pw St K F N M R (Y ref : tensor C) (m : St -> tensor C -> result (tensor C * St)) p q rtol n st :
  sh Y = [:: N; F; K; M] -> sh ref = [:: N, F & R] -> fits R [:: M] -> (0 < F)%N -> (0 < M)%N ->
  (forall st e, sh e = sh Y -> exists w st', m st e = Ok (w, st') /\ sh w = sh Y) ->
  exists k (cs : nat -> 'I_M -> 'I_F -> 'I_K -> C) (sts : nat -> St) o,
  [/\ t_minimum_distortion pw (Some m) p q rtol Y ref n st = Ok (o, sts k), (minn 2 n <= k <= n)%N, sts 0%N = st /\ (forall b f c, cs 0%N b f c = 1),
    forall j, (j < k)%N -> shared_step N R Y ref m (sts j) (sts j.+1) (cs j) (cs j.+1) &
    sh o = sh Y /\ forall (b : 'I_M) f c (x : 'I_N), at_ o [:: nat_of_ord x; nat_of_ord f; nat_of_ord c; nat_of_ord b] = cs k b f c * at_ Y [:: nat_of_ord x; nat_of_ord f; nat_of_ord c; nat_of_ord b]].
Proof. move=> sY sr hR F0 M0; rewrite {1 2}sY => hm; exact (model_shared pw p q rtol sY sr hR hm erefl F0 M0 n st). Qed.
Print Assumptions c75_model_shared.
(* no batch dimension, and two or more *)
Theorem c75_model_no_batch (C : numClosedFieldType) pw St K F N (Y ref : tensor C) (m : St -> tensor C -> result (tensor C * St)) p q rtol n st :
  sh Y = [:: N; F; K] -> sh ref = [:: N; F] ->
  (forall st e, sh e = sh Y -> exists w st', m st e = Ok (w, st') /\ sh w = sh Y) ->
  t_minimum_distortion pw (Some m) p q rtol Y ref n.+1 st = Err IndexError.
Proof. move=> sY sr; rewrite sY => hm; exact (model_axes pw p q rtol sY sr (isT : fits [::] [::]) hm n st erefl). Qed.
Print Assumptions c75_model_no_batch.
Theorem c75_model_two_batch (C : numClosedFieldType) pw St K F N M1 M2 B R (Y ref : tensor C) (m : St -> tensor C -> result (tensor C * St)) p q rtol n st :
  sh Y = [:: N, F, K, M1, M2 & B] -> sh ref = [:: N, F & R] -> fits R [:: M1, M2 & B] -> (0 < M1)%N -> (0 < F)%N -> F <> 1%N -> M2 <> 1%N -> F <> M2 ->
  (forall st e, sh e = sh Y -> exists w st', m st e = Ok (w, st') /\ sh w = sh Y) ->
  t_minimum_distortion pw (Some m) p q rtol Y ref n.+1 st = Err RuntimeError.
Proof. move=> sY sr hR h1 h2 h3 h4 h5; rewrite sY => hm; exact (model_two_batch pw p q rtol sY sr hR hm n st erefl h1 h2 h3 h4 h5). Qed.
Print Assumptions c75_model_two_batch.
Example c75_model_example (C : numClosedFieldType) (Y : tensor C) : let m (st : nat) e := Ok (tmap (fun x => `|x|) e : tensor C, st.+1) in
  forall st e, sh e = sh Y -> exists w st', m st e = Ok (w, st') /\ sh w = sh Y.
Proof. by move=> m st e he; exists (tmap (fun x => `|x|) e), st.+1. Qed.

(* ---- the layout that the documentation of minimum_distortion states: Y of shape (n_freq, n_chan,
   n_frames) and ref of shape (n_frames, n_freq), or even (n_freq, n_frames) *)
Theorem c75_documented_layout_refuted (C : numClosedFieldType) pw St (m : option (St -> tensor C -> result (tensor C * St))) p q rtol K F N (Y ref : tensor C) n st :
  sh Y = [:: N; K; F] -> N <> 1%N -> F <> 1%N -> K <> 1%N -> N <> F -> K <> F ->
  sh ref = [:: F; N] \/ sh ref = [:: N; F] -> t_minimum_distortion pw m p q rtol Y ref n.+1 st = Err RuntimeError.
Proof. move=> sY n1 f1 k1 nf kf; exact (doc_layouts pw m p q rtol n st sY n1 f1 k1 nf kf). Qed.
Print Assumptions c75_documented_layout_refuted.

(* ---- projection_back *)
Theorem c75_projection_back (C : numClosedFieldType) K F N B (Y ref : tensor C) (argsort : forall n, ('I_n -> C) -> 'I_n -> 'I_n) perm :
  sh Y = [:: N, F, K & B] -> sh ref = [:: N, F & B] -> orders (argsort N) perm -> (0 < K)%N -> (K <= N)%N ->
  scaled B (t_projection_back argsort Y ref) (fun b => projection_back perm (spec_at K F N Y b) (ref_at F N ref b)).
Proof. move=> sY sr hp K0 h; exact (pb_all sY sr hp K0 h). Qed.
Print Assumptions c75_projection_back.
Theorem c75_projection_back_alone (C : numClosedFieldType) K F N B (Y ref : tensor C) (argsort : forall n, ('I_n -> C) -> 'I_n -> 'I_n) perm :
  sh Y = [:: N, F, K & B] -> sh ref = [:: N, F & B] -> orders (argsort N) perm -> (0 < K)%N -> (K <= N)%N ->
  separately N F K B (t_projection_back argsort Y ref) (fun b => t_projection_back argsort (alone Y b) (ref_alone ref b)).
Proof. move=> sY sr hp K0 h; exact (pb_sep sY sr hp K0 h). Qed.
Print Assumptions c75_projection_back_alone.
(* fewer frames than channels *)
Theorem c75_projection_back_few_frames (C : numClosedFieldType) K F N B (Y ref : tensor C) (argsort : forall n, ('I_n -> C) -> 'I_n -> 'I_n) perm :
  sh Y = [:: N, F, K & B] -> sh ref = [:: N, F & B] -> orders (argsort N) perm -> (N < K)%N -> (0 < TorchShape.numel (F :: B))%N ->
  exists e, t_projection_back argsort Y ref = Err e /\ (e = RuntimeError \/ ((K %| N * TorchShape.numel (F :: B))%N /\ e = LinAlgError)).
Proof. move=> sY sr hp h1 h2; exact (pb_few_frames sY (order_ext hp) sr h1 h2). Qed.
Print Assumptions c75_projection_back_few_frames.
(* unlike minimum_distortion it does not broadcast the reference, although documented alike *)
Theorem c75_projection_back_broadcast_refuted (C : numClosedFieldType) K F N B R (Y ref : tensor C) (argsort : forall n, ('I_n -> C) -> 'I_n -> 'I_n) :
  sh Y = [:: N, F, K & B] -> sh ref = [:: N, F & R] -> (0 < K)%N -> (0 < TorchShape.numel B)%N -> fits R B -> R <> B ->
  t_projection_back argsort Y ref = Err RuntimeError.
Proof. move=> sY sr K0 B0 hR ne; exact (pb_broadcast argsort sY K0 B0 sr hR ne). Qed.
Print Assumptions c75_projection_back_broadcast_refuted.
Example c75_orders_example (C : numClosedFieldType) : orders (fun (_ : 'I_3 -> C) i => i) (fun=> 1%g).
Proof. by move=> g g' _ i; rewrite perm1. Qed.
