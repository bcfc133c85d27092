From mathcomp Require Import all_ssreflect all_algebra.
From Verif Require Import Py EnsModel.
Set Implicit Arguments.
Unset Strict Implicit.
Unset Printing Implicit Defensive.
Import GRing.Theory Num.Theory.
Local Open Scope ring_scope.

Section Ens.
Variables (F : numFieldType) (K : eqType) (ks : seq K).
Hypothesis uks : uniq ks.
Lemma zipw_mkseq T U V (f : T -> U -> V) x y n : zipw f (mkseq x n) (mkseq y n) = Ok (mkseq (fun i => f (x i) (y i)) n).
Proof. by rewrite /zipw !size_mkseq eqxx /mkseq zip_map -map_comp. Qed.
Definition st (t : K -> tensor F) : state F K := [seq (k, t k) | k <- ks].
Lemma add_at_st (l : seq K) (t : K -> tensor F) k v w : uniq l -> k \in l -> iadd (t k) v = Ok w ->
  add_at [seq (k', t k') | k' <- l] k v = Ok [seq (k', if k' == k then w else t k') | k' <- l].
Proof.
elim: l => [|k' l IH] //=; rewrite inE => /andP [nk ul] kl E.
case: (k' =P k) kl => [e|ne] /= kl.
  rewrite e E /=; congr (Ok (_ :: _)); apply/eq_in_map => k2 k2l; case: eqP => // e2.
  by move: nk; rewrite e -e2 k2l.
have kl' : k \in l by case/orP: kl => // /eqP e; case: ne.
by rewrite IH.
Qed.
Lemma add_all_st (l : seq K) (t u w : K -> tensor F) : uniq l -> {subset l <= ks} -> (forall k, k \in l -> iadd (t k) (u k) = Ok (w k)) ->
  add_all (st t) [seq (k, u k) | k <- l] = Ok (st (fun k => if k \in l then w k else t k)).
Proof.
elim: l t => [|k l IH] t //=.
case/andP=> nk ul sub H.
rewrite /st (@add_at_st ks t k (u k) (w k)) ?H ?mem_head ?sub ?mem_head //=.
rewrite -/(st _) IH //; last first.
- move=> k' k'l; case: eqP => [e|_]; first by move: nk; rewrite -e k'l.
  by apply: H; rewrite inE k'l orbT.
- by move=> k' k'l; apply: sub; rewrite inE k'l orbT.
congr (Ok _); apply: eq_map => k' /=; rewrite inE; congr pair.
case: (k' =P k) => [->|_] /=; last by [].
by rewrite (negbTE nk).
Qed.
Variables (isf : K -> bool) (N : K -> nat) (v : nat -> K -> nat -> F) (w : nat -> K -> nat -> int).
Definition tens (j : nat) (k : K) : tensor F := if isf k then FT (mkseq (v j k) (N k)) else IT F (mkseq (w j k) (N k)).
Definition sums (m : nat) (k : K) : tensor F :=
  if isf k then FT (mkseq (fun i => \sum_(j < m) v j k i) (N k)) else IT F (mkseq (fun i => \sum_(j < m) w j k i) (N k)).
Lemma sumsS m k : iadd (sums m k) (tens m k) = Ok (sums m.+1 k).
Proof.
rewrite /sums /tens; case: (isf k); rewrite /= zipw_mkseq /=; congr (Ok (_ _)); apply: eq_mkseq => i;
  by rewrite big_ord_recr.
Qed.
Lemma accumulate_st n m : accumulate (st (sums m)) [seq st (tens j) | j <- iota m n] = Ok (st (sums (m + n))).
Proof.
elim: n m => [|n IH] m /=; first by rewrite addn0.
rewrite (@add_all_st ks (sums m) (tens m) (sums m.+1)) //=; last by move=> k _; exact: sumsS.
have -> : st (fun k => if k \in ks then sums m.+1 k else sums m k) = st (sums m.+1).
  by apply/eq_in_map => k ->.
by rewrite IH addSnnS.
Qed.
Lemma ensemble_mean m : ensemble [seq st (tens j) | j <- iota 0 m.+1] = Ok (st (fun k =>
  if isf k then FT (mkseq (fun i => (\sum_(j < m.+1) v j k i) / m.+1%:R) (N k))
  else IT F (mkseq (fun i => let s := \sum_(j < m.+1) w j k i in sgz s * (absz s %/ m.+1)%N%:Z) (N k)))).
Proof.
rewrite /ensemble /=.
have -> : st (tens 0) = st (sums 1).
  apply: eq_map => k; congr pair; rewrite /tens /sums; case: (isf k); congr (_ _); apply: eq_mkseq => i;
  by rewrite big_ord1.
rewrite accumulate_st /= size_map size_iota /st -map_comp; congr Ok; apply: eq_map => k /=; congr pair.
by rewrite /sums add1n; case: (isf k) => /=; congr (_ _); rewrite /mkseq -map_comp.
Qed.
End Ens.
(* the truncated quotient *)
Lemma trunc_div (s : int) n : (0 < n)%N -> let q := sgz s * (absz s %/ n)%N%:Z in
  `|q * n%:Z| <= `|s| /\ `|s - q * n%:Z| < n%:Z.
Proof.
move=> n0 q.
have e : s - q * n%:Z = sgz s * (absz s %% n)%N%:Z.
  rewrite {1}[s]intEsg /q -mulrA -mulrBr -PoszM {1}(divn_eq (absz s) n) PoszD addrAC subrr add0r //.
rewrite e /q -mulrA !normrM normr_sgz -PoszM; case: (altP (s =P 0)) => [->|_] /=; rewrite ?mul0r ?mul1r ?normr0 //.
split; last by rewrite -abszE ltz_nat ltn_mod.
by rewrite mul1n -abszE lez_nat leq_trunc_div.
Qed.
Lemma ensemble_none (F : numFieldType) (K : eqType) : @ensemble F K [::] = Err UnboundLocalError.
Proof. by []. Qed.
