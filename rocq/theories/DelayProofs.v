From Coq Require Import Lia.
From mathcomp Require Import all_ssreflect zify.
From Verif Require Import Py DelayModel.
Set Implicit Arguments. Unset Strict Implicit. Unset Printing Implicit Defensive.
Local Open Scope py_scope.

Section P.
Variables (V : Type) (zero : V).
Local Notation tensor := (tensor V).

Lemma inside_cons d ds i idx : inside (d :: ds) (i :: idx) = (i < d.1) && inside ds idx.
Proof. by rewrite /inside /= eqSS; case: (size idx == size ds); rewrite /= ?andbF. Qed.
Lemma inside_nil idx : inside [::] idx -> idx = [::].
Proof. by case: idx. Qed.
Lemma addr_cons o d ds i idx : addr_of o (d :: ds) (i :: idx) = i * d.2 + addr_of o ds idx.
Proof. by rewrite /addr_of /= addnCA. Qed.

Lemma inside_numel ds idx : inside ds idx -> 0 < numel ds.
Proof.
rewrite /numel; elim: ds idx => [|d ds IH] [|i idx] //=; first by rewrite big_nil.
rewrite inside_cons big_cons => /andP [lt /IH p]; rewrite muln_gt0 p andbT.
lia.
Qed.
Lemma addr_le o ds idx : inside ds idx -> addr_of o ds idx <= last_addr o ds.
Proof.
elim: ds idx => [|d ds IH] [|i idx] //.
rewrite inside_cons addr_cons => /andP [lt /IH le].
rewrite /last_addr /= addnCA -/(last_addr o ds) leq_add // leq_mul2r; lia.
Qed.
Lemma fits_inside n o ds idx : fits n o ds -> inside ds idx -> addr_of o ds idx < n.
Proof.
move=> /orP [/eqP z|lt] h; first by have := inside_numel h; rewrite z.
exact: leq_ltn_trans (addr_le o h) lt.
Qed.

(* the Hankel view *)
Lemma hankel_ok (t : tensor) len s tl n_rows :
  dims t = (len, s) :: tl -> n_rows <= len + 1 ->
  fits (size (data t)) (off t) (dims t) ->
  exists h, [/\ hankel_view t n_rows = Ok h,
    dims h = (len + 1 - n_rows, s) :: (n_rows, s) :: tl /\ data h = data t,
    (forall i j idx, addr h (j :: i :: idx) = addr t (i + j :: idx)),
    (forall i j idx, get zero h (j :: i :: idx) = get zero t (i + j :: idx)) &
    (forall i j idx, inside (dims h) [:: j, i & idx] -> inside (dims t) (i + j :: idx))].
Proof.
move=> e le f; rewrite /hankel_view e ltnNge le /= /as_strided.
have ad i j idx : addr_of (off t) ((len + 1 - n_rows, s) :: (n_rows, s) :: tl) [:: j, i & idx]
   = addr_of (off t) ((len, s) :: tl) (i + j :: idx).
  by rewrite !addr_cons /= addnA mulnDl [i * s + _]addnC.
have ins i j idx : inside [:: (len + 1 - n_rows, s), (n_rows, s) & tl] [:: j, i & idx] ->
   inside ((len, s) :: tl) (i + j :: idx).
  rewrite !inside_cons /= => /and3P [h1 h2 ->]; rewrite andbT.
  lia.
have -> : fits (size (data t)) (off t) [:: (len + 1 - n_rows, s), (n_rows, s) & tl].
  move: f; rewrite e /fits /numel !big_cons /= !muln_eq0.
  have [//|c0] := eqVneq (len + 1 - n_rows) 0; have [//|r0] := eqVneq n_rows 0.
  rewrite ?orbT //=.
  have [n0|n0] := eqVneq len 0; first lia.
  have [//|p0] := eqVneq (\prod_(j <- tl) j.1) 0; rewrite /= /last_addr /= => lt.
  have e2 : (len + 1 - n_rows).-1 + n_rows.-1 = len.-1 by lia.
  have e3 : (len + 1 - n_rows).-1 * s + n_rows.-1 * s = len.-1 * s by rewrite -mulnDl e2.
  lia.
eexists; split; [by []|by []|by move=> i j idx; rewrite /addr e; exact: ad|by move=> i j idx; rewrite /get /addr e /= ad|exact: ins].
Qed.

(* contiguous tensors *)
Lemma caddr s ds idx : addr_of 0 (cstrides s ds) idx = s * addr_of 0 (cstrides 1 ds) idx.
Proof.
elim: ds idx s => [|d ds IH] [|i idx] s //=; rewrite ?/addr_of /= ?muln0 //.
have := IH idx (s * d); have := IH idx (1 * d); rewrite /addr_of /= !add0n !mul1n => -> ->.
by rewrite muln1 mulnDr mulnA [s * i]mulnC.
Qed.
Lemma caddr_cons d ds i idx :
  addr_of 0 (cstrides 1 (d :: ds)) (i :: idx) = i + d * addr_of 0 (cstrides 1 ds) idx.
Proof. rewrite /cstrides -/cstrides addr_cons. rewrite muln1 caddr mul1n. by []. Qed.
Definition in_box (ds : seq nat) (idx : seq nat) : bool :=
  (size idx == size ds) && all (fun p => p.1 < p.2) (zip idx ds).
Lemma in_box_cons d ds i idx : in_box (d :: ds) (i :: idx) = (i < d) && in_box ds idx.
Proof. by rewrite /in_box /= eqSS; case: (size idx == size ds); rewrite /= ?andbF. Qed.
Lemma unravelK ds idx : in_box ds idx -> unravel ds (addr_of 0 (cstrides 1 ds) idx) = idx.
Proof.
elim: ds idx => [|d ds IH] [|i idx] //; rewrite in_box_cons => /andP [lt h].
rewrite caddr_cons /= [i + _]addnC mulnC modnMDl modn_small // divnMDl; last by lia.
by rewrite divn_small // addn0 IH.
Qed.
Lemma addr_box ds idx : in_box ds idx -> addr_of 0 (cstrides 1 ds) idx < \prod_(d <- ds) d.
Proof.
elim: ds idx => [|d ds IH] [|i idx] //; first by rewrite big_nil.
rewrite in_box_cons caddr_cons big_cons => /andP [lt /IH h].
apply: (@leq_trans (d + d * addr_of 0 (cstrides 1 ds) idx)); first by rewrite ltn_add2r.
by rewrite -mulnS leq_mul2l h orbT.
Qed.
Lemma contig_get ds (f : seq nat -> V) idx : in_box ds idx -> get zero (contig ds f) idx = f idx.
Proof.
move=> h; rewrite /get /addr /contig /= (nth_map 0) ?size_iota ?addr_box //.
by rewrite nth_iota ?addr_box // add0n unravelK.
Qed.
Lemma cdims1 s ds : unzip1 (cstrides s ds) = ds.
Proof. by elim: ds s => //= d ds IH s; rewrite IH. Qed.
Lemma contig_fits ds (f : seq nat -> V) :
  fits (size (data (contig ds f))) (off (contig ds f)) (dims (contig ds f)).
Proof.
rewrite /fits /contig /= size_map size_iota.
have -> : numel (cstrides 1 ds) = \prod_(d <- ds) d.
  by rewrite -{2}(cdims1 1 ds) /numel /unzip1 big_map.
case: posnP => //= p0.
have pos : all (fun d => 0 < d) ds.
  by move: p0; elim: ds => //= d ds IH; rewrite big_cons muln_gt0 => /andP [-> /IH].
have h : in_box ds [seq d.-1 | d <- ds].
  by rewrite /in_box size_map eqxx /=; elim: ds pos {p0} => //= d ds IH /andP [d0 /IH ->]; rewrite prednK ?leqnn.
have := addr_box h; rewrite /addr_of /last_addr.
have -> // : [seq p.1 * p.2.2 | p <- zip [seq d.-1 | d <- ds] (cstrides 1 ds)]
   = [seq d.1.-1 * d.2 | d <- cstrides 1 ds].
by elim: ds (1) {p0 pos h} => //= d ds IH s; rewrite IH.
Qed.

Lemma inside_box ds idx : inside ds idx = in_box (unzip1 ds) idx.
Proof.
elim: ds idx => [|d ds IH] [|i idx] //=; rewrite ?inside_cons ?in_box_cons //= ?IH //.
Qed.

(* the delay line *)
Lemma delay_line_ok (x : tensor) n_frames s tl n_taps n_delay :
  dims x = (n_frames, s) :: tl ->
  exists y, [/\ delay_line zero x n_taps n_delay = Ok y,
    unzip1 (dims y) = [:: n_frames, n_taps & unzip1 tl],
    (forall idx, inside (dims y) idx -> addr y idx < size (data y)) &
    forall n t idx, n < n_frames -> t < n_taps -> inside tl idx ->
      get zero y [:: n, t & idx]
      = if t + n < n_taps + n_delay then zero
        else get zero x (t + n - (n_taps + n_delay) :: idx)].
Proof.
move=> e; rewrite /delay_line /pad_left e /=; set c := contig _ _.
have dc : dims c = (n_frames + (n_taps + n_delay), 1) :: cstrides (1 * (n_frames + (n_taps + n_delay))) (unzip1 tl) by [].
have le : n_taps + n_delay + 1 <= n_frames + (n_taps + n_delay) + 1 by lia.
have [h [-> [dh eh] ad gt ins]] := hankel_ok dc le (contig_fits _ _).
rewrite /= /drop_last_rows dh.
eexists; split; first by [].
- rewrite /= cdims1; congr [:: _, _ & _]; lia.
- move=> [|n [|t idx]] //= hin; rewrite /addr /= -/(addr h [:: n, t & idx]) in hin *.
  have hh : inside (dims h) [:: n, t & idx].
    by move: hin; rewrite dh !inside_cons /= => /and3P [-> lt ->]; rewrite andbT; lia.
  have -> : addr_of (off h) [:: (n_frames + (n_taps + n_delay) + 1 - (n_taps + n_delay + 1), 1),
       (n_taps + n_delay + 1 - (n_delay + 1), 1)
     & cstrides (1 * (n_frames + (n_taps + n_delay))) (unzip1 tl)] [:: n, t & idx] = addr h [:: n, t & idx].
    by rewrite /addr dh !addr_cons.
  rewrite ad eh; apply: fits_inside (ins _ _ _ hh); exact: contig_fits.
- move=> n t idx ln lt hi.
  have -> : forall (d : seq V) o ds, get zero (Tensor d o ds) [:: n, t & idx] = nth zero d (addr_of o ds [:: n, t & idx]) by [].
  have -> : nth zero (data h) (addr_of (off h) [:: (n_frames + (n_taps + n_delay) + 1 - (n_taps + n_delay + 1), 1),
       (n_taps + n_delay + 1 - (n_delay + 1), 1)
     & cstrides (1 * (n_frames + (n_taps + n_delay))) (unzip1 tl)] [:: n, t & idx]) = get zero h [:: n, t & idx].
    by rewrite /get /addr dh !addr_cons.
  rewrite gt contig_get //.
  rewrite in_box_cons -inside_box hi andbT; lia.
Qed.
End P.
