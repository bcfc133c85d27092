(* Model of torchiva/stft.py (STFT.forward, STFT.inv) with torch.stft / torch.istft, and of
   BSSSeparator.forward, torchiva/nn.py:153-178, on the channels of one example (leading
   dimensions are flattened, stft.py:86-88 and 109-113, and restored).  n_fft >= 2.
   Not modelled: dtypes, and separators changing the number of frequencies. *)
From mathcomp Require Import all_ssreflect all_algebra.
From Verif Require Import CAlg Py FftModel.
Set Implicit Arguments. Unset Strict Implicit. Unset Printing Implicit Defensive.
Import GRing.Theory Num.Theory Order.TTheory.
Local Open Scope ring_scope.
Local Open Scope py_scope.

Section MapM.
Variables (S T : Type) (f : S -> result T).
Fixpoint mapM (l : seq S) : result (seq T) :=
  match l with [::] => Ok [::] | x :: l' => let* y := f x in let* r := mapM l' in Ok (y :: r) end.
End MapM.

Section Stft.
Variable C : numClosedFieldType.
Variable root : nat -> C.
Variables (n_fft : nat) (hop_length : option nat) (window : nat -> C).
(* default of torch.stft / torch.istft *)
Definition hop : nat := odflt (n_fft %/ 4)%N hop_length.
Definition half : nat := (n_fft %/ 2)%N.
(* a spectrogram: number of frames, and the value at (frequency, frame) *)
Definition spec := (nat * (nat -> nat -> C))%type.
(* reflection at both ends by n_fft // 2 samples, at position t of the padded signal *)
Definition reflect (x : seq C) (t : nat) : C :=
  if (t < half)%N then x`_(half - t)
  else if (t - half < size x)%N then x`_(t - half)
  else x`_(2 * (size x - 1) - (t - half)).
(* torch.stft(x, n_fft, hop_length, window, center=True, pad_mode="reflect"); reflection fails
   on signals not longer than the padding *)
Definition stft (x : seq C) : result spec :=
  if (hop == 0)%N || (size x <= half)%N then raise RuntimeError
  else Ok ((1 + (size x + 2 * half - n_fft) %/ hop)%N,
           fun k m => rfft root n_fft (fun j => window j * reflect x (m * hop + j)) k).
(* frames that reach position t *)
Definition covers (m t : nat) : bool := (m * hop <= t < m * hop + n_fft)%N.
Definition overlap_add (n_frames : nat) (frame : nat -> nat -> C) (t : nat) : C :=
  \sum_(m < n_frames | covers m t) frame m (t - m * hop)%N.
(* torch.istft without length: the padding is cut off at both ends; the overlap-added squared
   windows must exceed 1e-11 in the remaining range, which must not be empty *)
Definition istft (X : spec) : result (seq C) :=
  let: (n_frames, X) := X in
  if (hop == 0)%N || (n_fft < hop)%N || (n_frames == 0)%N then raise RuntimeError
  else
    let y := overlap_add n_frames (fun m j => irfft root n_fft (fun k => X k m) j * window j) in
    let env := overlap_add n_frames (fun m j => window j ^+ 2) in
    let len := (n_fft + hop * (n_frames - 1) - 2 * half)%N in
    if (len == 0)%N || has (fun t => ~~ (10%:R ^- 11 < `|env (half + t)%N|)) (iota 0 len) then raise RuntimeError
    else Ok (mkseq (fun t => y (half + t)%N / env (half + t)%N) len).

(* nn.py:171-176 *)
Definition fit (n : nat) (y : seq C) : seq C :=
  if (size y < n)%N then y ++ nseq (n - size y) 0 else if (n < size y)%N then take n y else y.
(* nn.py:153-178; n is the number of samples of every channel *)
Definition sep_forward (separator : seq spec -> result (seq spec)) (n : nat) (x : seq (seq C)) : result (seq (seq C)) :=
  let* X := mapM stft x in
  let* Y := separator X in
  let* y := mapM istft Y in
  Ok [seq fit n c | c <- y].
End Stft.
