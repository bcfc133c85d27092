# Machine-checked model of torchiva

Subject: `fakufaku/torchiva` (python, /repo, read as text only).
Properties: `properties.jsonl` (C01 ...). Status per property: `MANIFEST.json`.
Proofs: `rocq/theories`, Coq 8.16.1.

## 1. How the development is organised

For every area `X` of the code:

* `XModel.v`  definitions only; every definition cites the file and lines of /repo it transcribes and says where it simplifies;
* `XSpec.v`   the vocabulary the properties are stated in; it does not mention model helpers;
* `XProofs.v` lemmas, `XBridge.v` lemmas that join several areas or put the results in the form of the theorems;
* `XProps.v`  only `Theorem ... Proof. exact ... Qed.` with `Print Assumptions`, plus `Example`s that show concrete non-trivial
  cases meeting the hypotheses.

Shared files: `Py.v`, `PyObj.v` (exceptions as values, Python objects), `CAlg.v` (complex algebra), `Batch.v` (option and
exception valued big operators), `EigExists.v` (a Hermitian eigensolver meeting the oracle's hypothesis exists), `RField.v`, `RLog.v`
(the real numbers of the standard library as an instance of the numeric tier, with logarithm), `TorchShape.v` (shape rules).

Names: `cNN_...` belongs to property CNN. `..._refuted` exhibits a witness for which a (documented or expected) statement is false
of the code. `..._partial` would be weaker than the full statement that stands next to it in a comment (there is none at present).

### Tiers

1. **Discrete tier** (stdlib lists, nat, Z, strings): parameter resolution, state machines, loader, CLI, data loading, dtype tables.
   Python exceptions are values of a `result` type; histories are lists of events and theorems are by induction over them.
2. **Shape tier**: the torch shape rules used by the library (broadcasting, einsum with ellipsis, indexing, slicing, transpose, permute,
   reshape, cat, reductions, batched solve) as executable functions on shapes, and every algorithm as a program over them.
   Theorems hold for every batch shape.
3. **Numeric tier**: the formulas over an abstract algebraically closed numeric field `C : numClosedFieldType` (mathcomp), i.e. exact
   complex arithmetic with conjugation, modulus, square root and order on reals. A single-example spectrogram is
   `{ffun 'I_n_freq -> 'M[C]_(n_chan, n_frames)}`. `torch.linalg.solve` is `if A is invertible then Some (A^-1 b) else None`;
   a `None` models the raised LinAlgError. Iteration counts, sizes, eps and source models (with state) are universally quantified.
4. **Tensor tier** (C69 to C75): tensors with values, i.e. a shape and the value at every index list, with the torch operations of the shape tier
   acting on values too. It connects the shape tier (shapes and shape exceptions are computed by the same functions) with the numeric
   tier (every element of a batch is the one-example model). So far WPE, the beamformers, T_ISS, AuxIVA_IP, AuxIVA_IP2, FIVE,
   eigh, eigh_2x2 and inv_2x2 of linalg.py, the source models of models/classic.py, STFT and BSSSeparator.forward. `torch.linalg.eigh` is applied to each
   matrix of a batch.
5. **Analytic tier**: statements that need logarithms (IVA cost descent, NMF divergence descent) take an abstract `log` with
   `log_like`/`log_mul` (what they need of it) as hypotheses; `RLog.v` shows that the natural logarithm meets them. Masks (sigmoid,
   softmax) are over the reals of the standard library.

## 2. Trusted base

* The Coq 8.16.1 kernel (and coqchk), and for each theorem what `Print Assumptions` lists (section 5).
* The reading of python/torch semantics used by the models (listed in section 6).
* **Not modelled:** floating-point rounding, overflow, NaN/inf propagation (numbers are exact; two exceptions: C54 has the NaN norm,
  and C63 has division by a zero norm as `NotANumber`); float32/float64 dtype differences except where a property is about
  dtypes; devices/CUDA; autograd (gradients, backward recomputation of checkpoints); training loops; audio and network I/O contents
  (files are abstract); performance.
* **Oracles** (universally quantified functions, with hypotheses written in the theorem): see section 6.

## 3. Per-property plan

| id | files | what is modelled | how it is proved |
|---|---|---|---|
| C01 C61 | Param | `_set_params` of both base classes and the `forward` argument lists of the eight classes as ordered keyword lists over an attribute store; the assignments to W, H, J | induction over call histories |
| C02 C03 C04 C05 | TorchShape, Shape | shape programs of all forward functions, n_src branches | symbolic execution over a reversed shape list (batch dims stay abstract), induction on n_iter |
| C06 | Delay | zero padding, as_strided semantics on a storage function with strides | arithmetic on indices |
| C07 | Tiss, Wpe | demix_derev / derev on the delay line of C06 | extensionality of big sums |
| C08 C09 | Linalg | solve_loaded_general, solve_loaded, inv_loaded as matrix programs returning option | positive-definite => invertible; completing the square |
| C10 C11 C12 | Linalg | inv_2x2 and eigh_2x2 entry by entry, clamps included | field identities; witness for the complex case |
| C13 | Linalg, EigExists | eigh (generalized branch) over an eigh oracle | matrix algebra |
| C14 | Linalg | multiply, bmm, mag_sq, mag, hermite, divide via real/imaginary parts; diagonal_loading | algebra |
| C15 C16 C17 | Tiss | the whole T-ISS loop over a stateful source model, with W, H, J, g | loop invariants; determinant of a rank-one update |
| C18 | Tiss | the three ISS block updates | completing the square |
| C19 | Cost, RLog | the sweep of C15 seen through the complete demixing matrix; cost with log | majorisation-minimisation |
| C20 | Tiss | background_update | normal equations; refuted for H <> 0 |
| C21 | Tiss | projection_back_weights | from C08 |
| C22 | Tiss, Wpe, Iva | loops with 0 iterations | computation |
| C23 | Iva | AuxIVA_IP.forward loop | loop invariants over option-valued programs |
| C24 C25 | Iva | spatial_model_update_ip2 and AuxIVA_IP2.forward | C10, C11 |
| C26 C27 C28 C62 C63 | Five | FIVE.forward | eigensolver hypothesis / concrete 2x2 solver; `NotANumber` for 0/0 |
| C29-C33 | Beam | beamformer functions and the forward functions of MVDR, MWF, GEV | completing the square, Cauchy-Schwarz in the noise metric |
| C34 C35 | Wpe | wpe_one_iter, derev, wpe_default_weights | completing the square |
| C36-C38 C60 | Scaling | scaling.py | completing the square; loop with fuel = max_iter; l_p descent: x^p is concave in x^2, its tangents are the weights (ScalingLp.v); mixed norm: four frames for which c = 1 is the optimum but the step moves away (ScalingMix*.v) |
| C39 C40 | Src | Laplace, Gauss, NMF models as state transformers | bounds; induction over histories |
| C41 | Src, RLog | NMF update | convexity/tangent majorants |
| C42 | Reset | reset discipline as a state machine over call histories | induction |
| C43 | Fft | rfft/irfft by their defining sums over a primitive root of unity | DFT inversion, circular to linear convolution |
| C44 C47 | Util | argsort oracle + gather; dtype tables | permutations/sorting; case analysis |
| C45 | Stft, StftReal | torch.stft/istft by their defining sums (center, reflection padding), frame counting, overlap-add | index arithmetic and DFT inversion |
| C46 C48 | Sep | constructor logic of STFT and BSSSeparator, dispatch | case analysis |
| C49 C50 | Load, Addr | loader over an abstract file system with crash points | induction over histories |
| C51 C52 | Cli | argument checks and file naming of the CLI | case analysis, induction over file lists |
| C53 C55 C56 | Data | dataloader pieces | induction / integer arithmetic |
| C54 | Clip | AutoClipper with the rounding of numpy's percentile | induction over histories |
| C57 | Export | export + load as dictionary transformations | dictionary lemmas |
| C58 C64 | Mask | input normalisation and output layers of the mask networks; network bodies are oracles | bounds; scaling |
| C59 | Ens, EnsKey | state-dict averaging | linear algebra on dictionaries |
| C65 | Phase (Spec, Proofs, Tiss, Ip, Ip2, Wpe, Beam, Bridge, Props) | no new model: the models of T_ISS, AuxIVA_IP, AuxIVA_IP2, WPE, MWF, MVDR; models with an eigendecomposition oracle (FIVE, GEV, MVDR without power iterations) are not covered, since the oracle may answer with unrelated eigenvectors | every step commutes with rotations: `rot d e A` = diag(d) A diag(e)^H |
| C66 | Level (Spec, Proofs, Bridge, Props) | no new model: WPE, MWF, MVDR; AuxIVA and T_ISS are not covered (their gains are clamped at every iteration) | scaling the covariance by |a|^2 scales the load when it is relative (`load_factor` above its floor); the refutations come from closed forms with one microphone |
| C67 | Perm (Spec, Proofs, Bridge, Props) | no new model: WPE, MWF, MVDR | every step commutes with reordering rows and columns (`prv`); the largest entry is shown invariant by antisymmetry |
| C68 | Eval | the loop, tables, summary, wav scaling, choice of checkpoint, sources and microphones of examples/test.py, and the epoch figures of examples/separation_model.py; the separators, fast_bss_eval (permutation and metrics), json, yaml and argparse are inputs; rational instead of floating point numbers | induction over lists and strings |
| C69 | Tensor, TSpec, TWpe, TBeam, TBatch | WPE and MVDR, MWF, GEV statement by statement on whole tensors (shape and value at each index list): einsum strings, reshapes, transposes, broadcasts, batched solve; the models of one batch element (Wpe, Beam) are shown to be their elements | symbolic execution of the tensor operations; lifting of results over batch indices |
| C70 | TOps, TEinsum, TTiss*, TSrc, TSep | T_ISS statement by statement on whole tensors (loops over sources, background and taps, in-place slices, gain normalisation, background update, projection back); Laplace, Gauss and NMF with its state (flattened batch) | each statement shown to act on the elements (TTissProofs), loops by induction (`for_fold`, `iterate_at`), exceptions carried by `gives` |
| C71 | TIp*, TSep | AuxIVA_IP statement by statement on whole tensors (orthogonal constraint, weighted covariance, row updates by slicing and concatenation, projection back) | as C70; the microphone without a source by extending the batch (TIpFar) |
| C72 | TEigh, TIp2* | AuxIVA_IP2 statement by statement on whole tensors (covariances, generalised eigenvectors, scaling, inverse, projection back); inv_2x2, eigh_2x2 and eigh entry by entry on whole tensors (writes to slices included); GEV and MVDR use these too | as C70 |
| C73 | TFive*, TSrc2 | FIVE statement by statement on whole tensors (whitening, initial signal, weighted covariance, both eigenvector methods, scaling, DC bin); a zero norm in the power method is the error `NotANumber` for the whole batch (torch goes on with NaN in that element only), so batches with such an element are not described further; proj_back_mic None is left to C04 | as C70 |
| C74 | TStft | STFT.forward, STFT.inv and BSSSeparator.forward on whole tensors: the flattening and restoring of the leading dimensions, torch.stft/istft on each row as for C45, padding or cutting; the algorithms of C69 to C73 as separators, started in the state after a reset (the reset itself: C42) | index arithmetic, C45, C69 to C73 |
| C75 | TScaling* | scaling.py statement by statement on whole tensors (broadcasts of the reference, argsort and gather of frames, flattened solve, loop with the norm over the whole batch, weight model); argsort is an oracle that orders the frames of each element by a permutation and depends on the numbers only | as C70; coefficients by induction over the loop; a computed run for the stopping rule (TScalingStop) |
| C76 | IpCost* | AuxIVA_IP (model of C23) with the Laplace model, the printed cost of auxiva_ip.py:108-122; the logarithm as for C19 | exact minimiser of each row, product over the sources, then majorisation and concavity of the logarithm over the frequencies; refutation: an explicit iteration for two sources computed for every eps |
| C77 | Ip2Cost* | AuxIVA_IP2 (model of C24) with the Laplace model; the logarithm as for C19; spec `ip2_unclamped` lists the floors | optimality of the pair of eigenvectors (C24), then the argument of C76; refutation: the eigenvectors under active floors, computed for every eps and level |
| C78 | Item*, Place* | WSJ1SpatialDataset.__init__ and __getitem__ (file choice, permutation, reference channel, cat, crop, retry) over an abstract `load`, random numbers as a list of draws (`fair`); parameters and setup of WSJ6chDataModule. Samples are integers, torch.mean exact; the DataLoader, the paths of the subsets and the JSON parser are not modelled | induction over the draws; dictionary lemmas; computation for the witnesses |
| C79 | Mix*, Place* | make_mix.py 16-19, 43-62, 103-112 (padding, common scale, conversion to int16 by truncation and wrap-around) over rational signals, the room simulation being arbitrary; read_samples.py over an abstract `load`. Float rounding, YAML and wavfile are not modelled; which of two errors is raised by read_audio is not modelled | integer part lemmas; sums of fractions; induction over lists |
| C80 | FiveCost* | five.py as in C25-C28 with the Laplace model of classic.py (stateless); the frames must not be clamped by eps and no output row may vanish | majorisation of the frame norms by their weighted squares; the smallest eigenvalue minimises the weighted energy of a unit filter; weighted arithmetic-geometric mean; explicit 2x2 counterexample by generalised eigenvalues |
| C81 | Script* | example.py 50-217 (options as natural numbers, n_src and n_chan as integers; shapes through stft, the separators of ShapeModel.v, istft, selection) and the channels used by example_dnn.py; file reading, bss_eval_sources and printing are not modelled, nor is the overlap condition of istft; T_ISS without taps in the numeric tier | composition of the C02-C04 lemmas; extensionality over no taps |
| C82 | Choice* | test.py 141-162 and 165-352 (the separator built from the options, the attribute writes on a trained one, argparse for --window only: type then choices) on the objects of SepModel.v; the loading of checkpoints is an arbitrary function, the mutually exclusive groups are not modelled (options independent), `write` drops an exception of an attribute write (for integer n_iter, n_src there is none) | C46/C48 lemmas; invariance of registered modules; a concrete trained separator |
| C83 | Train* | separation_model.py 71-99 on the objects of SepModel.v, config["model"] as in LoadModel.v; building the network is an arbitrary function that may raise (whether one of the shipped networks raises KeyError is not claimed); the entries of config["training"] read before are not modelled | C46/C48 lemmas; the export round trip of C57 |
| C84 | Inst* | utils.py 67-105; the import system is an arbitrary function from full module names to a module (attributes, package or not) or an exception, calls are an arbitrary function that may raise; the events (imports, calls) are logged in order; entries of the mapping are null, strings, lists, mappings or values that are not iterable; module-level `__getattr__` and the values of nested mappings are not modelled | induction on names (split and join are inverse); case analysis |
| C85 | Step* | separation_model.py 123-151 as far as channels are concerned: the slice of the channels and the index (not negative) of the channel projected back to, on the items of ItemModel.v; the separator itself, the loss and the logging are not modelled here | the lemmas of C78; witnesses with two microphones |

## 4. Disagreements between documentation (or expectation) and code found while modelling

Each item names the theorem that establishes it where there is one.

Separation algorithms
* FIVE computes the inverse square root of the eigenvalue, the optimal scale of each frequency, and does not use it (five.py:229-242):
  the projection back sets the scale in every iteration, so the cost of independent vector extraction can rise (`c80_descent_refuted`),
  although it falls up to the scales of the frequencies (`c80_rescaled`).
* AuxIVA_IP with the documented default n_src=None raises TypeError (`c02_ip_default_refuted`, `c02_ip_default_error`).
* AuxIVA_IP with more channels than sources and a reference microphone >= n_src returns a tensor with extra axes
  (auxiva_ip.py:96-101; `c03_ip_mic_refuted`, `c71_every_mic_refuted`; the values are right in every slice, `c71_ip_far_mic`). Its projection back ignores `load`, and uses the J of the previous iteration.
* WPE with any source model that keeps the shape of its input raises for two or more channels (`c03_wpe_model_refuted`); n_taps=0 raises
  IndexError (`c03_wpe_no_taps`, `c35_...`); it never resets its model (`c42_wpe_refuted`).
* T_ISS background update adds `A2` with the wrong sign, so the background is not decorrelated from the sources once there are taps
  (`c20_reverb_refuted`). Projection back is skipped for n_iter=0, and fails for batched input with the saved shapes
  (`rhs.permute([-2,-1,-3])`, `c03_tiss_batched`; every batch, although each element alone works: `c70_tiss_far_mic`,
  `c70_every_mic_refuted`); a negative reference microphone counts from the columns used (`c03_tiss_negative_mic`).
  W and J are kept on the object, H never is (C61).
* T_ISS with eps > 1 may increase the cost (`c19_large_eps_refuted`). AuxIVA_IP with any regularisation up to 0.1 may increase it
  (`c76_regularised_refuted`): the loaded solve moves the demixing rows away from the optimum. The cost it prints with verbose=True may rise
  although nothing is wrong (`c76_printed_refuted`): the covariances are not divided by the number of frames; for batches printing raises
  ValueError (`c76_printed_batch`).
* AuxIVA_IP2: the floors eps (default 1e-5) under the determinant of the covariance and under the discriminant are absolute, while these
  numbers are proportional to the 6th and 12th power of the level. For a quiet recording (amplitude 0.1 in the example) both floors are active,
  the two eigenvectors become nearly parallel and the iteration increases the cost (`c77_quiet_refuted`); otherwise it is a descent
  method with any eps (`c77_run`), unlike AuxIVA_IP.
* FIVE: docstring says the output is (..., n_freq, n_frames), the code returns (..., 1, n_freq, n_frames) (`c04_shape`);
  two channels use the conjugated closed form eigenvectors (`c26_two_channels_refuted`); DC is zeroed (C28); n_iter=0 uses a conjugated scale
  (`c27_no_iteration_refuted`); n_power_iter 0 or 1 raises UnboundLocalError (`c04_power_iterations`; the shipped
  trained_models/tiss/model_config.yaml has n_power_iter: 0); dependent channels give NaN with the power method (C63).
* `compute_mvdr_rtf_eigh` starts its power iterations from the first column, so that the estimated steering vector depends on the order in
  which the microphones are numbered (`c67_rtf_refuted`, one iteration).
* The floors of the beamformers are absolute while their covariances are sums over the frames (not means): MWF shrinks quiet inputs
  (`c66_quiet`) and MVDR with `mvdr_type="rtf"` divides loud ones by eps (1 + eps) E (`c66_loud`), per frequency, so a usual recording
  (energy above 1e5 over the frames) comes out attenuated and with its spectrum flattened instead of undistorted.
* AuxIVA_IP2 inverts its demixing matrix with `inv_2x2`, which replaces determinants below 1e-6 by 1e-6: at such frequencies (loud inputs
  have small demixing matrices) the projection back loses the phase of the determinant, so that reversing the polarity of a microphone
  other than the reference changes the output (`c65_ip2`).
* BSSSeparator reset=False has no effect with T_ISS, AuxIVA_IP, AuxIVA_IP2 and FIVE (`c42_reset_flag`).

Linear algebra and beamformers
* eigh_2x2 without B returns conjugated eigenvectors for complex matrices (`c12_eigh_2x2_complex_refuted`); GEV inherits this
  for two channels (`c33_two_channels_refuted`).
* solve_loaded may fail for indefinite matrices (`c09_indefinite_refuted`); diagonal_loading refers to an undefined name
  (`c14_diagonal_loading_raises`).
* MWF ignores eps when it has a reference microphone (C32). MVDR of type scm fails on a singular noise covariance (C31).

Scaling, masks, source models
* MVDR with mvdr_type="scm" solves without loading, so one silent frequency of one element makes the whole batch fail
  (`c69_scm_silent`, `c69_good_elements_refuted`).
* minimum_distortion with p other than 2: the examples of a batch influence each other through the stopping rule
  (`c38_batch_independence_refuted`, on tensors `c75_other_recordings_refuted`); lpq_norm raises the error
  to the power q before it computes the weights from it, so that with q other than 1 or 2 an update can increase the error (`c38_mixed_refuted`).
* minimum_distortion with a weight model uses the weights of the first element of the batch at the first frequency for all elements and
  frequencies (`c75_model_shared`), and works with exactly one batch dimension (`c75_model_no_batch`, `c75_model_two_batch`). The layout in its
  docstring raises RuntimeError (`c75_documented_layout_refuted`). projection_back documents the reference as the minimum distortion functions
  do but does not broadcast it (`c75_projection_back_broadcast_refuted`). With fewer frames than channels the exception can also be
  LinAlgError (`c75_projection_back_few_frames`), which torch derives from RuntimeError; the model of C60 knows RuntimeError only.
* SimpleModel's and MaskMVDRSupport's offset is inside the sigmoid or unchecked (`c58_simple_offset_refuted`,
  `c58_mvdr_any_offset_refuted`); the GLU mask is level dependent below the power floor (`c64_quiet_refuted`).
* NMFModel raises on an empty spectrogram (`c03_nmf_empty`).

STFT, separator, loader, command line
* Custom windows are documented but raise AttributeError (`c46_custom_window_refuted`).
* The last n mod hop samples of every output are zeroed (even n_fft); inputs of at most n_fft//2 samples or less than one hop raise
  RuntimeError; hop > n_fft is only detected in the inverse (C45).
* Models with equal last URL component share a cache entry (`c49_shared_refuted`); an interrupted download is used as if complete
  (`c49_partial_file_refuted`).
* Folder mode overwrites outputs of equally named files (`c52_one_output_per_input_refuted`); the input file may be overwritten
  (`c52_input_kept_refuted`); five gets one channel, i.e. does nothing (C51 with C28).

Training code
* AutoClipper with percentile 100 still rescales (`c54_never_clips_refuted`); a NaN norm poisons the history (`c54_recovers_from_nan_refuted`).
* compute_interval need not contain the sources (`c55_contains_sources_refuted`); collator's docstring says it cuts to the shortest but it
  pads to the longest, and a mono signal is broadcast (`c56_mono_rejected_refuted`).
* WSJ1SpatialDataset skips items whose "mean power" is zero, but tests the mean of the samples: a loud zero-mean source is skipped and another
  item returned, or with no other item the recursion never ends (`c78_discarded_refuted`); without max_len_s silent targets are returned
  (`c78_silent_refuted`); with shuffle_ref the targets belong to no particular channel of the mixture (`c78_shuffle_ref_refuted`).
* WSJ6chDataModule ignores the numbers of channels it is given, for training and validation alike (`c78_same_data`,
  `c78_channels_refuted`); its default for ref_is_reverb selects the anechoic references, the documented default of the dataset the
  reverberant ones (`c78_default_refuted`); train_n_channels values below -1 drop items from the end (`c78_module`).
* The lengths of a mixture and of its references are never compared by WSJ1SpatialDataset (`c78_equal_lengths_refuted`).
* example.py warns that tiss performs no dereverberation whenever taps are given: it compares with "overiss_t", which is not a choice
  (`c81_tap_warning`, `c81_warning_true_refuted`, `c81_dereverberates`); the warning of five prints the taps as n_src (`c81_shown_number_refuted`); five compares one output
  with two references (`c81_five_refuted`); `--delay` without `--tap` selects anechoic references (`c81_references`, `c81_delay_without_taps`).
* example_dnn.py ignores `--mic`: the first `--src` channels are separated (`c81_dnn`, `c81_dnn_mics_refuted`).
* test.py: `--gauss` always raises TypeError (`c82_gauss_refuted`); `--ip2-hparams`, `--frontend-hparams` are ignored (`c82_hparams_refuted`);
  every `--window` is rejected (`c82_window_refuted`); with `--iss-hparams` the requested n_iter and n_src are written on the outer
  separator only, so that the training values are used and the requested n_iter recorded (`c82_trained`, `c82_iterations_refuted`); so does the command of README.rst:58 (`c82_readme_refuted`).
* WSJModel takes a KeyError raised while building the network for a missing section and trains with the Laplace model (`c83_fallback_refuted`);
  an entry `eps` of the section is ignored in training and used by the exported model (`c83_eps_refuted`, `c83_ignored`).
* instantiate has a case for names without a dot, which can never give an object (`c84_bare_refuted`); classes inside classes are not found
  (`c84_nested_refuted`); a configuration file, although read with yaml.safe_load, can call any importable callable (`c84_networks_only_refuted`).
* The entry ref_mic of a training configuration reaches the separator but not the data, whose targets stay at the first channel (`c85_ref_mic_refuted`);
  with shuffle_ref the targets can be at a microphone that the separator does not get (`c85_shuffle_ref_refuted`).
* make_batch_array of read_samples.py cuts the second axis of x[None]: with ref_mic=None that is the axis of channels, so samples of
  different lengths cannot be read and short ones lose channels (`c79_shortest_refuted`, `c79_batch_refs`); mixtures and references are
  cut separately (`c79_one_length_refuted`); the mixture file is not the exact sum of its reference files (`c79_exact_refuted`); save_files
  drops signals without a name (`c79_all_saved_refuted`); silent signals are divided by zero (`c79_silent`).
* `--limit n` of examples/test.py ("maximum number of samples to process") processes n + 1 (`c68_limit_refuted`); load_model looks for the epoch in
  the whole path, so a directory name can select another epoch (`c68_checkpoint_refuted`); the validation loss is a mean of batch means, not of
  samples (`c68_validation_refuted`); n_chan outside 2..6 gives a NameError (`c68_channels`).
* export_model drops n_src and the algorithm; an exported beamformer cannot be loaded back without `algo=` (`c57_beamformer_refuted`).

## 5. Assumptions per theorem

No axiom is declared in this development. The table is generated from the output of `Print Assumptions` by `tools/assumptions.py`.

<!-- assumptions: begin -->
470 property theorems. For all but the following `Print Assumptions` reports "Closed under the global context".

* `c19_ln`, `c38_power`, `c41_divergence_ln`
  rely on `ClassicalDedekindReals.sig_forall_dec`, `ClassicalDedekindReals.sig_not_dec`, `Classical_Prop.classic`, `Epsilon.epsilon_statement`, `FunctionalExtensionality.functional_extensionality_dep`.
* `c58_glu`, `c58_blstm`, `c58_mvdr`, `c58_mvdr_any_offset_refuted`, `c58_simple`, `c58_simple_offset_refuted`, `c64_scale`, `c64_quiet_refuted`
  rely on `ClassicalDedekindReals.sig_forall_dec`, `ClassicalDedekindReals.sig_not_dec`, `Classical_Prop.classic`, `FunctionalExtensionality.functional_extensionality_dep`.
* `c45_hann`, `c45_default`
  rely on `ClassicalDedekindReals.sig_forall_dec`, `ClassicalDedekindReals.sig_not_dec`, `Epsilon.epsilon_statement`, `FunctionalExtensionality.functional_extensionality_dep`.
* `c65_nmf`
  rely on `FunctionalExtensionality.functional_extensionality_dep`.
<!-- assumptions: end -->

All of these are axioms of Coq's standard library (Reals, functional extensionality, classical logic, epsilon).

## 6. Readings of external code and oracles

Hypotheses in theorems (universally quantified, never axioms):

* the Hermitian eigensolver: any function returning an orthonormal eigenbasis with ascending eigenvalues (one exists: `EigExists.v`);
* `argsort`: any function returning a permutation that sorts (ties in any order);
* `torch.pow` with real exponent: any `pw` with the facts stated in the theorem, at most `pow_like` (met by `powC` of `RPow.v`);
* source models: any state transformer of any state type; where needed, weights real or non-negative; shape tier: any model that keeps
  the shape of its input. Networks inside mask models: any function;
* random draws of the NMF model: any sequence in [0, 1];
* logarithm: `log_like`, `log_mul` (met by `lnC` of `RLog.v`); roots of unity: `unit_roots` (met by `expi` of `StftReal.v`);
* rounding of numpy's percentile index arithmetic: any `fl` meeting `rounding` (C54);
* the Python import system and the effect of calling an object: any functions (C84);
* file contents and random draws of the training data: any `load`, any `fair` draws (C78, C85).

Semantics written into the models:

* `torch.linalg.solve` fails exactly on singular systems; for a right-hand side with one dimension less than the matrix (or of matching
  batch shape) it solves vector systems (TorchShape.v);
* torch broadcasting, einsum, indexing, as_strided, stft, istft, rfft, irfft by their documented formulas;
* `torch.nn.Module` attribute protocol (registered submodules, properties without setters raise AttributeError) (SepModel.v);
* `get_window`, `torch.from_numpy`, `.to(dtype)` return a window (SepModel.v);
* `urlretrieve` either completes, or raises leaving any prefix of the file (LoadModel.v); `yaml.load` and `torch.load` read back what was
  written; `load_state_dict` is strict: it raises unless the key sets agree;
* `__import__` with a fromlist returns the module of the full name and imports a missing attribute of a package as a submodule,
  ignoring only ModuleNotFoundError (InstModel.v);
* `clip_grad_norm_` scales by max/norm when that is below 1 and returns the norm before (ClipModel.v).
