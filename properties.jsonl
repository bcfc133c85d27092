{"id": "C01", "title": "Per-call parameters override for that call only", "statement": "For every separator class, calling the object with a non-None parameter uses that value for this call, calling it with None (or omitting it) uses the value given to the constructor, values are never swapped between parameters, and no sequence of earlier calls with any overrides changes what a later call uses.", "quantifier": "all classes (T_ISS, AuxIVA_IP, AuxIVA_IP2, FIVE, WPE, MVDR, MWF, GEV), all constructor arguments, all finite histories of calls with arbitrary overrides", "why_tests_cant": "a history of calls is unbounded and every combination of None/non-None values has to be covered", "anchors": ["torchiva/base.py: DRBSSBase._set_params, BFBase._set_params", "torchiva/t_iss.py: T_ISS.forward", "torchiva/wpe.py: WPE.forward"]}
{"id": "C02", "title": "Documented default for the number of sources", "statement": "With n_src=None, T_ISS behaves as with n_src equal to the number of input channels and returns that many sources; T_ISS and AuxIVA_IP reject n_src larger than the number of channels with ValueError and T_ISS rejects negative values. AuxIVA_IP documents the same default but with n_src=None (constructor and call) it raises for every input (TypeError on inputs with at least three dimensions).", "quantifier": "all input shapes and all n_src", "why_tests_cant": "ranges over all channel counts and n_src values", "anchors": ["torchiva/t_iss.py: T_ISS.forward", "torchiva/auxiva_ip.py: AuxIVA_IP.forward"]}
{"id": "C03", "title": "Shape contract of the BSS algorithms", "statement": "For every batch shape (any number of leading dimensions) and every source model that keeps the shape of its input, T_ISS and AuxIVA_IP return batch + (n_src, n_freq, n_frames), AuxIVA_IP2 (two channels) and WPE (without source model, n_taps >= 1) return the shape of their input, and LaplaceModel, GaussModel and (on non-empty spectrograms) NMFModel are such source models. Exceptions: for a microphone of the input, T_ISS with n_iter > 0 raises exactly when the input is batched, n_src < n_chan and the microphone index is >= n_src; for n_src < n_chan and such a microphone AuxIVA_IP returns a tensor of shape batch + (n_freq,) + batch + (n_src, n_freq, n_frames); negative microphone indices count from the last source and raise IndexError below -n_src, as do indices >= n_chan; WPE with n_taps=0, and with any shape-preserving source model on two or more channels, raises; AuxIVA_IP2 raises AssertionError unless n_chan = 2 and the index is 0 or 1.", "quantifier": "all batch shapes, n_chan, n_freq, n_frames, n_src, n_taps, n_delay, n_iter, reference microphones", "why_tests_cant": "batch ranks and sizes are unbounded", "anchors": ["torchiva/t_iss.py: T_ISS.forward, projection_back_weights", "torchiva/auxiva_ip.py: AuxIVA_IP.forward, projection_back_from_demixing_matrix", "torchiva/auxiva_ip2.py: AuxIVA_IP2.forward", "torchiva/wpe.py: WPE.forward, wpe_one_iter", "torchiva/models/classic.py", "torchiva/linalg.py"]}
{"id": "C04", "title": "Shape contract of FIVE", "statement": "FIVE returns batch + (1, n_freq, n_frames) for every batch shape when proj_back_mic is a microphone index (n_power_iter None or at least 2); with n_power_iter 0 or 1 and n_iter > 0 it raises UnboundLocalError; with proj_back_mic=None (documented as 'projection back is not applied') and n_iter > 0 it never returns that shape: whatever it returns has at least two more dimensions.", "quantifier": "all batch shapes and sizes", "why_tests_cant": "batch ranks and sizes are unbounded", "anchors": ["torchiva/five.py: FIVE.forward"]}
{"id": "C05", "title": "Shape contract of the beamformers", "statement": "MVDR (2 masks with type rtf or scm, or 3 masks; eigendecomposition or power iterations), MWF (time-invariant with at least 2 masks, time-varying with 4) and GEV map an input of shape batch + (n_chan, n_freq, n_frames) and masks of shape batch + (n_src, n_masks, n_freq, n_frames) to batch + (n_src, n_freq, n_frames) for every batch shape; other numbers of masks raise (UnboundLocalError, AssertionError, IndexError), and reference microphones out of range raise IndexError.", "quantifier": "all batch shapes and sizes", "why_tests_cant": "batch ranks and sizes are unbounded", "anchors": ["torchiva/beamformer.py"]}
{"id": "C06", "title": "Delay line content", "statement": "The delayed-frames tensor used by T_ISS and WPE holds at (tap t, frame n) exactly the input frame n - n_delay - n_taps + t, or zero when that index is negative; the strided Hankel view it is built from reads only cells that belong to the tensor and exposes x[i+j] at (i, j) for every (possibly non-contiguous) strided tensor.", "quantifier": "all n_taps, n_delay, frame counts, strides and storage offsets", "why_tests_cant": "memory addressing must be right for every size and stride", "anchors": ["torchiva/linalg.py: hankel_view", "torchiva/t_iss.py: T_ISS.forward", "torchiva/wpe.py: WPE.forward"]}
{"id": "C07", "title": "Dereverberation only uses frames older than the delay", "statement": "Given the filters, the dereverberated output at frame n does not depend on input frames after n, and the subtracted reverberation estimate at frame n does not depend on input frames n - n_delay .. n.", "quantifier": "all inputs, filters, n_taps, n_delay, frames", "why_tests_cant": "universal over signals", "anchors": ["torchiva/wpe.py: derev", "torchiva/t_iss.py: demix_derev"]}
{"id": "C08", "title": "Loaded general solve never fails and is the regularised least-squares solution", "statement": "solve_loaded_general(A, b) succeeds for every matrix A (zero, singular, rectangular) and right-hand side b when load > 0, and returns the unique minimiser of the row-weighted residual energy plus load times the squared norm; the row weights are 1/max(row norm, eps).", "quantifier": "all matrices of all sizes, all right-hand sides, all positive load and eps", "why_tests_cant": "singular matrices form a measure-zero set that random tests never hit", "anchors": ["torchiva/linalg.py: solve_loaded_general"]}
{"id": "C09", "title": "Loaded solve never fails on covariance matrices", "statement": "solve_loaded and inv_loaded succeed for every Hermitian positive semidefinite A (any rank, including 0) when load > 0; without that guard they can hit a singular system.", "quantifier": "all PSD matrices of all sizes", "why_tests_cant": "rank-deficient matrices form a measure-zero set", "anchors": ["torchiva/linalg.py: solve_loaded, inv_loaded"]}
{"id": "C10", "title": "2x2 inverse", "statement": "inv_2x2(W) is the two-sided inverse of W whenever |det W| >= eps, and for every W (also singular) it returns adj(W)/d with |d| >= eps.", "quantifier": "all complex 2x2 matrices", "why_tests_cant": "universal over matrices", "anchors": ["torchiva/linalg.py: inv_2x2"]}
{"id": "C11", "title": "2x2 generalized Hermitian eigendecomposition", "statement": "eigh_2x2(A, B) with A Hermitian, B Hermitian positive definite and no clamp active returns real eigenvalues in ascending order with A v = lambda B v for both columns, and the columns have unit norm unless they vanish; a column vanishes exactly when A's and B's first columns make it so (e.g. for diagonal A and B one column is always zero).", "quantifier": "all Hermitian pairs", "why_tests_cant": "degenerate and complex cases are measure zero", "anchors": ["torchiva/linalg.py: eigh_2x2"]}
{"id": "C12", "title": "2x2 ordinary Hermitian eigendecomposition", "statement": "eigh_2x2(A) without B returns eigenvectors of A for real symmetric A; for complex Hermitian A with a non-real off-diagonal entry it returns the complex conjugates of the eigenvectors, which are not eigenvectors of A.", "quantifier": "all Hermitian 2x2 matrices", "why_tests_cant": "the existing test compares v1.T @ v2, which hides the conjugation", "anchors": ["torchiva/linalg.py: eigh_2x2", "tests/test_linalg.py: test_eigh_2x2"]}
{"id": "C13", "title": "Generalized Hermitian eigendecomposition, 3 or more channels", "statement": "If the underlying Hermitian eigensolver is correct, eigh(A, B) with B positive definite (eigenvalues >= 1e-5) returns ascending eigenvalues and a basis of vectors with A v = lambda B v.", "quantifier": "all sizes, all Hermitian A and positive definite B", "why_tests_cant": "universal over matrices", "anchors": ["torchiva/linalg.py: eigh, eigh_wrapper"]}
{"id": "C14", "title": "Elementwise helpers agree with complex arithmetic", "statement": "multiply (mixed real/complex), bmm (real/imaginary split), mag_sq, mag, hermite and divide compute complex product, complex matrix product, |z|^2, |z|, conjugate transpose and num/denom for denom >= eps; divide never divides by anything smaller than eps.", "quantifier": "all complex operands, all matrix sizes", "why_tests_cant": "universal over operands", "anchors": ["torchiva/linalg.py: multiply, bmm, mag_sq, mag, hermite, divide"]}
{"id": "C15", "title": "T-ISS output is the filter output", "statement": "After any number of T-ISS iterations with any source model, the running source estimates equal W X - H X_delayed for the demixing matrix W and dereverberation filter H maintained alongside (before projection back), in the determined and overdetermined case.", "quantifier": "all inputs, sizes, iteration counts, (stateful) source models, eps", "why_tests_cant": "needs an invariant over an unbounded loop", "anchors": ["torchiva/t_iss.py: iss_updates_with_H, over_iss_t_one_iter, demix_derev"]}
{"id": "C16", "title": "Demixing-matrix checkpointing does not change the result", "statement": "T_ISS returns the same separated signals and the same W and J with use_dmc=True as with use_dmc=False.", "quantifier": "all inputs, sizes, iteration counts, (stateful) source models, reference microphones", "why_tests_cant": "the existing test compares two runs on one file to a tolerance", "anchors": ["torchiva/t_iss.py: over_iss_t_one_iter_dmc, T_ISS.forward"]}
{"id": "C17", "title": "The T-ISS demixing matrix never becomes singular", "statement": "In the determined case W is invertible at every frequency after every number of iterations, for every input (silence included) and every real-valued source model, because each source update multiplies det W by 1/sqrt(max(variance, eps)).", "quantifier": "all inputs, models, iteration counts", "why_tests_cant": "invariant over an unbounded loop; singular matrices are measure zero", "anchors": ["torchiva/t_iss.py: iss_block_update_type_1, iss_updates_with_H"]}
{"id": "C18", "title": "ISS updates are optimal and decorrelate", "statement": "Each ISS update of the other sources, of the background and of the taps picks the coefficient that minimises the weighted energy of every source estimate, after which the weighted cross-correlation with the steering signal is zero; a source's own update makes its weighted variance exactly 1 (whenever the denominators are not clamped).", "quantifier": "all signals, weights >= 0, sources, taps", "why_tests_cant": "universal over signals", "anchors": ["torchiva/t_iss.py: iss_block_update_type_1/2/3"]}
{"id": "C19", "title": "T-ISS monotonically decreases the surrogate cost", "statement": "One T-ISS sweep with non-negative weights and 0 < eps <= 1 never increases sum_k weighted energy - 2 log|det| of the complete demixing matrix, clamps active or not (for eps > 1 it can). With the spherical Laplace model one iteration never increases the IVA cost measured at the scale before the iteration, and the cost minimised over source scales does not increase over any number of iterations while no clamp is active.", "quantifier": "all signals, sizes, weights", "why_tests_cant": "optimisation guarantee over all inputs", "anchors": ["torchiva/t_iss.py: iss_updates_with_H, over_iss_t_one_iter", "torchiva/models/classic.py: LaplaceModel"]}
{"id": "C20", "title": "T-ISS background is uncorrelated with the sources", "statement": "In the overdetermined case the background filter J is the regularised least-squares solution that decorrelates the background from the current source estimates. The code satisfies this when no dereverberation filter is active; with n_taps > 0 the reverberation term enters with the wrong sign and the property fails.", "quantifier": "all inputs, W, H", "why_tests_cant": "needs the exact algebra of the correlation, a scalar metric test does not see it", "anchors": ["torchiva/t_iss.py: background_update"]}
{"id": "C21", "title": "T-ISS projection back", "statement": "T_ISS with a reference microphone m and n_iter > 0 returns each source scaled, per frequency, by the regularised solution of W^T a = e_m; the solve never fails, and when the system is solved exactly the outputs sum to microphone m (minus a filtered version of the background when there are more microphones than sources, and minus the scaled reverberation estimate when there are taps); the residual of the regularised solution is bounded by 1e-5 times the squared norm of the exact one.", "quantifier": "all inputs and reference microphones", "why_tests_cant": "universal over inputs", "anchors": ["torchiva/t_iss.py: projection_back_weights, T_ISS.forward"]}
{"id": "C22", "title": "Zero iterations", "statement": "With n_iter=0, T_ISS returns the first n_src input channels unchanged (whatever the reference microphone), WPE returns the input unchanged, and AuxIVA_IP2 returns the input unchanged.", "quantifier": "all inputs, taps, delays", "why_tests_cant": "universal over inputs", "anchors": ["torchiva/t_iss.py: T_ISS.forward", "torchiva/wpe.py: WPE.forward", "torchiva/auxiva_ip2.py: AuxIVA_IP2.forward"]}
{"id": "C23", "title": "AuxIVA-IP normalises and demixes consistently", "statement": "AuxIVA_IP never hits a singular system when eps > 0, its output is the current demixing matrix applied to the input times the projection-back scale, and every updated filter satisfies w^H V w = 1 when the scale is not clamped.", "quantifier": "all inputs, sizes, models, iteration counts", "why_tests_cant": "invariant over an unbounded loop", "anchors": ["torchiva/auxiva_ip.py: AuxIVA_IP.forward"]}
{"id": "C24", "title": "IP2 update solves the two-channel problem", "statement": "One IP2 update yields filters w1, w2 with w1^H V1 w1 = w2^H V2 w2 = 1 and w1^H V1 w2 = w1^H V2 w2 = 0 when no clamp is active and the eigenvectors do not vanish.", "quantifier": "all weighted covariances", "why_tests_cant": "universal over inputs", "anchors": ["torchiva/auxiva_ip2.py: spatial_model_update_ip2"]}
{"id": "C25", "title": "IP2 outputs sum to the reference microphone", "statement": "AuxIVA_IP2 with a reference microphone m and n_iter > 0 returns two signals that sum exactly to microphone m at every frequency where |det W| >= 1e-6.", "quantifier": "all inputs and models", "why_tests_cant": "universal over inputs", "anchors": ["torchiva/auxiva_ip2.py: AuxIVA_IP2.forward"]}
{"id": "C26", "title": "FIVE whitening", "statement": "With a correct eigensolver and input covariance eigenvalues >= 1e-5, FIVE's whitened signals have identity covariance. With two channels FIVE uses the closed-form 2x2 solver: for complex cross covariances the whitened signals never have identity covariance, and for two uncorrelated channels of which the first is stronger the output is silent.", "quantifier": "all inputs", "why_tests_cant": "depends on exact algebra of complex inputs", "anchors": ["torchiva/five.py: FIVE.forward", "torchiva/linalg.py: eigh, eigh_2x2"]}
{"id": "C27", "title": "FIVE output scale", "statement": "After at least one iteration (eigendecomposition or power method) FIVE's output at each frequency is a filtered version of the input whose scale is optimal at the reference microphone: the error to the reference microphone is uncorrelated with the output. With n_iter=0 the scale is conjugated: optimal only when the scale is real, and there is an input for which it is wrong at some microphone for every eigensolver.", "quantifier": "all inputs, models, n_iter", "why_tests_cant": "universal over inputs", "anchors": ["torchiva/five.py: FIVE.forward"]}
{"id": "C28", "title": "FIVE zeroes the DC bin and is the identity on one channel", "statement": "FIVE's output is zero at frequency 0 for every input; with a single input channel and at least one iteration FIVE returns that channel unchanged at all other frequencies, so it cannot separate anything; n_power_iter of 0 or 1 always raises UnboundLocalError.", "quantifier": "all inputs, models, iteration counts", "why_tests_cant": "universal over inputs", "anchors": ["torchiva/five.py: FIVE.forward"]}
{"id": "C29", "title": "MVDR is distortionless and minimises noise power", "statement": "compute_mvdr_bf(R, d) with R PSD succeeds and returns w with w^H d = 1 whenever d^H (R + load I)^-1 d >= eps, and no other distortionless filter has a smaller loaded noise power.", "quantifier": "all PSD matrices, all steering vectors, all sizes", "why_tests_cant": "optimality over all filters", "anchors": ["torchiva/beamformer.py: compute_mvdr_bf"]}
{"id": "C30", "title": "Relative transfer function is normalised", "statement": "compute_mvdr_rtf_eigh returns a vector that equals 1 at the reference microphone whenever the unnormalised entry is non-zero, and it recovers the true relative transfer function for a rank-1 target covariance.", "quantifier": "all covariances and sizes", "why_tests_cant": "universal over covariances", "anchors": ["torchiva/beamformer.py: compute_mvdr_rtf_eigh"]}
{"id": "C31", "title": "SCM MVDR equals the RTF MVDR for a rank-1 target", "statement": "compute_mvdr_bf2 with target covariance s d d^H and invertible Hermitian noise covariance returns the distortionless MVDR filter for d/d_ref; unlike the other variant it fails on a singular noise covariance.", "quantifier": "all sizes, d, noise covariances", "why_tests_cant": "universal over covariances", "anchors": ["torchiva/beamformer.py: compute_mvdr_bf2"]}
{"id": "C32", "title": "MWF is the (loaded) minimum mean square error filter", "statement": "compute_mwf_bf succeeds for PSD covariances and returns, for each reference microphone, the unique minimiser of the loaded mean square error; with a reference microphone the eps argument has no effect on the result.", "quantifier": "all PSD covariances and sizes", "why_tests_cant": "optimality over all filters", "anchors": ["torchiva/beamformer.py: compute_mwf_bf"]}
{"id": "C33", "title": "GEV is distortionless towards the dominant target direction and maximises SNR", "statement": "compute_gev_bf returns the generalized eigenvector with the largest eigenvalue, scaled so that the associated steering vector passes with the gain of the reference microphone; no filter has a larger target-to-noise power ratio.", "quantifier": "all covariances, sizes >= 3 (with a correct eigensolver)", "why_tests_cant": "optimality over all filters", "anchors": ["torchiva/beamformer.py: compute_gev_bf"]}
{"id": "C34", "title": "WPE never increases the weighted prediction error", "statement": "One WPE iteration succeeds for every input and every non-negative weights when n_taps > 0 and eps > 0, and the new estimate has weighted energy at most that of the input at every channel and frequency (it minimises energy plus load).", "quantifier": "all inputs, weights, n_taps > 0, n_delay", "why_tests_cant": "optimality over all filters", "anchors": ["torchiva/wpe.py: wpe_one_iter, derev"]}
{"id": "C35", "title": "WPE default weights", "statement": "The default WPE weights are positive, sum to one over the frames and need no non-silent input; WPE with n_taps=0 and n_iter > 0 raises for every input.", "quantifier": "all inputs", "why_tests_cant": "universal over inputs", "anchors": ["torchiva/wpe.py: wpe_default_weights, wpe_one_iter"]}
{"id": "C36", "title": "Minimum distortion scaling is optimal", "statement": "minimum_distortion with p in {None, 2} returns, per channel and frequency, the multiple of Y closest to the reference in squared error (whenever the mean power of Y is at least 1e-7), is invariant to rescaling Y, and idempotent.", "quantifier": "all signals", "why_tests_cant": "optimality over all complex scales", "anchors": ["torchiva/scaling.py: minimum_distortion_l2"]}
{"id": "C37", "title": "Phase-only scaling is optimal", "statement": "minimum_distortion_l2_phase multiplies every channel and frequency by a unit-modulus number that minimises the squared error to the reference among all unit-modulus numbers (whenever the cross-correlation magnitude is at least 1e-5).", "quantifier": "all signals", "why_tests_cant": "optimality over all phases", "anchors": ["torchiva/scaling.py: minimum_distortion_l2_phase"]}
{"id": "C38", "title": "Iterative minimum distortion: dispatch, termination and descent", "statement": "minimum_distortion performs at most max_iter updates, each of which minimises the current weighted error; for every exponent 0 < p < 2 the (smoothed) l_p error never increases from one update to the next while the weighted power of the signal reaches 1e-5, so that the result is no further from the reference than the input; because the stopping rule uses one norm over the whole batch, an element's result can depend on the other elements of the batch; with two different exponents p < q < 2 an update can increase the mixed error it is to reduce.", "quantifier": "all signals, p, tolerances, max_iter", "why_tests_cant": "loop with data-dependent exit", "anchors": ["torchiva/scaling.py: minimum_distortion, lp_norm, lpq_norm"]}
{"id": "C39", "title": "Classic source models return usable weights", "statement": "LaplaceModel and GaussModel return weights in (0, 1/eps] for every input including silence, equal across frequencies, equal to 1/(2 ||x||) resp. 1/mean power when not clamped. A silent frame gets 1/eps, and 10^5 when no eps is given.", "quantifier": "all inputs, eps > 0", "why_tests_cant": "universal over inputs", "anchors": ["torchiva/models/classic.py: LaplaceModel, GaussModel"]}
{"id": "C40", "title": "NMF model stays positive and finite", "statement": "For every initial random draw and every sequence of calls, NMFModel's factors and its output stay within [eps, inf) and (0, 1/eps]; no update divides by zero. After reset() nothing is left of earlier calls except the state of the random generator; without it each call continues from the factors of the previous one.", "quantifier": "all call histories, inputs, random draws", "why_tests_cant": "unbounded history", "anchors": ["torchiva/models/classic.py: NMFModel"]}
{"id": "C41", "title": "NMF updates decrease the Itakura-Saito divergence", "statement": "When no clamp is active, neither the basis update nor the activation update increases the divergence sum P/R + log R.", "quantifier": "all non-negative power spectra, all positive factors, all ranks", "why_tests_cant": "optimisation guarantee over all inputs", "anchors": ["torchiva/models/classic.py: NMFModel.forward"]}
{"id": "C42", "title": "Source model state isolation", "statement": "T_ISS, AuxIVA_IP, AuxIVA_IP2 and FIVE reset the source model at every call, so the result does not depend on earlier signals; consequently BSSSeparator's reset=False has no effect with these algorithms. WPE does not reset.", "quantifier": "all call histories", "why_tests_cant": "unbounded history", "anchors": ["torchiva/base.py: DRBSSBase._reset", "torchiva/nn.py: BSSSeparator.forward", "torchiva/wpe.py"]}
{"id": "C43", "title": "fftconvolve is linear convolution", "statement": "fftconvolve(x1, x2, mode) equals the direct linear convolution cropped as 'full', 'same' (centred, length of x1) or 'valid'; other modes raise.", "quantifier": "all real signals of all positive lengths", "why_tests_cant": "all lengths including odd/even FFT sizes", "anchors": ["torchiva/fftconvolve.py: fftconvolve"]}
{"id": "C44", "title": "Most energetic selection", "statement": "select_most_energetic returns min(num, n_channels) distinct input channels, unmodified, in order of non-increasing power, and no unselected channel has more power than a selected one; a negative num drops |num| channels instead of failing.", "quantifier": "all signals, all num, every valid argsort tie-break", "why_tests_cant": "ties and sizes", "anchors": ["torchiva/utils.py: select_most_energetic"]}
{"id": "C45", "title": "STFT round trip and output length", "statement": "BSSSeparator returns exactly as many samples as its input for every input length and separator. With a separator that does nothing, the STFT/inverse STFT round trip reproduces the first hop*floor(n/hop) samples (even n_fft; hop*floor((n-1)/hop)+1 for odd n_fft) and zeroes the rest, for every real window that is not negligible on hop samples around its centre, in particular the default Hann window with any hop up to n_fft/2. It raises RuntimeError for inputs not longer than n_fft//2, shorter than one hop, for the default hop with n_fft < 4 and for hop > n_fft.", "quantifier": "all lengths, FFT sizes, hops, windows with non-vanishing overlap", "why_tests_cant": "all lengths", "anchors": ["torchiva/nn.py: BSSSeparator.forward", "torchiva/stft.py: STFT"]}
{"id": "C46", "title": "STFT constructor", "statement": "STFT accepts window names and None, and raises for every array or tensor window (documented as supported), because it assigns a read-only property.", "quantifier": "all window arguments", "why_tests_cant": "all argument kinds", "anchors": ["torchiva/stft.py: STFT.__init__"]}
{"id": "C47", "title": "dtype conversions", "statement": "dtype_f2cpx and dtype_cpx2f are mutually inverse between float and complex dtypes, idempotent, and raise exactly on all other dtypes.", "quantifier": "all dtypes", "why_tests_cant": "finite domain, proved by case analysis over all dtypes", "anchors": ["torchiva/dtypes.py"]}
{"id": "C48", "title": "Algorithm selection", "statement": "BSSSeparator builds exactly the algorithm named by a SepAlgo member or its string value, raises ValueError for every other string, and forwards its parameters to it unchanged; changing n_iter, n_src or algo on the object afterwards does not affect processing; the warning that FIVE ignores n_src appears only when the enum member is given, not for the string 'five'.", "quantifier": "all algorithm names, all parameter values, all later attribute writes", "why_tests_cant": "all strings and histories", "anchors": ["torchiva/nn.py: BSSSeparator"]}
{"id": "C49", "title": "Model cache", "statement": "load_separator(url) requests only model_weights.ckpt and model_config.yaml below the address (without slashes around it), keeps them in the folder of the cache named after its last component, and downloads each file at most once per model folder name; two URLs with the same last path component share one cache entry, and a download that was interrupted leaves a partial file that every later call uses as if it were complete.", "quantifier": "all URLs, file system states, crash points, call histories", "why_tests_cant": "crash points and histories", "anchors": ["torchiva/loader.py: get_model_from_url"]}
{"id": "C50", "title": "Loader dispatch and configuration override", "statement": "load_separator downloads only for http/https, reads only existing folders, and raises ValueError otherwise; keyword arguments override exactly the configuration entries of the same name and keep all others.", "quantifier": "all paths, configurations, keyword arguments", "why_tests_cant": "all configurations", "anchors": ["torchiva/loader.py: load_separator, load_separator_model"]}
{"id": "C51", "title": "Command line argument handling", "statement": "torchiva.separate rejects src > mic, forces one source for five, rejects ip2 unless mic = 2; the separator only ever sees min(channels, mic, src) channels, so --mic beyond --src has no effect, five runs on one channel, ip2 with one source always fails; --n_iter has no effect for the non-neural models.", "quantifier": "all argument combinations and files", "why_tests_cant": "all argument combinations", "anchors": ["torchiva/separate.py: main, separate_one_file"]}
{"id": "C52", "title": "Command line output files", "statement": "Folder mode writes one output per distinct file name: wav files with equal names in different subfolders overwrite each other; single-file mode with the input's own folder as output overwrites the input.", "quantifier": "all directory contents", "why_tests_cant": "all directory trees", "anchors": ["torchiva/separate.py: main"]}
{"id": "C53", "title": "Interleaved loaders deliver everything exactly once per epoch", "statement": "Iterating InterleavedLoaders until exhaustion yields every batch of every loader exactly once, each loader's batches in order, sum-of-lengths many in total, and the object is then ready for an identical next epoch.", "quantifier": "all numbers and lengths of loaders", "why_tests_cant": "all interleavings", "anchors": ["examples/dataloader.py: InterleavedLoaders"]}
{"id": "C54", "title": "Gradient clipping history", "statement": "After any number of calls AutoClipper's history is the sorted multiset of all gradient norms seen, the threshold is the one of the wanted rank, for 0 <= p <= 100 no call fails, and p=100 takes the largest norm. p=100 still scales a record gradient down slightly, and a NaN norm can turn all later thresholds into NaN. A percentile above 100 ends in IndexError; a negative one silently takes a norm counted from the largest.", "quantifier": "all call histories, gradient norms, percentiles", "why_tests_cant": "unbounded history", "anchors": ["examples/autoclip_module.py: AutoClipper"]}
{"id": "C55", "title": "Training crop", "statement": "compute_interval returns an interval inside the mixture of length min(n_target, n_mix), centred on the overlap of the sources when that fits, containing the overlap if it is not longer. It need not contain any source when the sources do not overlap.", "quantifier": "all lengths and offsets", "why_tests_cant": "all integers", "anchors": ["examples/dataloader.py: compute_interval"]}
{"id": "C56", "title": "Collation", "statement": "collator embeds every signal unmodified at a centred offset and pads with zeros.", "quantifier": "all batches", "why_tests_cant": "all lengths", "anchors": ["examples/dataloader.py: collator"]}
{"id": "C57", "title": "Export and reload of a trained model", "statement": "export_model followed by load_separator reconstructs the separator used in training. As exported, the number of sources and the algorithm are lost (for every IVA algorithm the model comes back as T-ISS with n_src=None, all other parameters equal), a model trained in a beamformer does not load at all, and giving n_src and algo as keyword arguments restores the training configuration.", "quantifier": "all training configurations", "why_tests_cant": "all configurations", "anchors": ["examples/export_model.py", "torchiva/loader.py: load_separator_model", "examples/separation_model.py"]}
{"id": "C58", "title": "Neural mask range", "statement": "GLUMask and BLSTMMask return values in (1e-5, 1) and MaskMVDRSupport values in (eps, 1) for every input, all layers and every offset 0 <= eps < 1; SimpleModel stays in (0, 1) but has no lower bound, its offset being inside the sigmoid, and an offset above one (unchecked) makes every MaskMVDRSupport mask exceed one.", "quantifier": "all inputs and weights", "why_tests_cant": "universal over inputs and weights", "anchors": ["torchiva/models/glu.py", "torchiva/models/blstm.py", "torchiva/models/simple.py"]}
{"id": "C59", "title": "Ensembling averages weights", "statement": "load_ensemble_model loads the arithmetic mean of the state dictionaries of the given epochs into the source model: the mean of every floating point entry, and the mean truncated towards zero of every integer entry (counters). The result has the keys of the first epoch; an epoch with a key that the first lacks is an error. Without epochs it raises UnboundLocalError.", "quantifier": "all state dicts and epoch counts", "why_tests_cant": "all epoch counts", "anchors": ["examples/test.py: load_ensemble_model"]}
{"id": "C60", "title": "Projection back by frame interpolation", "statement": "projection_back(Y, ref) scales every channel and frequency by a constant such that, at the n_chan frames of largest total magnitude, the scaled channels sum to the reference up to 1e-5 times the coefficient; it raises LinAlgError when one of the loaded systems is singular and always raises when there are fewer frames than channels.", "quantifier": "all signals, sizes, argsort tie-breaks", "why_tests_cant": "depends on which frames are selected, ties, and on singular systems at single frequencies; random test signals never hit them", "anchors": ["torchiva/scaling.py:42-78"]}
{"id": "C61", "title": "Filters kept on the object", "statement": "After any history of calls, T_ISS.W and T_ISS.J are the demixing filters of the last call that returned, a call that raises leaves them as they were, T_ISS.H stays None although the class documents it, and AuxIVA_IP2.W and AuxIVA_IP2.A stay None.", "quantifier": "all constructor arguments, all finite call histories including failing calls", "why_tests_cant": "histories of calls are unbounded and mix failing and returning calls", "anchors": ["torchiva/t_iss.py: T_ISS.__init__, T_ISS.forward", "torchiva/auxiva_ip2.py: AuxIVA_IP2.__init__, AuxIVA_IP2.forward", "torchiva/base.py: DRBSSBase._set_params"]}
{"id": "C62", "title": "FIVE extracts the optimal filter at each iteration", "statement": "With the eigendecomposition, each FIVE iteration returns, at every frequency above DC, a filtered version of the input that minimises, over all linear filters, the energy weighted by the source model's weights of the previous output relative to the plain energy.", "quantifier": "all inputs with covariance eigenvalues >= 1e-5, real weights, all models, all iteration counts", "why_tests_cant": "optimality over a continuum of filters", "anchors": ["torchiva/five.py: FIVE.forward, smallest_eigenvector_eigh_cpu"]}
{"id": "C63", "title": "FIVE power method on dependent channels", "statement": "With n_power_iter >= 2 and three or more channels that are linearly dependent at every frequency above DC (for example two identical microphones), FIVE returns NaN: the start vector is normalised along the frequency axis and one of its entries is zero at all frequencies.", "quantifier": "all such inputs, all non-negative source model weights, all n_iter >= 1", "why_tests_cant": "holds for exact arithmetic and every dependent input; rounding hides it in some runs", "anchors": ["torchiva/five.py:32-33, 53-73"]}
{"id": "C64", "title": "GLU mask does not depend on the input level", "statement": "GLUMask returns the same mask when every example of the batch is multiplied by its own factor (any non-zero complex number with mag_spec, a positive real number otherwise), as long as the mean power stays at 1e-5 or above; below that the mask does depend on the level.", "quantifier": "all inputs, networks, batch and spectrogram sizes, factors", "why_tests_cant": "universal over real-valued inputs, factors and weights", "anchors": ["torchiva/models/glu.py", "torchiva/linalg.py"]}
{"id": "C65", "title": "Microphone phase and polarity", "statement": "Changing the phases of the microphones (per frequency, by any numbers of modulus one; reversing the polarity of a microphone is the factor -1) only turns the output by the phase of the reference microphone: T_ISS, AuxIVA_IP, AuxIVA_IP2, MWF and MVDR (power iterations) with projection back or reference ref return the previous output times the phase of microphone ref, WPE turns every channel by its own phase, without projection back source s turns with microphone s (microphone 1 for AuxIVA_IP2). Failures are the same. AuxIVA_IP2 loses this at frequencies where the determinant of its demixing matrix is below 1e-6.", "quantifier": "all inputs, sizes, phases, iteration counts and source or mask models that only look at magnitudes (the classic models do)", "why_tests_cant": "universal over a continuum of phases and inputs, and over models", "anchors": ["torchiva/t_iss.py", "torchiva/auxiva_ip.py", "torchiva/auxiva_ip2.py", "torchiva/wpe.py", "torchiva/beamformer.py", "torchiva/linalg.py: inv_2x2"]}
{"id": "C66", "title": "Level of the input", "statement": "Multiplying the input by a number a multiplies the output of WPE (default weights), MWF and MVDR by a, when the masks do not change: always for MVDR with covariance matrices, and for the others when the absolute floors are inactive before and after (some entry of the loaded covariance has modulus at least 1, the MVDR denominator d^H (R + l)^-1 d is at least eps, every WPE frame has mean power at least eps). Without these bounds it is false: one microphone called entirely target comes out of MWF multiplied by E/(E + 1e-6) when its energy E over the frames is at most 1, and out of MVDR (mvdr_type rtf) divided by eps (1 + eps) E when that exceeds 1, so louder recordings come out quieter.", "quantifier": "all inputs, sizes, masks, factors a, iteration counts", "why_tests_cant": "universal over a continuum of inputs and factors, and thresholds that a test signal at one level does not meet", "anchors": ["torchiva/beamformer.py", "torchiva/wpe.py", "torchiva/linalg.py: solve_loaded"]}
{"id": "C67", "title": "Order of the microphones", "statement": "Connecting the microphones in another order changes neither the output of MWF nor that of MVDR with covariance matrices, as long as the same physical microphone is the reference, and only reorders the channels returned by WPE. The steering vector that MVDR estimates by power iterations does depend on the order, because the iterations start from the first microphone.", "quantifier": "all inputs, sizes, permutations, masks, iteration counts, and for WPE all models that do not depend on the order (the default weights do not)", "why_tests_cant": "universal over permutations and real-valued inputs; floating-point tests compare up to a tolerance", "anchors": ["torchiva/beamformer.py", "torchiva/wpe.py", "torchiva/linalg.py: solve_loaded"]}
{"id": "C68", "title": "Evaluation script and validation figures", "statement": "The figures in the summary of examples/test.py are means over the mixtures evaluated of the means over their sources; every source of every evaluated mixture gets exactly one line and one wav file, holding the channel the permutation assigns to it, and no file is overwritten when the mixtures have different names; the wav samples stay within 16 bits and reach 95 % of the range. The checkpoint loaded is one of the epoch asked for when the directory path has no '='. The reported validation loss is the negative of the reported CI-SDR and the mean over the samples when all batches have equal size. False in general: --limit n evaluates n + 1 mixtures, a '=' in the directory may select another epoch, and with a smaller last batch the validation loss is not the mean over the samples.", "quantifier": "all datasets, names, permutations, metrics, limits, signals, directory listings, batch sizes", "why_tests_cant": "universal over lists and strings of any length; the script itself is only run by hand on a dataset that is not shipped", "anchors": ["examples/test.py:89-139", "examples/test.py:257-276", "examples/test.py:415-545", "examples/separation_model.py:154-179"]}
{"id": "C69", "title": "Batches", "statement": "WPE and the beamformers MVDR, MWF and GEV, called on a tensor with any batch dimensions, give for every element of the batch exactly the result of calling them on that element alone, with the same shape, and raise an exception only if some element alone raises it. Consequently what is proved about one signal holds for every element of a batch. Elements do share failures: with mvdr_type \"scm\" one silent frequency of one element makes the call fail for all of them, so an element that is fine alone may be lost in a batch.", "quantifier": "all batch shapes with at least one element, all sizes, signals, iteration counts, taps, delays, reference microphones (negative ones included), and all weight and mask models that act on the elements separately", "why_tests_cant": "universal over batch shapes and real-valued inputs; the einsum strings, reshapes and broadcasts coincide by accident on small or equal sizes", "anchors": ["torchiva/wpe.py:17-168", "torchiva/beamformer.py:27-158", "torchiva/beamformer.py:235-306", "torchiva/beamformer.py:367-418", "torchiva/beamformer.py:468-500", "torchiva/linalg.py:65-88"]}
{"id": "C70", "title": "Batches in separation", "statement": "T_ISS called on a tensor with any batch dimensions gives for every element of the batch exactly the output and demixing matrix of calling it on that element alone, with the same shapes, and for eps > 0 it never raises an exception, whatever the source model does with its state, provided that the source model itself treats the elements separately. The Laplace, Gauss and NMF models do, NMF although it keeps the factors of all sources of all elements in one tensor between the calls. The exception is a reference microphone of number n_src or higher: there projection back works for a single signal and raises RuntimeError for every batch.", "quantifier": "all batch shapes, numbers of sources, microphones, frequencies, frames (at least one), taps, delays, iterations, both update schedules, all reference microphones, signals, eps and source models with state", "why_tests_cant": "universal over batch shapes, sizes, iteration counts, real-valued inputs and source models; tests on one shape cannot tell an einsum string or reshape which mixes elements only for other sizes", "anchors": ["torchiva/t_iss.py:39-302", "torchiva/t_iss.py:430-542", "torchiva/models/classic.py:33-155", "torchiva/linalg.py:91-107"]}
{"id": "C71", "title": "Batches in AuxIVA_IP", "statement": "AuxIVA_IP called on a tensor with any batch dimensions gives for every element of the batch exactly the output of calling it on that element alone, with shape (batch, n_src, n_freq, n_frames), and for eps > 0 it raises no exception, for every source model that treats the elements separately (the NMF model with its state included), with any number of microphones at or above n_src. The exceptions are n_src=None, which raises TypeError, and a reference microphone of number n_src or higher: there the result has additional axes (frequencies and the batch once more), even for a single signal, and every slice along them holds the right signals.", "quantifier": "all batch shapes, numbers of sources, microphones, frequencies, frames and iterations, all reference microphones, signals, eps and source models with state", "why_tests_cant": "universal over batch shapes, sizes, iteration counts, real-valued inputs and source models; an einsum string, concatenation or broadcast that mixes elements may do so only for other sizes", "anchors": ["torchiva/auxiva_ip.py:38-105", "torchiva/auxiva_ip.py:202-306", "torchiva/linalg.py:91-107", "torchiva/models/classic.py:33-155"]}
{"id": "C72", "title": "Batches in AuxIVA_IP2 and in the 2x2 linear algebra", "statement": "AuxIVA_IP2 called on a two-channel tensor with any batch dimensions succeeds and gives for every element of the batch exactly the output of calling it on that element alone, for every source model that treats the elements separately (the NMF model with its state included). It rejects with an AssertionError every other number of channels and every reference microphone outside {0, 1}, negative ones included, and with a ValueError tensors of fewer than three axes. eigh (plain and generalised, any size), eigh_2x2 and inv_2x2, called on a batch of matrices, give for every matrix the result for that matrix.", "quantifier": "all batch shapes, numbers of frequencies, frames and iterations, both reference microphones or none, signals, eps and source models with state; all matrix sizes and eigendecomposition routines for single matrices", "why_tests_cant": "universal over batch shapes, sizes, iteration counts, real-valued inputs and source models; an einsum string, slice or broadcast that mixes elements may do so only for other sizes", "anchors": ["torchiva/auxiva_ip2.py:29-91", "torchiva/auxiva_ip2.py:151-213", "torchiva/linalg.py:119-141", "torchiva/linalg.py:152-312"]}
{"id": "C73", "title": "Batches in FIVE", "statement": "FIVE called on a tensor with any non-empty batch dimensions and a reference microphone that exists (negative numbers count from the last microphone) gives for every element of the batch exactly the output of calling it on that element alone, with the eigendecomposition and with the power method, for every source model that treats the elements separately (the NMF model with its state included); with the eigendecomposition it always succeeds, and an exception with the power method is the exception of one of the elements. Fewer than two power iterations raise UnboundLocalError, a microphone that does not exist IndexError, fewer than three axes ValueError.", "quantifier": "all non-empty batch shapes, numbers of frequencies, frames, channels and iterations, reference microphones, signals, source models with state and eigendecomposition routines for single matrices", "why_tests_cant": "universal over batch shapes, sizes, iteration counts, real-valued inputs and source models; an einsum string, slice or broadcast that mixes elements or frequencies may do so only for other sizes", "anchors": ["torchiva/five.py:29-73", "torchiva/five.py:146-248", "torchiva/linalg.py:110-116", "torchiva/models/classic.py:33-155"]}
{"id": "C74", "title": "Batches of recordings through the whole separator", "statement": "Calling the separator (STFT, algorithm, inverse STFT, zero-padding or cutting to the input length) on a batch of recordings of any non-empty batch shape gives for every recording exactly the output, or an exception, of calling it on that recording alone, for T_ISS, AuxIVA_IP, AuxIVA_IP2, FIVE and the MVDR, MWF and GEV beamformers, all source models and masks that treat the elements separately, every n_fft, hop and window. The output always has as many samples as the input and the remaining dimensions of what the algorithm returns; with a separator that does nothing every channel of every recording comes back up to the samples lost at the end. Recordings of at most n_fft // 2 samples raise RuntimeError, inputs with fewer than two axes ValueError.", "quantifier": "all non-empty batch shapes, recording lengths, numbers of channels, window lengths, hops, windows, signals, algorithms with any parameters, source models with state", "why_tests_cant": "universal over batch shapes, lengths and real-valued signals; a reshape that mixes recordings or channels may agree with the right one for the tested sizes only", "anchors": ["torchiva/stft.py:85-123", "torchiva/nn.py:153-178"]}
{"id": "C75", "title": "Scaling functions on batches, with models and with broadcast references", "statement": "minimum_distortion_l2, minimum_distortion_l2_phase and projection_back, called on spectrograms (..., n_chan, n_freq, n_frames) with any batch dimensions, scale every element of the batch exactly as they scale it alone; an exception is that of an element. The minimum distortion functions accept references with missing or unit batch dimensions and use the matching one for each element; projection_back raises RuntimeError for these, and fails (RuntimeError, or LinAlgError) with fewer frames than channels. Iterative minimum distortion makes the same number of steps for all elements, at least 2 and at most max_iter, and each element is what that many steps compute for it alone; with a positive rtol this number depends on the other recordings, so the result for a recording does too. With a weight model and one batch dimension, the weights of the first element at the first frequency are used for all elements and frequencies; without batch dimensions IndexError is raised, with two or more RuntimeError unless sizes happen to fit. The layout (n_freq, n_chan, n_frames) documented for minimum_distortion raises RuntimeError whenever the sizes differ. Exponents outside 0 < p < 2, or 0 < p <= q <= 2, raise AssertionError.", "quantifier": "all batch shapes, numbers of channels, frequencies, frames, spectrograms, references that broadcast, exponents, tolerances, numbers of iterations, weight models with state, orders of tied frames", "why_tests_cant": "universal over shapes, batch sizes and real-valued signals; wrong broadcasts agree with the right ones when sizes coincide or for a single recording", "anchors": ["torchiva/scaling.py:42-78", "torchiva/scaling.py:81-101", "torchiva/scaling.py:104-123", "torchiva/scaling.py:126-211", "torchiva/scaling.py:214-228"]}
{"id": "C76", "title": "AuxIVA_IP decreases the cost without regularisation; with it, and in the printed scale, it can rise", "statement": "With eps = 0, as many sources as microphones, recordings whose channels are linearly independent at every frequency, and the Laplace model with no active floor, an iteration of AuxIVA_IP never fails and never increases the independent vector analysis cost minimised over the scales of the sources; so the cost after any number of iterations is at most that of the microphone signals. Each update of a source gives, among all values of its demixing row, the largest squared determinant per weighted power, and scales the row to weighted power one. With regularisation (any 0 < eps <= 0.1; the default is 1e-5) this is false: an iteration can increase the cost. The cost printed with verbose=True is that cost times the number of frames; it can increase in the first iteration already for one source, since the update scales the rows by covariances that are not divided by the number of frames. With batch dimensions verbose=True raises ValueError.", "quantifier": "all numbers of sources, frequencies, frames and iterations, all recordings with independent channels, all invertible demixing matrices, all regularisations up to 0.1", "why_tests_cant": "a descent property over all complex recordings and states; the increase caused by the default regularisation is far below the tolerance of a test", "anchors": ["torchiva/auxiva_ip.py:248-296", "torchiva/auxiva_ip.py:108-122", "torchiva/models/classic.py:33-43", "torchiva/linalg.py:91-120"]}
{"id": "C77", "title": "AuxIVA_IP2 decreases the cost unless a floor is active; for quiet recordings it can rise", "statement": "For two microphones whose signals are linearly independent at every frequency, an iteration of AuxIVA_IP2 with the Laplace model never increases the independent vector analysis cost minimised over the scales of the sources, and keeps the demixing matrices invertible, as long as no floor is active: no frame below the floor of the model, determinant of the first covariance and discriminant of the pencil at least eps, scales of both eigenvectors above their floors. So after any number of such iterations the cost is at most that of the recording. The condition cannot be dropped: the floor eps is absolute while the determinant grows with the sixth power of the level of the recording, and for the recording [[1 2] [1 -1]] multiplied by any a with 225 a^6 <= 128 eps (a = 0.1 for the default eps = 1e-5), at which the weights and mean powers are above their own floors, the first iteration increases the cost.", "quantifier": "all numbers of frequencies, frames and iterations, all complex two-channel recordings with independent channels, all eps > 0; the increase for all eps up to 0.1 and all small levels a", "why_tests_cant": "a descent property over all recordings and iteration counts; a test with recordings of normal level does not show the increase for quiet ones, and the outputs keep a plausible form", "anchors": ["torchiva/auxiva_ip2.py:29-91", "torchiva/auxiva_ip2.py:194-213", "torchiva/linalg.py:161-218", "torchiva/models/classic.py:33-43"]}
{"id": "C78", "title": "Training items stay aligned with their targets; the data module ignores numbers of channels", "statement": "Whatever the random numbers, an item of WSJ1SpatialDataset is one excerpt, the same for mixture and targets, of the files of one room: all channels of the mixture in a permuted order (the original one unless shuffle_channels) and one channel of every reference, the one moved to place ref_mic unless shuffle_ref. So with shuffle_ref off, if the mixtures are the sums of their references, channel ref_mic of the item is the sum of its targets; with shuffle_ref on this fails. The excerpt has the length asked for or that of the mixture. With max_len_s no returned target is silent; without it every room loads at once, and targets may be silent. The silence test looks at the mean instead of the power, so an item without any silent reference can be discarded: another item is returned, or none ever. WSJ6chDataModule makes one training set per entry of train_n_channels, with the batch size given for it (KeyError if missing) and the first n rooms (all for -1); but the number of channels has no influence on the data: sets of equal size are equal, and validation ignores it too. Leaving out ref_is_reverb selects the anechoic references although the dataset documents the reverberant ones as default. Files are opened by the last three parts of their paths. Validation is never cropped; training is not if max_len_s is missing or -1, and any other max_len_s is passed on. Of several entries for one number of channels (6 and \"6\") the last counts.", "quantifier": "all file contents, metadata, parameters, requested indices and sequences of random numbers; all dictionaries of numbers of channels", "why_tests_cant": "all permutations and retries depend on random draws; the failing cases (zero-mean sources, endless retry) need particular recordings; a wrong number of channels or reference type gives plausible training data", "anchors": ["examples/dataloader.py:103-213", "examples/data_module.py:38-127"]}
{"id": "C79", "title": "Sample recordings: one gain, no overflow, mixture against the sum of the references; batches of read_samples", "statement": "make_mix.py writes all files of a sample with one positive gain: every number is within one of the scaled signal, no magnitude exceeds 31129 (so int16 never wraps) and some number reaches it, and all files have the length of the longer simulation. The mixture file equals the sum of the reverberant reference files up to the number of sources minus one, and not always exactly. Files can be written if there are sources, microphones and a sound, and not for silence (0.95 / 0). save_files gives the k-th name to the k-th signal; signals without a name are dropped without an error. read_samples(ref_mic) returns the mixtures and channel ref_mic of every reference, read from files with the sampling rate of their mixture, each batch cut to its shortest member with unmodified samples; mixtures and references are cut separately and may differ in length. read_samples() without ref_mic slices channels instead of samples: references of different lengths always give RuntimeError, and recordings with fewer samples than channels lose channels. Without an expected sampling rate files of any rates are read.", "quantifier": "all simulated signals, numbers of sources, channels and samples; all file contents and lists of samples", "why_tests_cant": "overflow and rounding bounds concern all signals; the one shipped list of samples exercises one combination of lengths, and a dropped source or a mixture differing from its references by a few units stays unnoticed", "anchors": ["examples/samples/make_mix.py:16-19", "examples/samples/make_mix.py:43-62", "examples/samples/make_mix.py:103-112", "examples/samples/read_samples.py:7-55"]}
{"id": "C80", "title": "FIVE decreases the cost of independent vector extraction only up to the scales of the frequencies", "statement": "Let the cost of an extracted signal be 2 F log(sum over frames of its norm) - sum over frequencies of log(energy), the Laplace likelihood of independent vector extraction. With the Laplace model and a correct eigensolver, for recordings with enough power, the output of every further iteration of FIVE, each frequency multiplied by a suitable positive number, has a cost no larger than the output before. With one frequency above DC the cost itself never increases. With more frequencies it can: the projection back replaces the optimal scale of each frequency (1/sqrt of the eigenvalue, computed in the code and not used) inside the loop, and for a recording of two microphones and two frequencies one iteration from the microphone signal strictly increases the cost, whatever correct eigensolver is used.", "quantifier": "all recordings with enough power, numbers of microphones, frequencies, frames and iterations, reference microphones and eps; all correct eigensolvers", "why_tests_cant": "monotonicity is a statement about all recordings and iterations; a test on typical recordings sees the cost fall, and an increase does not show in the output", "anchors": ["torchiva/five.py:173-248", "torchiva/models/classic.py:33-43"]}
{"id": "C81", "title": "Example scripts: warnings, choice of references, channels used and signals compared", "statement": "example.py compares two references with min(n_src, 2) outputs of T_ISS or AuxIVA_IP (the most energetic ones), all cut to one length, for 1 <= n_src <= n_chan <= channels of the recording; more sources than channels raise ValueError; auxiva_ip2 needs two sources and two channels (AssertionError otherwise); with five it is always one output against two references. The warning that no dereverberation is performed appears whenever taps are asked for, also for T_ISS, which performs it with these taps (the algorithm is compared with a name that is not a choice): for the frames 1, 0, 1 of one channel one tap removes the last frame, which is kept without taps. The warning of five about the ignored number of sources shows the number of taps. Reverberant references are used exactly when taps and delay are zero; a delay without taps selects anechoic references although it does not change the output of T_ISS. example_dnn.py gives the first src channels to the separator; the number of microphones has no effect except that it must not be smaller than src.", "quantifier": "all options, numbers of channels, samples and reference lengths, source models that keep shapes; for the delay all recordings, numbers of iterations and reference microphones", "why_tests_cant": "scripts are not tested; wrong references, ignored options and misleading warnings give plausible figures for every single call", "anchors": ["examples/example.py:109-217", "examples/example_dnn.py:58-105", "torchiva/t_iss.py:463-485"]}
{"id": "C82", "title": "Evaluation script: the separator that is evaluated and the number of iterations recorded", "statement": "examples/test.py, with --ilrma or without any choice of method, evaluates the algorithm named by --algo with the number of sources, iterations, hop and window of the options and records that number of iterations; an unknown name is a ValueError. With --iss-hparams and --epoch the evaluated processing keeps every parameter of the training (among them n_iter and n_src), although the script sets n_iter and n_src on the separator and records the requested number of iterations: trained with 20 and asked for 5, it runs 20 and records 5; the command of the README, for the network of configs/tiss.json, runs 20 and records 40. Without --epoch this option is a TypeError. --gauss always fails with TypeError (keywords that BSSSeparator does not have). --ip2-hparams, --frontend-hparams, --laplace and --epoch have no influence: the Laplace separator is evaluated. Every value of --window is rejected, since a member of the enumeration never is one of the strings of the choices.", "quantifier": "all options, numbers of sources, trained separators, and sequences of calls and attribute writes afterwards (other than replacing the separator)", "why_tests_cant": "the figures recorded look plausible in every single run; that an option is ignored or a recorded number differs from the one used is a statement about all option values and all trained configurations", "anchors": ["examples/test.py:141-162", "examples/test.py:165-352", "examples/test.py:447-452", "README.rst:58", "torchiva/nn.py:46-136", "torchiva/base.py:31-39"]}
{"id": "C83", "title": "Training configuration: the separator built, the silent fallback and the entries without effect", "statement": "WSJModel builds, from config[\"model\"], the separator named by config[\"algorithm\"] with the values of the section and the network of source_model as its source model, and keeps processing with them. If building the network raises a KeyError, the Laplace model is used instead without any error (the except clause meant for a missing section); any other error is reported. A section without n_fft, n_iter, hop_length, n_taps, n_delay, ref_mic or use_dmc builds nothing. Every other entry (window, eps, algo, n_src, ...) has no influence in training; an entry eps is however used by the exported model, which then differs from the trained one.", "quantifier": "all configuration sections, networks (any outcome of building them), algorithms, numbers of sources, and sequences of calls and attribute writes afterwards (other than replacing the separator)", "why_tests_cant": "training with the fallback or an ignored entry runs without error and gives plausible figures; that an entry has no effect is a statement about all sections and values", "anchors": ["examples/separation_model.py:71-99", "torchiva/utils.py:84-105", "torchiva/nn.py:46-136", "examples/export_model.py:23-27"]}
{"id": "C84", "title": "The source model named in a configuration: what instantiate imports and calls", "statement": "For a name module.Class, with optional args and kwargs, torchiva.utils.instantiate calls the object that `from module import Class` binds, exactly once, with exactly these arguments, and returns its result; for every mapping it either only imports and returns nothing, or makes this one call after the imports. A name absent from the module is an ImportError and other keys (a misspelt kwargs) or a missing name a TypeError, both without any call. A bare name never gives anything (the case for it returns a module, which is not callable), and a class inside a class is not found (ModuleNotFoundError). Loading a configuration is not restricted to networks: every callable of every importable module, os.system included, can be called with any arguments by a configuration file, although the file is read with yaml.safe_load.", "quantifier": "all mappings, names, module systems (any modules, attributes, packages, import errors), callables and arguments", "why_tests_cant": "tests name a few existing classes; that no mapping makes more than one call, that every callable is reachable, and that bare names never work whatever is installed are statements about all mappings and all environments", "anchors": ["torchiva/utils.py:67-81", "torchiva/utils.py:84-105", "torchiva/nn.py:65-70", "torchiva/loader.py:48-85", "examples/separation_model.py:82-85"]}
{"id": "C85", "title": "Training step: the microphone of the targets and the microphone projected back to", "statement": "A training or validation step of examples/separation_model.py feeds the first n_chan channels of an item, unchanged, to the separator. Whatever the random numbers, without shuffle_ref the separated signals are projected back to the recorded microphone p(ref_mic), p being the (possibly shuffled) order of the channels and ref_mic the entry of config[\"model\"], and the targets are the references at microphone p(0). So with ref_mic 0, as in the configurations of the repository, and mixtures that are the sums of their references, the channel projected back to is the sum of the targets. The entry ref_mic does not reach the data, so this fails for another ref_mic; and with shuffle_ref the targets can be those of a microphone that the separator does not get at all.", "quantifier": "all file contents, metadata, data module parameters, numbers of channels, reference microphones, requested indices and sequences of random numbers", "why_tests_cant": "the alignment depends on random permutations; a target at another microphone gives plausible training data and a finite loss", "anchors": ["examples/separation_model.py:71-99", "examples/separation_model.py:123-151", "examples/data_module.py:94-127", "examples/dataloader.py:166-192", "torchiva/t_iss.py:531-533"]}
