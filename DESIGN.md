# Formal model of fbs (forward-backward conditional samplers) in Rocq/Coq 8.16.1

`/repo` is a JAX library. It was read as text only; nothing was run. Every model
definition cites the file and lines it models and says where it simplifies.

Layout: `rocq/theories/P_*.v` hold the property theorems (`Cnn_...`), each followed by
`Print Assumptions` and, per property, an `Example` that meets the hypotheses on concrete
data. The other files hold models (first part of each file, or files named after the module)
and proofs. `properties.jsonl` states the properties, `MANIFEST.json` maps them to theorems,
`seeded/LOG.jsonl` records the wrong programs the theorems were tried against.

## How the code is modelled

* **Arrays** are lists (row-major nesting for matrices), or functions of indices compared only
  below the shape (`Mat.v`, `Corrupt.v`). Shape errors, exceptions and out-of-range
  configuration are `option`/error values, never defaults.
* **Floats are real numbers** (Coq's `R`). Rounding, overflow, NaN, float32 are not
  modelled. Where the code divides by zero the theorems carry the guard explicitly,
  or a `_refuted` theorem exhibits the violation.
* **Random programs.** Sampler code is written once as a value of an inductive type
  `prog A` (file `Prog.v`): return a value, or consume a key to obtain a vector of uniforms
  in [0,1), a vector of integers (`randint`), or a draw from a finite-support law (used for the
  user-supplied kernels), and continue. `jax.random.choice(key, N, shape, p)` is *not*
  primitive: it is the inversion formula JAX uses, searchsorted(cumsum p, total*(1-u)).
  Readings of the same program:
  - `runs p keys a` / `safe p Q`: every possible outcome of every draw leads to a result
    satisfying `Q` (used for range, shape, lineage and bookkeeping theorems);
  - `law p f`: the expectation of `f`, with uniforms integrated by Coquelicot's Riemann integral
    over [0,1] and the other draws summed (used for unbiasedness and invariance);
  - `hygienic p` (and the compositional form `good ks p`): along every run the consumed keys
    are pairwise prefix-incomparable in the split tree (key discipline, and what justifies
    treating draws as independent in `law`).
* **Keys** are paths in the split tree: the i-th key of `split(k, n)` is `k ++ [i]`.
  (JAX's actual keys depend also on `n`; the model identifies `split(k,2)[0]` and
  `split(k,3)[0]`, which is conservative for hygiene.)
* **Laws of user kernels** have finite support (which includes every floating-point
  sampler). Transition samplers draw the particles of a batch independently.
  Gaussian draws appear only through their first two moments, or through densities.
* **SDE part**: scalar (each coordinate of the code is treated elementwise), derivatives and
  integrals with Coquelicot. A process is represented by the mean and covariance equations it
  satisfies (the SDEs are linear, so these determine its Gaussian law); stochastic integrals are
  not formalised.
* **Matrices** are functions `nat -> nat -> R` compared below the size `d` (`Mat.v`); every
  theorem about them is for all `d`.
* **JAX/numpy primitives** (`searchsorted`, `cumsum`, `roll`, `setdiff1d`, `ravel_multi_index`,
  `array_split`, `resize nearest`, `linspace`, `logsumexp`, einops `rearrange`) are modelled by
  their documented behaviour.
* **Library routines used by contract**: `cho_factor` (triangular factor with positive diagonal;
  existence for positive definite matrices and uniqueness are proved in `Cholesky.v`,
  `GaussDiv.v`), `cho_solve` and `solve` (solution of the linear system), `cholesky`, `eigh`
  (orthogonal diagonalisation), `expm` (the power series), `jax.grad`/`jacfwd` (true
  derivatives), `sqrtm` in the Gaussian bridge (symmetric square roots), `norm.logpdf` and
  `multivariate_normal.logpdf` (the density formulas).

## What is modelled, file by file

| code | Coq model | remarks |
|---|---|---|
| fbs/samplers/resampling.py | Resampling.v | all schemes; `ln 0` is 0 in Coq, -inf in the code (a draw u = 0 of probability 0 in the model) |
| fbs/samplers/csmc/resamplings.py | CondResampling.v | killing, multinomial; weighted choice |
| fbs/samplers/csmc/csmc.py | Csmc.v (proofs: CsmcInv.v, CsmcBackward*.v, CsmcExch.v, CsmcPath.v, CsmcErgodic.v) | forward pass, backward scanning and sampling, kernel |
| fbs/samplers/smc.py | Smc.v, Twisted.v (proofs: Res*.v, FilterConsistent.v, FilterLimit.v, FilterSlot.v, TwistedLimit.v, Genealogy.v, Coalesce*.v) | bootstrap filter, backward smoother, pmcmc kernel, pCN, twisted SMC |
| fbs/samplers/gibbs.py | Gibbs.v (proofs: GibbsProofs.v, GibbsMore.v, GibbsErgodic.v) | gibbs_init, gibbs_kernel, force_move; the loop of experiments/toy/gp_gibbs.py as gibbs_chain |
| fbs/sdes/linear.py | Sde.v, GaussSB.v, SbTotal.v, SbOptimal.v (Spectral.v, CholFun.v) | SDE classes, make_ou_sde, make_linear_sde, losses, make_gaussian_bw_sb |
| fbs/sdes/simulators.py | Sim.v (bounds for Lipschitz drifts: EmStable.v, EmStrong.v, EmPerturb.v; Doob bridge: DoobConverge.v; closed form bridge: SbConverge.v; other starts of the reverse process: PriorGap.v) | all simulators, as traces of drift evaluations |
| fbs/dsb/base.py | Dsb.v | both IPF losses |
| fbs/data/base.py, images.py, bayesian.py | Dataset.v, Images.v, Corrupt.v, Crescent.v | file loading not modelled; conv blur kernel by its weights |
| fbs/nn/base.py, utils.py, models.py, unet.py | Nets.v, UNet.v, NetShapes.v, UNetVal.v, Mlp.v, MnistConv.v (proofs: MlpProofs.v, MlpMain.v, UNetShape.v, UNetSep.v, UNetGrow.v, UNetLip.v, UNetLipNet.v, UNetLipMain.v, WsConv.v; as a score: UNetScore.v, UNetStrong.v, UNetError.v) | unet.py by values with arbitrary parameters (convolutions, normalisations, attention, resizing, time embedding) and by shapes; models.py: CrescentMLP, GMSBMLP, ClassicMLP and MNISTAutoEncoder and MNISTResConv by values (_GMSBMLPResBlock is not used by the code); parameter initialisation and dtypes not modelled |
| fbs/utils.py | Lti.v, GaussDiv.v, Bures.v, Expm.v | all functions (sqrtm with eigh only) |
| experiments/toy/*.py, experiments/sb/*.py | Toy.v, ToyKf.v, KfCollapse.v, FilterRate.v, FilterMean.v, FilterConverge.v, ToyPmcmc.v, TwistedGp.v, FilterSlot.v, ScriptRuns.v | the probabilistic wiring, the linear algebra and the main loops (chains, repeated sampling); no plotting, argument parsing, saving |
| experiments/tabulators/tabulate_toy.py, plot_sb.py (error computation) | SampleStats.v, BuresBound.v, BuresStat.v, KlStat.v | mean, covariance, error of the mean, error of the variances, Bures and KL columns; no skewness, kurtosis (computed but not printed), file reading, plotting |
| result files: np.save/np.savez of all scripts, file names read by tabulators/*.py, run_*_all.sh | ResultFiles.v, ImgFiles.v | names as Coq strings; the disk as the last of a list of writes; no directories, failures or partial writes |
| experiments/imgs/train.py data order | TrainData.v | which images each epoch visits and the permutation keys |
| experiments/tabulators/tabulate_imgs.py | ImgScores.v, ImgFiles.v | PSNR and SSIM by the documented skimage formulas, clipping, tensor layout for LPIPS; LPIPS itself not modelled |
| experiments/tabulators/plot_autocorrs_*.py, plot_toy_contours.py, plot_pmcmc_trace.py | AutoCorr.v, FigFiles.v | autocorrelation curves with NaNs, file names; numpyro's autocorrelation by its documented computation; no plotting |
| experiments/tabulators/plot_img_coalescence.py | Genealogy.v, CoalesceMain.v | what the plotted arrays are; ancestors followed by tags; no plotting |
| fbs/sdes/linear.py, fbs/dsb/base.py: minimisers of the losses | ScoreMin.v | density at the arrival state of the expected squared error for data with a finite law; the integral over the arrival state and the optimiser are not modelled |
| experiments/sb/filter.py, gibbs.py (start of the observation path) | HeurStart.v, GpStart.v | fwd_ys_sampler_proper / heuristic as programs over finite-support draws, the GP posterior moments and the draw from them; euler_maruyama enters through the law of its path |
| experiments/sb_imgs/supr.py (interp_x0_sampler), imgs/supr*.py (low-resolution picture) | LowRes.v | reshape of the observation, jax.image.resize with method 'linear' as normalised triangle weights (enlarging by a whole factor, one channel), unpack |
| experiments/imgs/*.py, experiments/sb_imgs/*.py | Restore.v, Csgm.v, Train.v, Nets.v (moving average), ToyPmcmc.v | restoration scripts: transition, densities, samplers, kept images, key bookkeeping; training loops: keys, counters, checkpoints, schedules, time grids; start of particle MCMC; the network is an arbitrary map of images |

## Not modelled

Floating point; GPU/XLA; neural network numerics beyond the above; optax optimisers (only the
schedule formulas); file loading, plotting, command lines; PRNG bit generation (replaced by
ideal uniforms); jit/vmap/pmap (treated as pure functions).

## Findings: places where the code does not do what it documents

Every item is a `_refuted` theorem with a concrete or universally quantified witness.
* **C12** (Conditional SMC with backward sampling leaves the smoothing distribution invariant): False of the code in general: the backward weights omit the likelihood factor of the following step (refuted theorem: a model meeting every hypothesis of C11 for which the smoothing law is not preserved). Proved, for every model, number of particles and horizon, when the likelihoods after the first step are constant in the particle, resampling is multinomial and transition_logpdf is the log-density of the transition kernel: the kernel is then reversible, hence invariant.
* **C14** (Forced-move reports its acceptance probability): alpha lies in [0,1] and bounds the acceptance probability from above (both proved). Equality is characterised exactly below the degeneracy threshold: it holds iff the current index is a heaviest one or a lightest one among those with weight (C14_alpha_exact_iff_partial); false otherwise (refuted): the per-term minimum of the acceptance ratio is replaced by a clipping of the sum.
* **C17** (The explicit-final option targets the same posterior): False of the code: the refuted theorem gives a model for which the kernel is exact with explicit_final=False and not with True. C17_explicit_final_partial says what is preserved with explicit_final=True, for every model: the law of x0 for which (us, vs) follows the smoothing law started in the reference law and weighted at the initial time by the likelihood with its two observations exchanged (as the code calls it), provided the indices are uniform over nparticles+1 slots; the refreshed indices are uniform over nparticles only.
* **C22** (The single particle kept by particle MCMC is a fair draw): False of the code for stratified, systematic and (sorted) multinomial resampling (C22_..._refuted, every key); proved for killing, every which_u.
* **C28** (Documented inputs of the samplers are honoured): gibbs_init rejects unknown methods (proved); the log flag is ignored (refuted); twisted_smc passes the time of the arrival state (refuted).
* **C34** (Exact path simulation has the right joint law): keep_path=True proved: explicit affine form in the noise, means and covariances for any white noise with independent rows. keep_path=False proved for a scalar time and for the OU helper from time 0. The documented array-of-times form of keep_path=False is refuted: default t0 fails, n<>d fails, n=d pairs times with coordinates; the OU helper is refuted when ts[0]<>0.
* **C37** (Euler-Maruyama evaluates the SDE inside the time grid): Proved for increasing grids with any number of sub-steps, and for decreasing grids with one sub-step. For decreasing grids with two or more sub-steps the claim is false: the sub-steps overshoot (C37_decreasing_overshoot_refuted, C37_decreasing_times_refuted).
* **C38** (The reverse simulator runs the forward coefficients backwards in time): Times lie in [0, ts[-1]-ts[0]] shifted by the code; the claim holds when ts[0]=0 and is false otherwise (C38_shifted_grid_refuted).
* **C42** (Score-matching losses are non-negative and vanish at the true score): The plain loss and the memory-saving score loss are proved >=0 and 0 iff the network returns the conditional quantity. The clause that the memory-saving variant accepts the same loss types is refuted: the ipf losses fail for every batch not of shape (2,2).
* **C46** (unpack and concat are inverse of each other): Proved for inpainting, and for super-resolution exactly when the rate divides both sides or is at least as large as both (nothing is observed then). For every other size gen_mask raises or gives a mask for which the round trip fails, whatever the draw (C46_supr_round_trip_refuted; C46_every_mask_refuted: 3x2 image at rate 2).
* **C47** (unobs_shape announces the shape of the unobserved part): Proved when the window fits or the rate divides both sides; false otherwise (C47_large_window_refuted, C47_supr_shape_refuted: for every other rate gen_mask raises, the announced shape is wrong, or the mask has more indices than pixels).
* **C53** (The crescent posterior is normalised and uses the documented prior): Likelihood and positivity proved; unit mass proved for uniform meshes. The prior clause is false (standard deviation and variance of the first coordinate are mixed up: C53_prior_refuted), and so is unit mass on non-uniform meshes. Crescent.score is the gradient of the code's own log joint density, but not the score of the law the sampler draws from: the first component is off by phi_0/4.
* **C58** (Attention averages values): Convex combinations proved. The unit vector clause is false: l2norm with axis=1 normalises over positions (C58_norm_over_positions, C58_unit_vectors_refuted).
* **C59** (Gaussian divergences are the documented quantities): bures_dist proved to be the squared Wasserstein distance in every dimension. kl is twice the divergence (C59_kl_is_twice_KL), so the claim for kl is false (C59_kl_refuted); non-negativity and vanishing exactly at equality proved. cho_factor, cho_solve and eigh enter by their defining equations.
* **C61** (Particle-filter initialisation of particle MCMC passes a log-likelihood): False: pmcmc_init of gp_pmcmc.py hands over the negative log-likelihood of bootstrap_filter. exp of minus the value is unbiased (C61_negated_value_partial); the first acceptance ratio multiplies the two likelihoods instead of dividing them. Started there the chain has not moved after m steps with probability at least (1 - G^(2T))^m when the likelihoods are at most G <= 1 (C61_stuck_refuted).
* **C62** (Reference samplers draw from the advertised Gaussian): False: mean + noise @ cholesky(cov) has covariance L^T L, equal to cov exactly for diagonal cov (so right for Crescent), and never in the GP scripts with two or more grid points. gp_twisted.py (cholesky @ noise) is right.
* **C64** (Forced move above the degeneracy threshold): False of the code: refuted with weights (1-1e-13, 1e-13).
* **C65** (The backward smoother uses each key once): False of the code: the key passed in is both consumed and split (refuted; C65_smoother_keys_refuted gives the exact keys for every model and length).
* **C66** (The backward smoother draws from the smoothing law): False of the code: the backward weights omit the measurement factor (refuted). Proved, for every model and length: the smoothing law results if the density handed over carries the likelihood of the next measurement, in particular if likelihoods do not depend on the state.
* **C67** (gibbs_init returns a consistent pair): Proved for method filter; false of the code for smoother (refuted).
* **C68** (Refreshed reference indices cover every slot): False of the code: the refreshed indices never equal nparticles (refuted for every model and number of particles).
* **C73** (Every pixel can be hidden by the inpainting window): False: on square images three corners can never be hidden (C73_corners_never_hidden_refuted).
* **C75** (The blur acts channel by channel): The range is proved; the channel-wise clause is false: all output channels coincide (C75_channelwise_refuted).
* **C77** (PixelShuffle is the torch operation): Proved for one output channel; false for two or more.
* **C78** (The training script averages parameters over the whole training): False: the counter handed over restarts with every epoch, so the average only sees the last epoch, and is the plain parameter when an epoch has at most 300 steps.
* **C80** (The simple networks accept a batch with a scalar time): False: the embedding of a scalar time has no batch axis, the concatenation raises. Works on single vectors.
* **C81** (MNISTResConv accepts both decoders): Proved for pixel_shuffle; the other branch refers to a missing attribute and always raises.
* **C82** (sinusoidal_embedding accepts vectors of times): False: raises unless there are one or out_dim/2 times; in the latter case time i is only used with frequency i.
* **C84** (The start state of particle MCMC belongs to its path): False: gp_pmcmc.py filters one path and returns another; the image scripts start with x0 = 0 and log_ell = 0. From log_ell = 0 the image chain has not moved after m steps with probability at least (1 - G^T)^m (C84_image_start_stuck_refuted).
* **C89** (The reference draw of the conditional score experiment): False: the draw multiplies the noise by the covariance instead of its factor, the covariance is cond_cov_ref squared; right only for the identity.
* **C91** (The Kalman filter of the GP experiment is the exact filter of the Euler chain): False: the innovation uses the Jacobian in v instead of u, standard deviations in place of variances, and the predicted u in the observation mean. Witness with exact numbers bounded.
* **C93** (Restored images agree with the observation): Proved for filter, gibbs, pmcmc and the score-based sampler (any step that returns an unobserved part of the right length). False for the twisted sampler, which keeps its final image as it is (C93_twisted_refuted, universally quantified: if no proposal carries the observation, no restored image does).
* **C94** (Test images were not trained on): Holds when both runs use the same key. The scripts use different seeds (666 for training, 996 for testing), so the two shuffles are unrelated: refuted, every test image can have been a training image, and on average a fraction 1-1000/n of them were (29/30 for n = 30000).
* **C95** (The test loop is reproducible): Same test images and single use of keys proved. Resuming is false: the sampler keys are counted from the first processed image, so image sf+i of the resumed run uses the keys of image i of the full run. Also proved: for any sampler using its key properly, restoring one test image consumes exactly the keys the loop hands to it, each once, and the data set key is unrelated to every other key of the script.
* **C96** (The training scripts use each key once): The keys of the losses and of the set-up are proved to be used once. False for the whole scripts: the key of the epoch permutation is split again for the steps, the forward bridge loop draws with a key that it splits in the next step, both bridge networks are initialised with the same key, and the check at the end starts again from the root key.
* **C97** (A finished training run leaves its parameters on disk): Contents, uniqueness and the file read by the test scripts proved. The parameters of the last epoch are saved exactly when 100 divides the number of epochs; nothing is saved with the default of 40 epochs (refuted). The bridge script saves every iteration (proved).
* **C98** (The learning rate follows the chosen schedule): Proved for the cosine schedule from two epochs on and for the exponential schedule; undefined for one epoch (optax raises). Bridge training is refuted: the optimiser state is carried over, from the second iteration on the rate is lr/100 throughout. optax formulas taken from its documentation.
* **C99** (The score-based sampler noises the observation like the forward process): Mean and covariance at every single step and key discipline proved; as a path it is refuted: noise is drawn afresh at every step, so two steps are uncorrelated, while a forward path is positively correlated. Also proved: every step is the Euler step of the reverse equation on the unobserved pixels, channel by channel, with the network fed the image completed by the noised observation.
* **C102** (The error of resampling vanishes with the number of particles): Proved for multinomial, stratified and killing; false for systematic: for alternating weights 1/(4m), 3/(4m) the error stays 1/16 for every even size (C102_..._refuted).
* **C104** (Twisting functions approximate the likelihood of the observation): Guided drift proved (total, closed form). False: the final twisting function is evaluated at u + reverse_drift(u, T) dt instead of u, so it is not proportional to the likelihood, for every number of grid points, both SDEs and every y with C y <> 2 y; the denoising estimate is one Euler step, not the conditional mean; the image twisting variance F^2 v + Q is the variance of the noised state and exceeds the conditional variance (and the data variance) at all times. All in C104_..._refuted.
* **C109** (The sample reported by the filter experiments follows the filtering law): False of the code: all these places use stratified resampling, whose first slot always descends from the front of the cloud. C109_reported_sample_refuted: one step, filtering probability 1/4, reported with probability at least 1/3 for every number of particles >= 2 (also for systematic resampling). Proved with rate 1/n (squared error) for killing resampling and any slot.
* **C111** (The particle MCMC chain converges to the posterior of (x0, path)): True of the paths for every scheme with a finite-support law and of the pair for killing, with the explicit rate 1 - eps Z / G^T; refuted for stratified (used by the scripts) and systematic: the kept x0 stays 1/50 away from the posterior for every chain length from 4 on.
* **C113** (An Euler step of the reverse simulator with the exact score is the time reversal of the forward transition): False for every step: equality of covariance and variance would force h sinh h + h sinh h cosh h = sinh^2 h + h^2 with h = -a(t-s) > 0, whose sides are strictly ordered. So the compatibility hypothesis of C15/C16/C107/C108 is met by the GP scripts only in the limit; C112 bounds the distance. The restored-data counterpart is C112.
* **C115** (The mean, covariance and error columns of the toy table estimate what they are compared with): Two parts are false. For a chain the sample variance is short by the excess error of the mean (C115_chain_variance); C115_chain_cov_refuted gives a stationary chain with half the right expectation. With at most as many samples as dimensions the covariance has no Cholesky factor (C115_few_samples_refuted). The skewness and kurtosis columns are not modelled.
* **C116** (Each set of results has a file name of its own and the toy table and bridge plot read the settings they print): The last part is false for one row and one column: run_toy_all.sh never runs pmcmc with delta 0.001 (C116_toy_row_missing_refuted) and run_sb_all.sh starts at four particles where the plot starts at two (C116_sb_two_particles_refuted). Dimension, sample and chain numbers are not in the name, so such runs overwrite each other (C116_overwrite_refuted). In sb_imgs/supr.py the start of the chain is overwritten for each x0 sampler, so the animation shows the wrong start (C116_sb_start_refuted).
* **C117** (The image table compares restorations with the image they restore, made by the method of the row): The seed is not in the name: mixed seeds compare different images (C117_seed_refuted). A step size whose text has a dash, 1e-05, is parsed as 05 (C117_small_delta_refuted).
* **C118** (The image scores order restorations by their error, and what a posterior sampler can score): The last two parts are false. The constant at the posterior mean beats every sampler and the exact posterior has twice its error, a loss of 10 log10 2 dB (C118_exact_sampler_best_refuted). swapaxes(img, -1, 0) transposes the image (C118_lpips_layout_refuted). PSNR and SSIM are skimage functions and modelled by their documented formulas; LPIPS itself is not modelled.
* **C119** (What the training losses are minimised by): The part on the previous state is false: the 'ipf' minimiser moves only F times as far from y as that mean does (C119_ipf_loss, C119_ipf_prev_mean_refuted). The risk is studied through its density at each arrival state; integrating it over y is not modelled. The reverse drift takes f and g at the time before the step, as the code does.
* **C120** (What the autocorrelation figures show): False in three parts: a variable constant in one chain blanks the whole toy curve (C120_toy_blank_refuted); the image curve takes a different pixel at each lag and counts negative values as zero, and can vanish at all lags though each pixel is correlated (C120_best_variable_refuted); independent samples show -(n-k)/(n(n-1)) at lag k (C120_independent_zero_refuted). numpyro's autocorrelation is modelled by its documented computation with the circular correlation in place of the two transforms.
* **C121** (Which result files the figures read): Each of the three toy figures needs particle MCMC with step size 0.001 (two of them 0.01 too), which no script runs: these files never exist (C121_toy_steps_refuted).
* **C122** (The standardized convolution): False in three parts: with the added epsilon the variance is v/(v+eps) < 1 (C122_unit_variance_refuted) and a factor in the parameters changes the kernel (C122_factor_refuted); a constant added to the image changes the output at the border, which is padded with zeros (C122_brighter_border_refuted), and nowhere else (C122_brighter_partial).
* **C129** (The ancestors of the filter's particles coalesce, and the coalescence figure shows them): Partly false. True: the ancestor sets are nested along every run, for every scheme. With multinomial resampling the chance of not having coalesced after m steps is at most (1 - n^(1-n))^m for every likelihood, and with a flat likelihood the expected number of ordered pairs with different ancestors is exactly n(n-1)(1-1/n)^m. False for the stratified resampling that gibbs_init uses, and for systematic and killing: a flat likelihood keeps all n ancestors for ever (C129_coalescence_refuted). One resampling keeps at most sum_i min(1, n w_i) particles on average under any unbiased scheme, and systematic attains this. The lines labelled 'Particle trajectory' join the particles of one slot, which are not parent and child (C129_particle_trajectory_refuted; C129_parents states what the true parent is), and two runs with different genealogies can give the same figure (C129_figure_shows_ancestors_refuted).
* **C134** (The start of the noised observation path in the bridge filter): The proper start, the error bound (killing resampling, as in C109), the separable case and the use of the keys are proved. A heuristic start is refuted: an exact two-point model where the reported sample misses the posterior for every number of particles. The last sentence is false: gp_posterior_sampler multiplies the noise by the Cholesky factor on the wrong side and never has the posterior covariance with two or more grid points (as C62).
* **C135** (The low-resolution image and the interpolated start in super-resolution): Everything is proved except the last part for even rates: the fixed mask observes the pixel at offset rate // 2, which for even rates is half a pixel away from the block centre that jax.image.resize assumes, so linear images come out shifted by half a pixel in both directions (the default rate is 4). For odd rates observed pixels are kept and linear images reproduced exactly. One channel; resize is modelled by its triangle weights.
* **C142** (The conditional score sampler of the GP experiment converges to the GP posterior): The mean converges (C142_end_law). The covariance does not: the reference draw multiplies by cond_cov_ref and not by a factor of it (C89), the reverse process does not forget it, and the limit is the posterior covariance only when cond_cov_ref is the identity (C142_right_iff_identity), which is impossible for the stationary SDEs and obs_var = 1 of the script (C142_refuted).
* **C143** (The conditional score sampler of the image experiments converges to the conditional law): False as soon as there is any correlation (C143_refuted): on a Gaussian image of two grey pixels with correlation r, one observed, the limit variance is at least (1 - r^2) / (1 - r^2 F^4) > 1 - r^2, F the coefficient of the transition from 0 to T, and the mean is at most (1 + r^2) / 2 of r y (C143_limit). The draws of the noised observation average out within the steps, so the sampler follows the score of the joint law at the mean of the noised observation.
* **C145** (The Kalman filter of the GP experiment finds the posterior covariance on a fine grid): The first two parts hold; the last is false in every instance (C145_refuted): the Jacobian of the observation is taken in the previous observation instead of the state, and the noise covariance is sqrt(dt) b I, so every entry of the returned covariance is of the order of sqrt(dt) for every path and start, and falls below any fraction of the posterior variances. C91 is about one step of the same filter. The mean is in C148, for one kind of path; its limit along typical paths of the diffusion is not determined.
* **C146** (The filter of the Euler chain that the toy samplers target has the GP posterior covariance in the limit): The first part holds with its rate (C146_posterior_covariance) and every path and grid has such a run (C146_defined). The last clause is false in every instance (C146_script_refuted): from the same moments and along the same path the variances adhoc_kf returns are below any fraction of the exact ones on fine grids, which strengthens C91 from one step of one model to all. The mean is in C147.
* **C148** (The Kalman filter of the GP experiment finds the posterior mean on a fine grid): False in every such instance (C148_refuted): along a path that is zero until its last step the gain is at least a half up to dt^2, whatever the kernel, because the observation Jacobian is the identity up to dt; the right gain, lambda / (lambda + s2) in an eigenvector of the kernel matrix, is smaller where lambda < s2. Limits of this: the witness is a path with a jump of fixed size in its last step, which a noised path does not make on a fine grid, so typical paths are not settled; and the theorem is about fine grids (dt <= some h0), not about the two steps the script uses. The script's kernel and noise are such an instance with either of its SDEs and any two or more points, and the filter does run there (C148_script_refuted, C148_example). The exact filter is right on the same path, at rate dt (C148_exact_filter).

The statements in `properties.jsonl` say what the code ought to do; where model and statement
disagree the statement was kept, the status set to `partial`, the true part proved and the rest refuted.

## Method per property

* **C01** Resampled indices are valid, complete and ordered [proved]: deterministic model of searchsorted/cumsum/clip; monotonicity of searchsorted in its argument.
* **C02** Systematic resampling keeps offspring counts within one of N*w [proved]: count of k with (k+u)/n in a half-open interval = difference of floors; arithmetic.
* **C03** Stratified resampling keeps offspring counts within two of N*w [proved]: same as C02 with one point per stratum.
* **C04** Systematic and stratified resampling are unbiased [proved]: Riemann integral of the count (step functions).
* **C05** Killing resampling has the killing law and does nothing on equal weights [proved]: `law` of the program; product-form law; deterministic part by `safe`.
* **C06** Conditional resampling always keeps the reference ancestor [proved]: `safe` postcondition.
* **C07** Conditional resampling is the conditional law of an unbiased resampling scheme [proved]: `law` identity against an explicitly written resampling law.
* **C08** Weighted random selection draws index i with probability w_i [proved]: `law` of the inversion formula = finite sum.
* **C09** The conditional SMC forward pass never loses the reference trajectory [proved]: `safe`, induction over time steps.
* **C10** Conditional SMC returns a genuine ancestral path [proved]: `safe`, induction over the backward scan.
* **C11** Conditional SMC (ancestor tracing) leaves the smoothing distribution invariant [proved]: `law`, induction over the horizon with the conditional-resampling identity C07.
* **C12** Conditional SMC with backward sampling leaves the smoothing distribution invariant [partial]: refutation by an explicit model; positive theorem for constant likelihood.
* **C13** Forced-move selection is reversible for the weights [proved]: `law` of force_move; detailed balance below the threshold; refutation above it.
* **C14** Forced-move reports its acceptance probability [partial]: refutation + exact formula.
* **C15** The Gibbs kernel (ancestor tracing) leaves the posterior invariant [proved]: C11 + compatibility of forward and backward joint laws.
* **C16** The Gibbs kernel (forced move, fresh path) leaves the posterior invariant [proved]: forward pass + C13 + fresh path.
* **C17** The explicit-final option targets the same posterior [partial]: refutation: extra initial factor and index never drawn.
* **C18** Gibbs kernel bookkeeping [proved]: `safe`.
* **C19** The bootstrap filter's likelihood estimate is unbiased [proved]: `law`, induction over steps, generic unbiased resampling.
* **C20** The particle MCMC filter's likelihood estimate is unbiased [proved]: `law`, as C19.
* **C21** Particle MCMC leaves the pseudo-marginal target invariant [proved]: `law`, pseudo-marginal detailed balance.
* **C22** The single particle kept by particle MCMC is a fair draw [partial]: exact for killing; refutation for the three sorted schemes on a model with three particles.
* **C23** The pCN proposal preserves the prior [proved]: second-moment algebra over finite-support laws; Gaussian reversibility by the joint covariance.
* **C24** Metropolis outcome is all-or-nothing and truthful [proved]: `safe`/`law`.
* **C25** Twisted SMC is properly weighted [proved]: `law`, induction with a ghost normalising constant.
* **C26** Backward smoother returns members of the filter clouds [proved]: `safe` and `law`; finding on the missing likelihood factor.
* **C27** No random key is ever used twice [proved]: `hyg` for each program; refutation for the backward smoother.
* **C28** Documented inputs of the samplers are honoured [partial]: refutations and error-branch theorem.
* **C29** Discretisation of linear SDEs composes [proved]: field/exp algebra.
* **C30** Discretisation solves the moment equations of the documented SDE [proved]: Coquelicot is_derive.
* **C31** The linear noise schedule is the documented one [proved]: Coquelicot is_RInt.
* **C32** mean/variance methods agree with the discretisation and with stationarity [proved]: algebra.
* **C33** The conditional score is the gradient of the transition log-density [proved]: is_derive of the Gaussian log-density.
* **C34** Exact path simulation has the right joint law [partial]: linear-map representation of paths in the noise; inner products of coefficients.
* **C35** The OU helpers agree with the general linear SDE helpers [proved]: algebra; refutation for t0<>0.
* **C36** The bridge drift is Doob's h-transform [proved]: is_derive.
* **C37** Euler-Maruyama evaluates the SDE inside the time grid [partial]: trace model of evaluation times; refutation on decreasing grids.
* **C38** The reverse simulator runs the forward coefficients backwards in time [partial]: as C37.
* **C39** Doob bridges hit both ends and never evaluate the singular time [proved]: as C37.
* **C40** The discrete-time simulator reproduces the exact simulator [proved]: induction on the grid.
* **C41** The Gaussian Schrodinger bridge matches both end points and its own drift [proved]: mean and covariance equations for matrices of any size, from the defining equations of the square roots; derivatives of the marginal moments.
* **C42** Score-matching losses are non-negative and vanish at the true score [partial]: sums of squares; error branches.
* **C43** The two implementations of the IPF loss agree [proved]: induction.
* **C44** The inpainting mask partitions the image [proved]: list/nat arithmetic on ravelled indices.
* **C45** The super-resolution mask observes one pixel per block [proved]: same.
* **C46** unpack and concat are inverse of each other [partial]: gather/scatter lemmas.
* **C47** unobs_shape announces the shape of the unobserved part [partial]: counting; refutation for oversized windows.
* **C48** Random-rectangle corruption stays inside the image and changes nothing else [proved]: list arithmetic.
* **C49** Nearest-neighbour degradation is a projection [proved]: index arithmetic of nearest resize.
* **C50** Image normalisation lands in [0,1] [proved]: real arithmetic, list min/max.
* **C51** One epoch visits each used datum exactly once [proved]: permutations and array_split.
* **C52** Standardisation gives zero mean and unit variance [proved]: sums.
* **C53** The crescent posterior is normalised and uses the documented prior [partial]: refutation (variance used as scale), trapezoid linearity.
* **C54** PixelShuffle is a bijective rearrangement [proved]: mixed-radix arithmetic.
* **C55** Sinusoidal time embedding [proved]: exp/sin/cos.
* **C56** The U-Net preserves the image shape [proved]: shape calculus, induction on the multiplier list.
* **C57** Exponential moving average of parameters [proved]: induction over histories.
* **C58** Attention averages values [partial]: softmax sums; refutation for the normalisation axis.
* **C59** Gaussian divergences are the documented quantities [partial]: densities written coordinate after coordinate; triangular factors; bures as the optimal transport cost over all couplings with the given moments, lower bound and attainment; refutation for kl: factor 2.
* **C60** LTI discretisation [proved]: matrix exponential as a power series; moment equations solved for all sizes; uniqueness; integral formula.
* **C61** Particle-filter initialisation of particle MCMC passes a log-likelihood [partial]: `law` via C19 for the value handed over; `safe` evaluation on particle-independent likelihoods refutes the sign.
* **C62** Reference samplers draw from the advertised Gaussian [partial]: second moments of z -> m + zL and m + Lz; triangular normal matrices are diagonal, so the row form is right iff the covariance is diagonal.
* **C63** Padding average preserves mass [proved]: list sums.
* **C64** Forced move above the degeneracy threshold [partial]: detailed balance below the threshold, refutation by concrete weights above it.
* **C65** The backward smoother uses each key once [partial]: refutation: a run whose consumed keys are prefix-comparable.
* **C66** The backward smoother draws from the smoothing law [partial]: refutation by a concrete model with exact filter rows.
* **C67** gibbs_init returns a consistent pair [partial]: `safe`; refutation by a run.
* **C68** Refreshed reference indices cover every slot [partial]: `safe`: the integer draw stays below nparticles.
* **C69** Reverse simulation with the exact score reproduces the forward marginals [proved]: scalar moment equations under time reversal.
* **C70** The bridge drift generates the Gaussian bridge [proved]: the bridge moments solve the mean and variance equations with the code's drift; limits at the end points.
* **C71** Simulators and losses use each key once [proved]: `good` for each program.
* **C72** The Gaussian bridge drift is the optimal one [proved]: matrix identities from the equation of the cross covariance.
* **C73** Every pixel can be hidden by the inpainting window [partial]: `safe`: support of the integer draws for the window corner.
* **C74** Dataset samplers use each key once [proved]: `good` for each program.
* **C75** The blur acts channel by channel [partial]: convex combination bounds; index calculation of the reshape.
* **C76** A restoration sample is consistent [proved]: `safe` combination of C44-C46.
* **C77** PixelShuffle is the torch operation [partial]: mixed-radix index arithmetic against the torch definition.
* **C78** The training script averages parameters over the whole training [partial]: induction over steps and epochs.
* **C79** Linear attention averages values [proved]: softmax sums.
* **C80** The simple networks accept a batch with a scalar time [partial]: shape calculus.
* **C81** MNISTResConv accepts both decoders [partial]: shape calculus.
* **C82** sinusoidal_embedding accepts vectors of times [partial]: broadcasting calculus.
* **C83** Matrix square root [proved]: spectral calculus from the defining equations of eigh; uniqueness of the positive root.
* **C84** The start state of particle MCMC belongs to its path [partial]: `runs`/`safe` on likelihoods that depend on the path only.
* **C85** The conditional moments of the scripts are those of the joint Gaussian [proved]: chain rule of the coordinatewise density after exchanging the blocks.
* **C86** Every factorisation in the scripts exists [proved]: explicit factor of the exponential kernel (telescoping sum); quadratic forms.
* **C87** The reverse drift of the scripts retraces the forward marginals [proved]: derivatives of the moments composed with T - t; matrix form of the reversal identity.
* **C88** The conditional score of the GP experiment is exact [proved]: gradient of the Gaussian log density in its mean; block matrix identity (Bayes rule for scores).
* **C89** The reference draw of the conditional score experiment [partial]: second moments; C^2 = C for positive definite C only if C = I.
* **C90** Transition and likelihood densities are those of one joint Euler step [proved]: isotropic densities split into coordinates.
* **C91** The Kalman filter of the GP experiment is the exact filter of the Euler chain [partial]: exact arithmetic bounds on one scalar instance.
* **C92** Image transition and likelihood are those of one joint Euler step of the whole image [proved]: gather/scatter permutation of a sum over pixels.
* **C93** Restored images agree with the observation [partial]: `safe` postcondition through the whole experiment; invariant of the twisted scan.
* **C94** Test images were not trained on [partial]: permutations and disjointness; explicit rotation as witness; linearity of expectation.
* **C95** The test loop is reproducible [partial]: closed form of the key lists; incomparability of 0^i 1 keys.
* **C96** The training scripts use each key once [partial]: `good` composition; traces of arbitrary runs for the refutations.
* **C97** A finished training run leaves its parameters on disk [partial]: membership in a filtered range.
* **C98** The learning rate follows the chosen schedule [partial]: monotonicity of cosine on [0, pi]; closed form of the update counter.
* **C99** The score-based sampler noises the observation like the forward process [partial]: expectations under independent noise against C34.
* **C100** The random time grids of bridge training are grids [proved]: permutation and sortedness.
* **C101** Multinomial resampling draws independently from the weights [proved]: iterated integrals over the n+1 uniforms: the probability that sorted uniforms lie below given thresholds as a polynomial, its Taylor expansion along the ray of partial sums, and induction over the thresholds; laws on sorted index lists are determined by these events.
* **C102** The error of resampling vanishes with the number of particles [partial]: the three schemes fill their slots independently, so variances add up; for systematic resampling the offspring counts of alternating weights depend on the single uniform only through one event of probability 3/4.
* **C103** The particle filters converge at the Monte Carlo rate [proved]: induction over the steps on the mean square of any affine function of the weighted particles (bias-free resampling, conditional independence of the moves); ratio estimate for the normalised version, Chebyshev for probabilities.
* **C104** Twisting functions approximate the likelihood of the observation [partial]: linear algebra: the denoising estimate is linear in u; the odd part in u of the difference of the log densities is a nonzero linear form; gradients by derivatives of finite sums.
* **C105** Conditional SMC ignores the indices of its reference path [proved]: the other particles form an exchangeable family given the reference: the conditional resampling laws are written as a functional of the reference and the multiset of the others; induction over the steps on the path-valued recursion.
* **C106** The conditional SMC chain converges to the smoothing law [proved]: minorisation: with probability at least delta the returned path is a fresh draw proportional to the smoothing law, whatever the reference (Jensen/Cauchy-Schwarz step at each resampling); invariance (C11) and C105 give the contraction.
* **C107** The Gibbs sampler forgets everything but x0 [proved]: The law of the particle system is written along lineages with the reference first; the forced move and the tracing draw are symmetric functions of the other weighted paths.
* **C108** The Gibbs chain converges to the conditional law [proved]: minorisation of the particle system by nu (as C106, with the forced move contributing at least the weight of every other particle), invariance (C15, C16), and the Doeblin interval contraction.
* **C109** The sample reported by the filter experiments follows the filtering law [partial]: refutation: exact law of the first stratum, case split on the first two particles, linear lower bounds in the total weight whose mean is known. Positive part: exchangeability of bootstrap_filter under adjacent transpositions (killing is equivariant), so every slot is fair after weighting by the likelihood estimate, whose mean square error is C103's.
* **C110** The sample reported by the twisted experiments converges to the twisted target [proved]: recursion of the second moment through resampling, proposal and weighting; Cauchy-Schwarz
* **C111** The particle MCMC chain converges to the posterior of (x0, path) [partial]: Doeblin minorisation of the kernel: the acceptance probability is at least the estimate divided by its largest value.
* **C112** Euler-Maruyama converges with the step: forwards to the moments of the SDE, backwards (exact score) to the moments of the data [proved]: One-step recursion of mean and covariance for affine drifts; second-order remainders of the exact moments from F = exp rho, Q = kappa (1 - F^2); discrete Gronwall over sub-steps and intervals; the inverse covariance bounded by Cauchy-Schwarz for the form of C0.
* **C113** An Euler step of the reverse simulator with the exact score is the time reversal of the forward transition [partial]: Direct second moments of the step; scaling by the stationary variance; sinh h > h and h cosh h > sinh h by the mean value theorem.
* **C114** A whole experiment run uses each random key once, and its chains and samples are independent [proved]: Key sets of sub-programs are disjoint subtrees of the key tree; product formula by induction over iterations, using linearity of finite laws.
* **C115** The mean, covariance and error columns of the toy table estimate what they are compared with [partial]: Second moments of a run of n identically distributed vectors; an underdetermined linear system for the singular case.
* **C116** Each set of results has a file name of its own and the toy table and bridge plot read the settings they print [partial]: File names as Coq strings with Python's f-string formatting; the disk as the last write of a list of writes.
* **C117** The image table compares restorations with the image they restore, made by the method of the row [partial]: Same disk model; the draws of test images are those of the test-script model of C96.
* **C118** The image scores order restorations by their error, and what a posterior sampler can score [partial]: Bias-variance split of finite laws; Jensen for the logarithm; Cauchy-Schwarz per window.
* **C119** What the training losses are minimised by [partial]: Conditional mean splits the squared error; derivative of a finite Gaussian mixture; Tweedie's formula.
* **C120** What the autocorrelation figures show [partial]: Zero-padded circular correlation is the lagged sum; square of the centred sum; pair exchange.
* **C121** Which result files the figures read [partial]: Injectivity of the file names; disk after a permutation of writes.
* **C122** The standardized convolution [partial]: Sums over the taps; Cauchy-Schwarz.
* **C123** The U-Net treats the elements of a batch separately [proved]: The network as a list of steps on a stack; a relation between two runs preserved by each step.
* **C124** The U-Net grows at most linearly [proved]: Normalised entries are at most the root of their number; attention and resizing average; composition over the list of steps.
* **C125** The U-Net is Lipschitz in the image and the time [proved]: Pairs of families closed under the layers' operations: Lipschitz, and bounded after each normalisation; composition over the list of steps.
* **C126** The U-Net sampler is stable in its initial value and does not explode [proved]: C124 and C125 give a Lipschitz reverse drift of linear growth; discrete Gronwall along the chain.
* **C127** Sub-steps per interval change the U-Net sampler by at most the mesh of the grid [proved]: C124 and C125 give a reverse drift that is Lipschitz in state and time; the dispersion is Hoelder 1/2 in time; discrete Gronwall over sub-steps and intervals.
* **C128** The error of the samples is bounded by the error of the score network [proved]: C125 gives a Lipschitz reverse drift; discrete Gronwall with a perturbation, Cauchy-Schwarz over the steps; C112 for the exact score; coupling of the two laws.
* **C129** The ancestors of the filter's particles coalesce, and the coalescence figure shows them [partial]: Run the polymorphic model of the filter on tagged particles and show that forgetting the tags gives the original program; contraction of a functional of the tags under one resampling, iterated through the scan.
* **C130** The divergence between the samplers with two scores is the weighted score error [proved]: Discrete Girsanov formula for one step and every noise, induction over sub-steps and intervals.
* **C131** The conditional sampler inherits the error of the reverse dynamics [proved]: Pinsker's inequality for normalised reweightings proved from scratch, chain rule of the log-ratio along the reverse chain, and C109.
* **C132** The small networks treat rows separately, are Lipschitz in space, and all but one in time [proved]: Values of each row through the layers, global Lipschitz bounds for relu and the tanh form of gelu (derivative at most 5/2), and Lipschitz calculus for families of values (UNetLip.v).
* **C133** MNISTResConv is bounded and Lipschitz in image and time, hence never close to an affine score [proved]: Layer by layer with the Lipschitz calculus of the U-Net (UNetLip.v, UNetLipNet.v); separation of the batch is the bound at distance zero.
* **C134** The start of the noised observation path in the bridge filter [partial]: finite-support laws; conditioning identity for the reversed path; Doeblin contraction; exact two-point model
* **C135** The low-resolution image and the interpolated start in super-resolution [partial]: index arithmetic on the generated mask; weights of the triangle kernel as a two-point interpolation
* **C136** The matrix routines always return and the closed form bridge is defined on all of [0, 1] [proved]: spectral theorem by maximising the Rayleigh quotient; marginal covariance written as a sum of squares with C = S K S^-1, K^2 + sig^2 K = S cov1 S
* **C137** What the Bures and variance columns measure on independent samples [proved]: optimal transport map between the covariances, trace inequalities and completing the square; variance of the sample covariance through centred products
* **C138** The closed form drift is the control of least energy: make_gaussian_bw_sb does return the Schroedinger bridge [proved]: verification argument: quadratic value function with the slope of the drift, Riccati equation, fundamental theorem of calculus, completion of the square
* **C139** The simulated Doob bridge follows the bridge before the end and misses the target by the square root of a step [proved]: local error of the moments with Gronwall bounds before the end; at the end an invariant of the moments that survives the singularity of the drift
* **C140** Simulating the closed form bridge reaches its marginals, forwards and backwards [proved]: moment equations of the bridge hold on all of [0, 1] with a quadratic covariance, entries of slope and inverse bounded by compactness, Gronwall bound along every prefix of the grid
* **C141** What reverse_simulator returns from a start that is not the marginal at T [proved]: particular solutions of the moment equations of the reverse process in closed form, second-order remainders by compactness, Gronwall bound of C112
* **C142** The conditional score sampler of the GP experiment converges to the GP posterior [partial]: C141 with the posterior as data and the covariance of the draw as start; posterior covariance written as s2 C (C + s2 I)^-1
* **C143** The conditional score sampler of the image experiments converges to the conditional law [partial]: exact affine recursion of the moments of the scan, polynomial sub- and supersolutions of the limit equations in F, second-order remainders by compactness, one-sided Gronwall
* **C144** What the KL column of the toy table measures on independent samples [proved]: kl is at most its sum with the reversed kl, where the log-determinants cancel and a trace form in the covariance error remains; Markov's inequality with the variance bounds of C137
* **C145** The Kalman filter of the GP experiment finds the posterior covariance on a fine grid [partial]: the updated covariance is the value of a least-squares problem, hence at most sqrt(dt) b |y|^2 in the direction H^T y; H is the identity up to the order of dt, uniformly in time by the bound of the reverse drift's Jacobian in C112
* **C146** The filter of the Euler chain that the toy samplers target has the GP posterior covariance in the limit [partial]: every matrix is diagonal in the eigenvectors of the kernel matrix, so each eigenvalue of the filter covariance follows a scalar Riccati recursion; the conditional variance of the forward law follows it up to dt^2 (Taylor bounds of C112), and a discrete Gronwall argument bounds the sum
* **C147** The filter of the Euler chain that the toy samplers target has the GP posterior mean in the limit [proved]: in the eigenvectors of the kernel matrix the distance of the mean to the regression of u on the current v is multiplied by 1 + O(dt) per step and receives O(dt^2) |v| + O(dt) |change of v|: the O(dt) terms in v cancel because the regression coefficient solves its own linear equation; discrete Gronwall
* **C148** The Kalman filter of the GP experiment finds the posterior mean on a fine grid [partial]: the step of the script in the eigenvectors of the kernel matrix; v h / (h^2 v + q) >= 1/2 - (h - 1)^2 / 2 for v >= q

## Trusted base

* Coq's kernel (8.16.1, also checked with coqchk), and Coquelicot and mathcomp/ssreflect as installed
  (their theorems are checked by the kernel; they add no axioms of their own to the list below).
* The axioms below, all from the standard library: `ClassicalDedekindReals.sig_forall_dec` and
  `sig_not_dec` (construction of the reals), `FunctionalExtensionality.functional_extensionality_dep`,
  `Classical_Prop.classic` (used by the real analysis library). The development adds none.
* The reading of `/repo` described above: that each model definition says what the cited lines do.

`Print Assumptions` reports, per property theorem:

* no axioms — 59 theorems: C46_channels, C51_batches, C51_epoch, C51_tail_never_used, C51_small_data_error, C52_reshape, C52_draw_subset, C121_toy_figures_partial, C121_toy_steps_refuted, C121_toy_labels, C121_img_figure, C116_toy_names, C116_toy_table, C116_toy_run_all_partial, C116_toy_row_missing_refuted, C116_overwrite_refuted, C116_sb_names, C116_sb_run_all_partial, C116_sb_two_particles_refuted, C116_sb_start_refuted, C117_names, C117_like_with_like, C117_run_all, C117_seed_refuted, C117_method_options, C117_small_delta_refuted, C54_pixel_shuffle, C54_invertible, C54_other_channels_rejected, C77_torch_one_channel, C77_more_channels_refuted, C55_two_dimensions_refuted, C56_unet, C80_default_network_refuted, C80_single_vector, C80_batch_of_times_refuted, C80_auto_encoder_refuted, C81_pixel_shuffle_decoder, C81_other_decoder_refuted, C06_systematic_conditional_raises, C101_sorting, C94_same_key_partition, C94_sizes, C94_same_seed_disjoint_partial, C94_two_keys_iff, C94_scripts_refuted, C95_same_test_images, C95_keys_used_once, C95_all_processed, C95_resume_refuted, C95_resume_differs_refuted, C95_dataset_key, C34_marginals_array_default_t0_refuted, C97_contents, C97_one_file_per_epoch, C97_final_saved_iff_refuted, C97_default_saves_nothing_refuted, C97_test_epoch_iff, C97_bridge_saved.
* `ClassicalDedekindReals.sig_forall_dec` — 32 theorems: C44_inpaint_mask, C45_supr_mask, C45_other_rates_rejected, C45_unknown_task_rejected, C46_round_trip, C46_every_mask_refuted, C47_inpaint_shape, C47_supr_shape, C47_large_window_refuted, C49_downsample, C73_corners_never_hidden_refuted, C76_restore_sample, C46_supr_round_trip_partial, C46_supr_round_trip_refuted, C47_supr_shape_refuted, C134_path_keys, C135_low_res_image, C57_before_start, C57_step, C57_zero_every_raises, C93_restored_keep_observed, C95_restoration_keys, C96_loss_keys_partial, C96_setup_keys_partial, C96_image_training_refuted, C96_bridge_one_step_partial, C96_bridge_training_refuted, C96_bridge_networks_refuted, C96_check_refuted, C51_training_visits, C96_permutation_keys_partial, C126_entries.
* `ClassicalDedekindReals.sig_forall_dec`, `FunctionalExtensionality.functional_extensionality_dep` — 70 theorems: C120_autocorrelation, C120_sum, C120_independent_zero_refuted, C120_toy_curve, C120_worst_variable, C120_toy_blank_refuted, C120_img_run, C120_img_zero, C120_best_variable_refuted, C137_cov_variance, C09_library_schemes, C48_paint, C48_oversized_refuted, C50_clip, C50_norm, C50_constant_channel_refuted, C41_end_points, C41_cov_symmetric, C72_gradient_drift, C72_cross_covariance, C118_psnr_infinite, C118_error_split, C118_ssim, C118_lpips_layout_refuted, C135_interp_range, C135_odd_rate_keeps_observed, C135_interp_linear_image, C135_default_rate_reproduces_linear_image_refuted, C135_example, C57_closed_form, C57_range, C78_last_epoch_only_refuted, C78_short_epochs_refuted, C58_between, C01_systematic_valid, C01_stratified_valid, C02_systematic_offspring, C02_zero_weight_never_selected, C02_strict_bound_at_zero_refuted, C03_stratified_offspring, C03_heavy_particles_survive, C05_killing_valid, C05_killing_identity_on_equal_weights, C06_multinomial_pins, C06_killing_pins, C06_systematic_uncond_matches, C06_systematic_uncond_range_refuted, C07_multinomial_slot_marginal, C08_choice_range, C63_avg_length, C63_avg_entries, C63_avg_mass, C63_avg_nonneg, C94_expected_leak_refuted, C138_zero_gap, C115_chain_variance, C115_cov_psd, C115_few_samples_refuted, C31_schedule, C31_schedule_range, C42_grid, C37_decreasing_overshoot_refuted, C21_independent_proposals, C62_column_draw, C62_row_draw_partial, C86_grid, C86_joint, C89_draw_covariance, C100_grid, C100_reversed.
* `ClassicalDedekindReals.sig_forall_dec`, `ClassicalDedekindReals.sig_not_dec`, `FunctionalExtensionality.functional_extensionality_dep` — 138 theorems: C137_bures_sandwich, C137_bures_column, C137_exact_sampler, C137_var_column, C129_survivors, C129_systematic_survivors, C102_stratified_error, C102_killing_error, C102_systematic_error_refuted, C102_systematic_rate_refuted, C11_library_schemes_exact, C48_unknown_task_rejected, C52_standardise, C52_constant_column, C73_window_law, C74_keys, C75_range, C75_channelwise_refuted, C43_implementations_agree, C43_loss_nonneg_zero_iff, C43_discrete_loss_agrees, C43_discrete_loss_nonneg, C14_alpha_exact_iff_partial, C13_force_move_reversible, C13_force_move_invariant, C13_force_move_range, C64_force_move_above_threshold_refuted, C14_alpha_in_unit_interval, C14_alpha_upper_bound, C14_alpha_exact_partial, C14_alpha_refuted, C27_pcn_keys_used_once, C134_proper_start, C134_gp_posterior_sampler_refuted, C58_convex, C58_softmax, C58_norm_over_positions, C58_unit_vectors_refuted, C79_linear_attention, C141_gap_decays, C04_systematic_unbiased, C04_stratified_unbiased, C04_systematic_additive, C04_stratified_additive, C05_killing_law, C05_killing_unbiased, C07_multinomial_conditional_law, C07_killing_conditional_law, C07_killing_slot_marginal, C08_choice_law, C08_uniform_choice_law, C92_transition_draw, C93_csgm_shape, C99_marginal_moments, C99_keys_used_once, C99_reverse_step, C130_moves, C119_terms, C114_chains_independent, C115_mean_unbiased, C115_cov_unbiased, C115_mean_error, C115_chain_mean, C115_chain_cov_refuted, C29_discretisation_composes, C29_discretisation_identity, C29_discretisation_defined, C30_what_is_returned, C30_zero_drift_not_supported, C32_mean_variance_methods, C32_stationary_law, C32_exponential_has_no_methods, C34_path_shape, C34_path_explicit, C34_path_mean, C34_marginal_scalar_time, C34_marginals_array_shape_refuted, C34_ou_marginals, C35_ou_helpers, C35_constant_schedule, C35_losses_agree, C42_loss_nonneg_zero_iff, C42_ipf_target, C42_save_mem_score, C42_save_mem_ipf_refuted, C37_path_shape, C37_times_inside, C37_equal_substeps, C37_decreasing_one_substep, C37_decreasing_times_refuted, C38_reverse_times, C38_reverse_times_from_zero, C38_shifted_grid_refuted, C38_reverse_step, C40_exact_simulation, C40_euler_scheme, C70_bridge_hits_both_ends, C71_keys_used_once, C21_library_schemes, C23_pcn_moments, C23_pcn_program, C23_pcn_gaussian_reversible, C23_pcn_conditional_moments, C136_cholesky, C136_bridge_solve, C136_bridge_factor, C62_row_draw_iff_refuted, C85_gp_regression, C88_reference_moments, C89_refuted, C90_transition_draw, C98_defined_iff_refuted, C98_starts_at_lr, C98_never_increases, C98_range, C98_ends_at_floor, C98_bridge_first_partial, C98_bridge_refuted, C104_denoising_linear, C104_final_twisting_data, C110_stratified, C128_visits, C127_merged, C122_kernel, C122_unit_variance_refuted, C122_constant, C122_factor_refuted, C122_constant_kernel, C122_bound, C122_brighter_partial, C122_brighter_border_refuted, C124_resnet_change, C59_bures_lower_bound, C59_bures_attained, C59_bures_nonneg, C59_bures_zero_iff, C83_sqrtm, C83_sqrtm_unique.
* `ClassicalDedekindReals.sig_forall_dec`, `ClassicalDedekindReals.sig_not_dec`, `Classical_Prop.classic`, `FunctionalExtensionality.functional_extensionality_dep` — 256 theorems: C137_column_exists, C129_tags_are_harmless, C129_ancestors_nested, C129_multinomial_coalesces_partial, C129_multinomial_rate_partial, C129_coalescence_refuted, C129_parents, C129_particle_trajectory_refuted, C129_figure_shows_ancestors_refuted, C102_multinomial_error, C103_bootstrap_filter_error, C103_bootstrap_filter_consistent, C103_bootstrap_filter_probability, C103_pmcmc_filter_error, C103_library_schemes, C143_conditional_law, C143_refuted, C143_limit, C09_forward_pass_keeps_reference, C10_returns_genuine_path, C11_csmc_reversible, C11_csmc_invariant, C12_backward_sampling_invariant_refuted, C12_backward_sampling_reversible_partial, C12_backward_sampling_invariant_partial, C53_likelihood, C53_prior_refuted, C53_prior_of_draws_refuted, C53_score, C53_score_refuted, C53_posterior_positive, C53_posterior_mass, C53_posterior_mass_refuted, C139_before_end, C139_end_point, C139_hits_target_refuted, C112_forward_converges, C112_reverse_converges, C112_exact_refuted, C113_euler_step_refuted, C105_path_law_ignores_reference_indices, C106_chain_converges, C106_chain_limit, C17_explicit_final_partial, C65_smoother_keys_refuted, C66_smoother_with_likelihood_partial, C66_smoother_constant_likelihood_partial, C68_refreshed_indices_every_model_refuted, C146_posterior_covariance, C146_defined, C146_script_refuted, C147_posterior_mean, C147_diffusion_paths, C148_refuted, C148_exact_filter, C148_script_refuted, C109_reported_sample_refuted, C109_any_slot_killing_partial, C109_reported_sample_killing_partial, C41_moment_equations, C72_riccati, C15_gibbs_tracing_invariant, C16_gibbs_explicit_invariant, C16_gibbs_bounded_likelihood, C17_explicit_final_refuted, C18_gibbs_bookkeeping, C18_us_star_unused, C68_refreshed_indices_refuted, C67_gibbs_init_filter_consistent, C67_gibbs_init_smoother_refuted, C27_keys_used_once, C27_twisted_keys_used_once, C27_gibbs_init_keys_used_once, C27_library_schemes, C65_smoother_key_reuse_refuted, C66_smoother_law_refuted, C28_gibbs_init_methods, C28_log_flag_refuted, C28_twisted_times_refuted, C107_new_state_depends_on_old_state_only, C108_gibbs_chain_converges, C134_any_start_killing, C134_separable_start, C134_heuristic_start_refuted, C134_gp_posterior_defined, C118_psnr, C118_hidden, C118_mean_psnr, C118_exact_sampler_best_refuted, C145_covariance_collapses, C145_refuted, C145_defined, C144_kl_sandwich, C144_column_exists, C144_column_defined, C144_column_small, C144_no_value, C132_crescent_shape, C132_crescent_rows, C132_gmsb_shape, C132_gmsb_rows, C132_crescent_space, C132_crescent_bounded_sets, C132_gmsb_lipschitz, C132_classic_lipschitz, C132_autoencoder_lipschitz, C132_crescent_time_refuted, C132_sampler, C133_shape, C133_rows, C133_lipschitz, C133_bounded, C133_affine_score_refuted, C55_embedding, C55_injective, C55_odd_raises, C82_other_lengths_refuted, C82_mixed_times_refuted, C111_paths_converge, C111_rate, C111_pairs_converge_killing_partial, C111_stratified_refuted, C61_stuck_refuted, C84_image_start_stuck_refuted, C141_end_law, C141_only_the_marginal, C142_end_law, C142_refuted, C142_right_iff_identity, C142_drift_defined, C01_multinomial_valid, C101_multinomial_law, C101_expected_copies, C101_first_index, C92_joint_density, C93_twisted_refuted, C99_joint_law_refuted, C131_filter_target_error, C131_conditional_sampler_error, C130_step, C130_divergence, C130_bounds, C130_unet, C130_filter_densities, C140_forward_path, C140_reverse_path, C140_ends, C138_least_energy, C138_slope, C138_example, C119_score_is_mean, C119_score_loss, C119_ipfscore_loss, C119_ipf_loss, C119_ipf_prev_mean_refuted, C119_dsb_cont, C119_dsb_disc, C119_loss_positive, C114_gibbs_run_keys, C114_pmcmc_run_keys, C114_filter_run_keys, C114_twisted_run_keys, C114_pmcmc_chains_independent, C114_filter_samples_iid, C114_twisted_samples_iid, C30_transition_solves_mean_equation, C30_variance_solves_variance_equation, C30_variance_nonneg, C31_schedule_integral, C33_score_is_gradient, C33_gauss_logpdf, C34_path_covariance, C34_marginals_array_values_refuted, C34_ou_marginals_shifted_refuted, C35_shifted_loss_refuted, C36_bridge_drift_is_h_transform, C42_loss_total, C39_bridge_ends, C39_terminal_time_not_used, C39_bridge_regular_before_end, C69_reverse_marginals, C70_bridge_moments, C19_library_schemes, C19_bootstrap_filter_unbiased, C20_pmcmc_filter_unbiased, C21_pseudo_marginal_invariant, C21_paths_exact, C22_kept_particle_fair_killing_partial, C22_kept_particle_fair_refuted, C24_metropolis_all_or_nothing, C24_acceptance_probability, C25_instrumented_is_twisted_smc, C25_twisted_smc_properly_weighted, C25_weights_normalised, C26_smoother_members, C26_smoother_law, C136_eigh_total, C136_sqrtm_total, C136_bures_total, C136_bridge_roots_exist, C136_bridge_moments, C136_bridge_optimal, C62_scripts_refuted, C62_scripts_defined, C61_negated_value_partial, C61_refuted, C61_right_sign, C61_first_acceptance_refuted, C84_gp_pmcmc_refuted, C84_images_refuted, C85_conditioning, C85_defined, C86_kernel, C86_forward, C86_kernel_factor, C87_forward, C87_gp_reverse, C87_sb_reverse, C88_conditional_drift, C88_drift_defined, C90_densities_factor, C90_transition_density, C91_refuted, C98_exp, C104_guided_drift, C104_final_twisting_refuted, C104_inverse_exists, C104_denoising_mean_refuted, C104_image_variance_refuted, C110_weighted_average_error, C110_reported_sample_bias, C110_single_particle, C128_pathwise, C128_moments, C125_lipschitz, C125_continuous, C126_initial_value, C126_second_moment, C127_substeps, C127_runs, C127_laws, C123_separate, C123_shapes, C124_linear_growth, C59_kl_is_twice_KL, C59_kl_refuted, C59_kl_total, C59_kl_nonneg, C59_kl_zero_iff, C60_exact, C60_unique, C60_compose, C60_integral, C60_symmetric, C60_psd, C60_scalar_ou.
