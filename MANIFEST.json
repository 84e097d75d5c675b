{
 "claims": [
  {
   "property": "C01",
   "status": "proved",
   "theorems": [
    "C01_systematic_valid",
    "C01_stratified_valid",
    "C01_multinomial_valid"
   ],
   "note": "Holds for every non-empty weight vector, normalised or not."
  },
  {
   "property": "C02",
   "status": "proved",
   "theorems": [
    "C02_systematic_offspring",
    "C02_zero_weight_never_selected",
    "C02_strict_bound_at_zero_refuted"
   ],
   "note": "Strict bound for u>0; at u=0 the bound 1 is attained (refutation of the strict form at u=0 included)."
  },
  {
   "property": "C03",
   "status": "proved",
   "theorems": [
    "C03_stratified_offspring",
    "C03_heavy_particles_survive"
   ],
   "note": ""
  },
  {
   "property": "C04",
   "status": "proved",
   "theorems": [
    "C04_systematic_unbiased",
    "C04_stratified_unbiased",
    "C04_systematic_additive",
    "C04_stratified_additive"
   ],
   "note": ""
  },
  {
   "property": "C05",
   "status": "proved",
   "theorems": [
    "C05_killing_law",
    "C05_killing_unbiased",
    "C05_killing_valid",
    "C05_killing_identity_on_equal_weights"
   ],
   "note": ""
  },
  {
   "property": "C06",
   "status": "proved",
   "theorems": [
    "C06_multinomial_pins",
    "C06_killing_pins",
    "C06_systematic_conditional_raises",
    "C06_systematic_uncond_matches",
    "C06_systematic_uncond_range_refuted"
   ],
   "note": "Also: the unconditional systematic draw of csmc/resamplings.py has no clip, out of range when weights sum to less than 1 (refuted)."
  },
  {
   "property": "C07",
   "status": "proved",
   "theorems": [
    "C07_multinomial_conditional_law",
    "C07_killing_conditional_law",
    "C07_multinomial_slot_marginal",
    "C07_killing_slot_marginal"
   ],
   "note": ""
  },
  {
   "property": "C08",
   "status": "proved",
   "theorems": [
    "C08_choice_law",
    "C08_choice_range",
    "C08_uniform_choice_law"
   ],
   "note": ""
  },
  {
   "property": "C09",
   "status": "proved",
   "theorems": [
    "C09_forward_pass_keeps_reference",
    "C09_library_schemes"
   ],
   "note": ""
  },
  {
   "property": "C10",
   "status": "proved",
   "theorems": [
    "C10_returns_genuine_path"
   ],
   "note": ""
  },
  {
   "property": "C11",
   "status": "proved",
   "theorems": [
    "C11_library_schemes_exact",
    "C11_csmc_reversible",
    "C11_csmc_invariant"
   ],
   "note": "Detailed balance (stronger) as well as invariance, for any conditional scheme satisfying C07; both library schemes are shown to."
  },
  {
   "property": "C12",
   "status": "partial",
   "theorems": [
    "C12_backward_sampling_invariant_refuted",
    "C12_backward_sampling_reversible_partial",
    "C12_backward_sampling_invariant_partial"
   ],
   "note": "False of the code in general: the backward weights omit the likelihood factor of the following step (refuted theorem: a model meeting every hypothesis of C11 for which the smoothing law is not preserved). Proved, for every model, number of particles and horizon, when the likelihoods after the first step are constant in the particle, resampling is multinomial and transition_logpdf is the log-density of the transition kernel: the kernel is then reversible, hence invariant."
  },
  {
   "property": "C13",
   "status": "proved",
   "theorems": [
    "C13_force_move_reversible",
    "C13_force_move_invariant",
    "C13_force_move_range"
   ],
   "note": "Threshold condition stated literally; above the threshold see C64."
  },
  {
   "property": "C14",
   "status": "partial",
   "theorems": [
    "C14_alpha_exact_iff_partial",
    "C14_alpha_in_unit_interval",
    "C14_alpha_upper_bound",
    "C14_alpha_exact_partial",
    "C14_alpha_refuted"
   ],
   "note": "alpha lies in [0,1] and bounds the acceptance probability from above (both proved). Equality is characterised exactly below the degeneracy threshold: it holds iff the current index is a heaviest one or a lightest one among those with weight (C14_alpha_exact_iff_partial); false otherwise (refuted): the per-term minimum of the acceptance ratio is replaced by a clipping of the sum."
  },
  {
   "property": "C15",
   "status": "proved",
   "theorems": [
    "C15_gibbs_tracing_invariant"
   ],
   "note": "Compatibility of the noising and reverse models is a hypothesis (compatible), met by the example for every particle number."
  },
  {
   "property": "C16",
   "status": "proved",
   "theorems": [
    "C16_gibbs_explicit_invariant",
    "C16_gibbs_bounded_likelihood"
   ],
   "note": "The weights must stay below the forced-move threshold (or equal 1); shown to follow from bounded likelihood ratios."
  },
  {
   "property": "C17",
   "status": "partial",
   "theorems": [
    "C17_explicit_final_partial",
    "C17_explicit_final_refuted"
   ],
   "note": "False of the code: the refuted theorem gives a model for which the kernel is exact with explicit_final=False and not with True. C17_explicit_final_partial says what is preserved with explicit_final=True, for every model: the law of x0 for which (us, vs) follows the smoothing law started in the reference law and weighted at the initial time by the likelihood with its two observations exchanged (as the code calls it), provided the indices are uniform over nparticles+1 slots; the refreshed indices are uniform over nparticles only."
  },
  {
   "property": "C18",
   "status": "proved",
   "theorems": [
    "C18_gibbs_bookkeeping",
    "C18_us_star_unused"
   ],
   "note": ""
  },
  {
   "property": "C19",
   "status": "proved",
   "theorems": [
    "C19_library_schemes",
    "C19_bootstrap_filter_unbiased"
   ],
   "note": "For every resampling scheme that is unbiased and returns valid indices; systematic, stratified, killing and the sorted-uniform multinomial scheme are shown to be such."
  },
  {
   "property": "C20",
   "status": "proved",
   "theorems": [
    "C20_pmcmc_filter_unbiased"
   ],
   "note": ""
  },
  {
   "property": "C21",
   "status": "proved",
   "theorems": [
    "C21_pseudo_marginal_invariant",
    "C21_independent_proposals",
    "C21_library_schemes",
    "C21_paths_exact"
   ],
   "note": "Proposal law finitely supported and reversible; independent proposals shown to qualify. systematic, stratified, killing shown to meet the hypothesis on the scheme."
  },
  {
   "property": "C22",
   "status": "partial",
   "theorems": [
    "C22_kept_particle_fair_killing_partial",
    "C22_kept_particle_fair_refuted"
   ],
   "note": "False of the code for stratified, systematic and (sorted) multinomial resampling (C22_..._refuted, every key); proved for killing, every which_u."
  },
  {
   "property": "C23",
   "status": "proved",
   "theorems": [
    "C23_pcn_moments",
    "C23_pcn_program",
    "C23_pcn_gaussian_reversible",
    "C23_pcn_conditional_moments"
   ],
   "note": "Moments for finitely supported draws, coordinatewise; Gaussian detailed balance as an identity between densities."
  },
  {
   "property": "C24",
   "status": "proved",
   "theorems": [
    "C24_metropolis_all_or_nothing",
    "C24_acceptance_probability"
   ],
   "note": ""
  },
  {
   "property": "C25",
   "status": "proved",
   "theorems": [
    "C25_instrumented_is_twisted_smc",
    "C25_twisted_smc_properly_weighted",
    "C25_weights_normalised"
   ],
   "note": ""
  },
  {
   "property": "C26",
   "status": "proved",
   "theorems": [
    "C26_smoother_members",
    "C26_smoother_law"
   ],
   "note": ""
  },
  {
   "property": "C27",
   "status": "proved",
   "theorems": [
    "C27_keys_used_once",
    "C27_twisted_keys_used_once",
    "C27_pcn_keys_used_once",
    "C27_gibbs_init_keys_used_once",
    "C27_library_schemes"
   ],
   "note": "For every model function that uses only the key it is given; the smoother is C65 (refuted)."
  },
  {
   "property": "C28",
   "status": "partial",
   "theorems": [
    "C28_gibbs_init_methods",
    "C28_log_flag_refuted",
    "C28_twisted_times_refuted"
   ],
   "note": "gibbs_init rejects unknown methods (proved); the log flag is ignored (refuted); twisted_smc passes the time of the arrival state (refuted)."
  },
  {
   "property": "C29",
   "status": "proved",
   "theorems": [
    "C29_discretisation_composes",
    "C29_discretisation_identity",
    "C29_discretisation_defined"
   ],
   "note": "Definedness characterised: None (a raise or a zero divisor) exactly for a=0, c=0, T=t0 or an unknown class."
  },
  {
   "property": "C30",
   "status": "proved",
   "theorems": [
    "C30_transition_solves_mean_equation",
    "C30_variance_solves_variance_equation",
    "C30_what_is_returned",
    "C30_variance_nonneg",
    "C30_zero_drift_not_supported"
   ],
   "note": "Derivatives in the sense of Coquelicot is_derive. A zero drift coefficient (Brownian motion) is not supported: division by zero."
  },
  {
   "property": "C31",
   "status": "proved",
   "theorems": [
    "C31_schedule",
    "C31_schedule_range",
    "C31_schedule_integral"
   ],
   "note": ""
  },
  {
   "property": "C32",
   "status": "proved",
   "theorems": [
    "C32_mean_variance_methods",
    "C32_stationary_law",
    "C32_exponential_has_no_methods"
   ],
   "note": "The exponential class has no mean/variance methods."
  },
  {
   "property": "C33",
   "status": "proved",
   "theorems": [
    "C33_score_is_gradient",
    "C33_gauss_logpdf"
   ],
   "note": ""
  },
  {
   "property": "C34",
   "status": "partial",
   "theorems": [
    "C34_path_shape",
    "C34_path_explicit",
    "C34_path_mean",
    "C34_path_covariance",
    "C34_marginal_scalar_time",
    "C34_marginals_array_default_t0_refuted",
    "C34_marginals_array_shape_refuted",
    "C34_marginals_array_values_refuted",
    "C34_ou_marginals",
    "C34_ou_marginals_shifted_refuted"
   ],
   "note": "keep_path=True proved: explicit affine form in the noise, means and covariances for any white noise with independent rows. keep_path=False proved for a scalar time and for the OU helper from time 0. The documented array-of-times form of keep_path=False is refuted: default t0 fails, n<>d fails, n=d pairs times with coordinates; the OU helper is refuted when ts[0]<>0."
  },
  {
   "property": "C35",
   "status": "proved",
   "theorems": [
    "C35_ou_helpers",
    "C35_constant_schedule",
    "C35_losses_agree",
    "C35_shifted_loss_refuted"
   ],
   "note": "The loss agreement needs ts[0]=0; for ts[0]=1 a counterexample is proved."
  },
  {
   "property": "C36",
   "status": "proved",
   "theorems": [
    "C36_bridge_drift_is_h_transform"
   ],
   "note": "For the constant and linear-schedule classes, the only ones with bridge_drift."
  },
  {
   "property": "C37",
   "status": "partial",
   "theorems": [
    "C37_path_shape",
    "C37_times_inside",
    "C37_equal_substeps",
    "C37_decreasing_one_substep",
    "C37_decreasing_overshoot_refuted",
    "C37_decreasing_times_refuted"
   ],
   "note": "Proved for increasing grids with any number of sub-steps, and for decreasing grids with one sub-step. For decreasing grids with two or more sub-steps the claim is false: the sub-steps overshoot (C37_decreasing_overshoot_refuted, C37_decreasing_times_refuted)."
  },
  {
   "property": "C38",
   "status": "partial",
   "theorems": [
    "C38_reverse_times",
    "C38_reverse_times_from_zero",
    "C38_shifted_grid_refuted",
    "C38_reverse_step"
   ],
   "note": "Times lie in [0, ts[-1]-ts[0]] shifted by the code; the claim holds when ts[0]=0 and is false otherwise (C38_shifted_grid_refuted)."
  },
  {
   "property": "C39",
   "status": "proved",
   "theorems": [
    "C39_bridge_ends",
    "C39_terminal_time_not_used",
    "C39_bridge_regular_before_end"
   ],
   "note": "Bridge ends, evaluation times strictly before T, and regular coefficients before T."
  },
  {
   "property": "C40",
   "status": "proved",
   "theorems": [
    "C40_exact_simulation",
    "C40_euler_scheme"
   ],
   "note": ""
  },
  {
   "property": "C41",
   "status": "proved",
   "theorems": [
    "C41_end_points",
    "C41_cov_symmetric",
    "C41_moment_equations"
   ],
   "note": "sqrtm, solve and cho_solve are represented by their defining equations (hypotheses library_roots, inverse_at)."
  },
  {
   "property": "C42",
   "status": "partial",
   "theorems": [
    "C42_loss_nonneg_zero_iff",
    "C42_ipf_target",
    "C42_loss_total",
    "C42_grid",
    "C42_save_mem_score",
    "C42_save_mem_ipf_refuted"
   ],
   "note": "The plain loss and the memory-saving score loss are proved >=0 and 0 iff the network returns the conditional quantity. The clause that the memory-saving variant accepts the same loss types is refuted: the ipf losses fail for every batch not of shape (2,2)."
  },
  {
   "property": "C43",
   "status": "proved",
   "theorems": [
    "C43_implementations_agree",
    "C43_loss_nonneg_zero_iff",
    "C43_discrete_loss_agrees",
    "C43_discrete_loss_nonneg"
   ],
   "note": "Also relates the discretised loss to the continuous one."
  },
  {
   "property": "C44",
   "status": "proved",
   "theorems": [
    "C44_inpaint_mask"
   ],
   "note": "The window is cut to the image when it does not fit."
  },
  {
   "property": "C45",
   "status": "proved",
   "theorems": [
    "C45_supr_mask",
    "C45_other_rates_rejected",
    "C45_unknown_task_rejected"
   ],
   "note": "Also: other rates raise, unknown tasks are rejected."
  },
  {
   "property": "C46",
   "status": "partial",
   "theorems": [
    "C46_round_trip",
    "C46_channels",
    "C46_every_mask_refuted",
    "C46_supr_round_trip_partial",
    "C46_supr_round_trip_refuted"
   ],
   "note": "Proved for inpainting, and for super-resolution exactly when the rate divides both sides or is at least as large as both (nothing is observed then). For every other size gen_mask raises or gives a mask for which the round trip fails, whatever the draw (C46_supr_round_trip_refuted; C46_every_mask_refuted: 3x2 image at rate 2)."
  },
  {
   "property": "C47",
   "status": "partial",
   "theorems": [
    "C47_inpaint_shape",
    "C47_supr_shape",
    "C47_large_window_refuted",
    "C47_supr_shape_refuted"
   ],
   "note": "Proved when the window fits or the rate divides both sides; false otherwise (C47_large_window_refuted, C47_supr_shape_refuted: for every other rate gen_mask raises, the announced shape is wrong, or the mask has more indices than pixels)."
  },
  {
   "property": "C48",
   "status": "proved",
   "theorems": [
    "C48_paint",
    "C48_unknown_task_rejected",
    "C48_oversized_refuted"
   ],
   "note": "For rectangles larger than the image (outside the claim) C48_oversized_refuted shows what happens instead."
  },
  {
   "property": "C49",
   "status": "proved",
   "theorems": [
    "C49_downsample"
   ],
   "note": ""
  },
  {
   "property": "C50",
   "status": "proved",
   "theorems": [
    "C50_clip",
    "C50_norm",
    "C50_constant_channel_refuted"
   ],
   "note": "Constant channels (outside the claim) become NaN."
  },
  {
   "property": "C51",
   "status": "proved",
   "theorems": [
    "C51_batches",
    "C51_epoch",
    "C51_tail_never_used",
    "C51_small_data_error",
    "C51_training_visits"
   ],
   "note": "Also: the tail of the data is never used; n < batch_size raises."
  },
  {
   "property": "C52",
   "status": "proved",
   "theorems": [
    "C52_standardise",
    "C52_constant_column",
    "C52_reshape",
    "C52_draw_subset"
   ],
   "note": ""
  },
  {
   "property": "C53",
   "status": "partial",
   "theorems": [
    "C53_likelihood",
    "C53_prior_refuted",
    "C53_prior_of_draws_refuted",
    "C53_score",
    "C53_score_refuted",
    "C53_posterior_positive",
    "C53_posterior_mass",
    "C53_posterior_mass_refuted"
   ],
   "note": "Likelihood and positivity proved; unit mass proved for uniform meshes. The prior clause is false (standard deviation and variance of the first coordinate are mixed up: C53_prior_refuted), and so is unit mass on non-uniform meshes. Crescent.score is the gradient of the code's own log joint density, but not the score of the law the sampler draws from: the first component is off by phi_0/4."
  },
  {
   "property": "C54",
   "status": "proved",
   "theorems": [
    "C54_pixel_shuffle",
    "C54_invertible",
    "C54_other_channels_rejected"
   ],
   "note": "The index maps of both directions are given and inverse to each other."
  },
  {
   "property": "C55",
   "status": "proved",
   "theorems": [
    "C55_embedding",
    "C55_injective",
    "C55_odd_raises",
    "C55_two_dimensions_refuted"
   ],
   "note": "Injective for times less than 2 pi max_period apart. out_dim = 2 (outside the claim) gives NaN."
  },
  {
   "property": "C56",
   "status": "proved",
   "theorems": [
    "C56_unet"
   ],
   "note": "Stated as an equivalence; also covers the other conditions (even dim, time length, method name, groups). A batch of one is squeezed. Shape level only: numbers inside the layers are not modelled."
  },
  {
   "property": "C57",
   "status": "proved",
   "theorems": [
    "C57_closed_form",
    "C57_before_start",
    "C57_step",
    "C57_range",
    "C57_zero_every_raises"
   ],
   "note": "On one coordinate; array operations are elementwise."
  },
  {
   "property": "C58",
   "status": "partial",
   "theorems": [
    "C58_convex",
    "C58_between",
    "C58_softmax",
    "C58_norm_over_positions",
    "C58_unit_vectors_refuted"
   ],
   "note": "Convex combinations proved. The unit vector clause is false: l2norm with axis=1 normalises over positions (C58_norm_over_positions, C58_unit_vectors_refuted)."
  },
  {
   "property": "C59",
   "status": "partial",
   "theorems": [
    "C59_kl_is_twice_KL",
    "C59_kl_refuted",
    "C59_kl_total",
    "C59_kl_nonneg",
    "C59_kl_zero_iff",
    "C59_bures_lower_bound",
    "C59_bures_attained",
    "C59_bures_nonneg",
    "C59_bures_zero_iff"
   ],
   "note": "bures_dist proved to be the squared Wasserstein distance in every dimension. kl is twice the divergence (C59_kl_is_twice_KL), so the claim for kl is false (C59_kl_refuted); non-negativity and vanishing exactly at equality proved. cho_factor, cho_solve and eigh enter by their defining equations."
  },
  {
   "property": "C60",
   "status": "proved",
   "theorems": [
    "C60_exact",
    "C60_unique",
    "C60_compose",
    "C60_integral",
    "C60_symmetric",
    "C60_psd",
    "C60_scalar_ou"
   ],
   "note": "expm is the power series. Exactness, uniqueness, composition, the integral formula, symmetry, positivity and the scalar formulas are proved for all sizes."
  },
  {
   "property": "C61",
   "status": "partial",
   "theorems": [
    "C61_stuck_refuted",
    "C61_negated_value_partial",
    "C61_refuted",
    "C61_right_sign",
    "C61_first_acceptance_refuted"
   ],
   "note": "False: pmcmc_init of gp_pmcmc.py hands over the negative log-likelihood of bootstrap_filter. exp of minus the value is unbiased (C61_negated_value_partial); the first acceptance ratio multiplies the two likelihoods instead of dividing them. Started there the chain has not moved after m steps with probability at least (1 - G^(2T))^m when the likelihoods are at most G <= 1 (C61_stuck_refuted)."
  },
  {
   "property": "C62",
   "status": "partial",
   "theorems": [
    "C62_column_draw",
    "C62_row_draw_partial",
    "C62_row_draw_iff_refuted",
    "C62_scripts_refuted",
    "C62_scripts_defined"
   ],
   "note": "False: mean + noise @ cholesky(cov) has covariance L^T L, equal to cov exactly for diagonal cov (so right for Crescent), and never in the GP scripts with two or more grid points. gp_twisted.py (cholesky @ noise) is right."
  },
  {
   "property": "C63",
   "status": "proved",
   "theorems": [
    "C63_avg_length",
    "C63_avg_entries",
    "C63_avg_mass",
    "C63_avg_nonneg"
   ],
   "note": ""
  },
  {
   "property": "C64",
   "status": "partial",
   "theorems": [
    "C64_force_move_above_threshold_refuted"
   ],
   "note": "False of the code: refuted with weights (1-1e-13, 1e-13)."
  },
  {
   "property": "C65",
   "status": "partial",
   "theorems": [
    "C65_smoother_keys_refuted",
    "C65_smoother_key_reuse_refuted"
   ],
   "note": "False of the code: the key passed in is both consumed and split (refuted; C65_smoother_keys_refuted gives the exact keys for every model and length)."
  },
  {
   "property": "C66",
   "status": "partial",
   "theorems": [
    "C66_smoother_with_likelihood_partial",
    "C66_smoother_constant_likelihood_partial",
    "C66_smoother_law_refuted"
   ],
   "note": "False of the code: the backward weights omit the measurement factor (refuted). Proved, for every model and length: the smoothing law results if the density handed over carries the likelihood of the next measurement, in particular if likelihoods do not depend on the state."
  },
  {
   "property": "C67",
   "status": "partial",
   "theorems": [
    "C67_gibbs_init_filter_consistent",
    "C67_gibbs_init_smoother_refuted"
   ],
   "note": "Proved for method filter; false of the code for smoother (refuted)."
  },
  {
   "property": "C68",
   "status": "partial",
   "theorems": [
    "C68_refreshed_indices_every_model_refuted",
    "C68_refreshed_indices_refuted"
   ],
   "note": "False of the code: the refreshed indices never equal nparticles (refuted for every model and number of particles)."
  },
  {
   "property": "C69",
   "status": "proved",
   "theorems": [
    "C69_reverse_marginals"
   ],
   "note": ""
  },
  {
   "property": "C70",
   "status": "proved",
   "theorems": [
    "C70_bridge_moments",
    "C70_bridge_hits_both_ends"
   ],
   "note": ""
  },
  {
   "property": "C71",
   "status": "proved",
   "theorems": [
    "C71_keys_used_once"
   ],
   "note": "For every normal sampler which itself respects the key discipline."
  },
  {
   "property": "C72",
   "status": "proved",
   "theorems": [
    "C72_gradient_drift",
    "C72_riccati",
    "C72_cross_covariance"
   ],
   "note": "sqrtm, solve and cho_solve are represented by their defining equations (hypotheses library_roots, inverse_at)."
  },
  {
   "property": "C73",
   "status": "partial",
   "theorems": [
    "C73_corners_never_hidden_refuted",
    "C73_window_law"
   ],
   "note": "False: on square images three corners can never be hidden (C73_corners_never_hidden_refuted)."
  },
  {
   "property": "C74",
   "status": "proved",
   "theorems": [
    "C74_keys"
   ],
   "note": "Crescent.sampler for every normal sampler which itself respects the key discipline."
  },
  {
   "property": "C75",
   "status": "partial",
   "theorems": [
    "C75_range",
    "C75_channelwise_refuted"
   ],
   "note": "The range is proved; the channel-wise clause is false: all output channels coincide (C75_channelwise_refuted)."
  },
  {
   "property": "C76",
   "status": "proved",
   "theorems": [
    "C76_restore_sample"
   ],
   "note": ""
  },
  {
   "property": "C77",
   "status": "partial",
   "theorems": [
    "C77_torch_one_channel",
    "C77_more_channels_refuted"
   ],
   "note": "Proved for one output channel; false for two or more."
  },
  {
   "property": "C78",
   "status": "partial",
   "theorems": [
    "C78_last_epoch_only_refuted",
    "C78_short_epochs_refuted"
   ],
   "note": "False: the counter handed over restarts with every epoch, so the average only sees the last epoch, and is the plain parameter when an epoch has at most 300 steps."
  },
  {
   "property": "C79",
   "status": "proved",
   "theorems": [
    "C79_linear_attention"
   ],
   "note": ""
  },
  {
   "property": "C80",
   "status": "partial",
   "theorems": [
    "C80_default_network_refuted",
    "C80_single_vector",
    "C80_batch_of_times_refuted",
    "C80_auto_encoder_refuted"
   ],
   "note": "False: the embedding of a scalar time has no batch axis, the concatenation raises. Works on single vectors."
  },
  {
   "property": "C81",
   "status": "partial",
   "theorems": [
    "C81_pixel_shuffle_decoder",
    "C81_other_decoder_refuted"
   ],
   "note": "Proved for pixel_shuffle; the other branch refers to a missing attribute and always raises."
  },
  {
   "property": "C82",
   "status": "partial",
   "theorems": [
    "C82_other_lengths_refuted",
    "C82_mixed_times_refuted"
   ],
   "note": "False: raises unless there are one or out_dim/2 times; in the latter case time i is only used with frequency i."
  },
  {
   "property": "C83",
   "status": "proved",
   "theorems": [
    "C83_sqrtm",
    "C83_sqrtm_unique"
   ],
   "note": "method='eigh' (the default); the other method calls scipy and is not modelled."
  },
  {
   "property": "C84",
   "status": "partial",
   "theorems": [
    "C84_image_start_stuck_refuted",
    "C84_gp_pmcmc_refuted",
    "C84_images_refuted"
   ],
   "note": "False: gp_pmcmc.py filters one path and returns another; the image scripts start with x0 = 0 and log_ell = 0. From log_ell = 0 the image chain has not moved after m steps with probability at least (1 - G^T)^m (C84_image_start_stuck_refuted)."
  },
  {
   "property": "C85",
   "status": "proved",
   "theorems": [
    "C85_conditioning",
    "C85_defined",
    "C85_gp_regression"
   ],
   "note": ""
  },
  {
   "property": "C86",
   "status": "proved",
   "theorems": [
    "C86_kernel",
    "C86_grid",
    "C86_joint",
    "C86_forward",
    "C86_kernel_factor"
   ],
   "note": ""
  },
  {
   "property": "C87",
   "status": "proved",
   "theorems": [
    "C87_forward",
    "C87_gp_reverse",
    "C87_sb_reverse"
   ],
   "note": "Means and covariances (the processes are Gaussian); inverse of the marginal covariance by its defining equations."
  },
  {
   "property": "C88",
   "status": "proved",
   "theorems": [
    "C88_conditional_drift",
    "C88_drift_defined",
    "C88_reference_moments"
   ],
   "note": "jax.grad is the true gradient, inverses by their defining equations."
  },
  {
   "property": "C89",
   "status": "partial",
   "theorems": [
    "C89_draw_covariance",
    "C89_refuted"
   ],
   "note": "False: the draw multiplies the noise by the covariance instead of its factor, the covariance is cond_cov_ref squared; right only for the identity."
  },
  {
   "property": "C90",
   "status": "proved",
   "theorems": [
    "C90_densities_factor",
    "C90_transition_density",
    "C90_transition_draw"
   ],
   "note": ""
  },
  {
   "property": "C91",
   "status": "partial",
   "theorems": [
    "C91_refuted"
   ],
   "note": "False: the innovation uses the Jacobian in v instead of u, standard deviations in place of variances, and the predicted u in the observation mean. Witness with exact numbers bounded."
  },
  {
   "property": "C92",
   "status": "proved",
   "theorems": [
    "C92_joint_density",
    "C92_transition_draw"
   ],
   "note": "Pixels are lists of channels; the network enters as an arbitrary map of images to images of the same shape."
  },
  {
   "property": "C93",
   "status": "partial",
   "theorems": [
    "C93_restored_keep_observed",
    "C93_csgm_shape",
    "C93_twisted_refuted"
   ],
   "note": "Proved for filter, gibbs, pmcmc and the score-based sampler (any step that returns an unobserved part of the right length). False for the twisted sampler, which keeps its final image as it is (C93_twisted_refuted, universally quantified: if no proposal carries the observation, no restored image does)."
  },
  {
   "property": "C94",
   "status": "partial",
   "theorems": [
    "C94_same_key_partition",
    "C94_sizes",
    "C94_same_seed_disjoint_partial",
    "C94_two_keys_iff",
    "C94_scripts_refuted",
    "C94_expected_leak_refuted"
   ],
   "note": "Holds when both runs use the same key. The scripts use different seeds (666 for training, 996 for testing), so the two shuffles are unrelated: refuted, every test image can have been a training image, and on average a fraction 1-1000/n of them were (29/30 for n = 30000)."
  },
  {
   "property": "C95",
   "status": "partial",
   "theorems": [
    "C95_same_test_images",
    "C95_keys_used_once",
    "C95_all_processed",
    "C95_resume_refuted",
    "C95_resume_differs_refuted",
    "C95_restoration_keys",
    "C95_dataset_key"
   ],
   "note": "Same test images and single use of keys proved. Resuming is false: the sampler keys are counted from the first processed image, so image sf+i of the resumed run uses the keys of image i of the full run. Also proved: for any sampler using its key properly, restoring one test image consumes exactly the keys the loop hands to it, each once, and the data set key is unrelated to every other key of the script."
  },
  {
   "property": "C96",
   "status": "partial",
   "theorems": [
    "C96_loss_keys_partial",
    "C96_setup_keys_partial",
    "C96_image_training_refuted",
    "C96_bridge_one_step_partial",
    "C96_bridge_training_refuted",
    "C96_bridge_networks_refuted",
    "C96_check_refuted",
    "C96_permutation_keys_partial"
   ],
   "note": "The keys of the losses and of the set-up are proved to be used once. False for the whole scripts: the key of the epoch permutation is split again for the steps, the forward bridge loop draws with a key that it splits in the next step, both bridge networks are initialised with the same key, and the check at the end starts again from the root key."
  },
  {
   "property": "C97",
   "status": "partial",
   "theorems": [
    "C97_contents",
    "C97_one_file_per_epoch",
    "C97_final_saved_iff_refuted",
    "C97_default_saves_nothing_refuted",
    "C97_test_epoch_iff",
    "C97_bridge_saved"
   ],
   "note": "Contents, uniqueness and the file read by the test scripts proved. The parameters of the last epoch are saved exactly when 100 divides the number of epochs; nothing is saved with the default of 40 epochs (refuted). The bridge script saves every iteration (proved)."
  },
  {
   "property": "C98",
   "status": "partial",
   "theorems": [
    "C98_defined_iff_refuted",
    "C98_starts_at_lr",
    "C98_never_increases",
    "C98_range",
    "C98_ends_at_floor",
    "C98_bridge_first_partial",
    "C98_bridge_refuted",
    "C98_exp"
   ],
   "note": "Proved for the cosine schedule from two epochs on and for the exponential schedule; undefined for one epoch (optax raises). Bridge training is refuted: the optimiser state is carried over, from the second iteration on the rate is lr/100 throughout. optax formulas taken from its documentation."
  },
  {
   "property": "C99",
   "status": "partial",
   "theorems": [
    "C99_marginal_moments",
    "C99_keys_used_once",
    "C99_joint_law_refuted",
    "C99_reverse_step"
   ],
   "note": "Mean and covariance at every single step and key discipline proved; as a path it is refuted: noise is drawn afresh at every step, so two steps are uncorrelated, while a forward path is positively correlated. Also proved: every step is the Euler step of the reverse equation on the unobserved pixels, channel by channel, with the network fed the image completed by the noised observation."
  },
  {
   "property": "C100",
   "status": "proved",
   "theorems": [
    "C100_grid",
    "C100_reversed"
   ],
   "note": "jnp.sort enters by its two defining properties."
  },
  {
   "property": "C101",
   "status": "proved",
   "theorems": [
    "C101_multinomial_law",
    "C101_sorting",
    "C101_expected_copies",
    "C101_first_index"
   ],
   "note": ""
  },
  {
   "property": "C102",
   "status": "partial",
   "theorems": [
    "C102_multinomial_error",
    "C102_stratified_error",
    "C102_killing_error",
    "C102_systematic_error_refuted",
    "C102_systematic_rate_refuted"
   ],
   "note": "Proved for multinomial, stratified and killing; false for systematic: for alternating weights 1/(4m), 3/(4m) the error stays 1/16 for every even size (C102_..._refuted)."
  },
  {
   "property": "C103",
   "status": "proved",
   "theorems": [
    "C103_bootstrap_filter_error",
    "C103_bootstrap_filter_consistent",
    "C103_bootstrap_filter_probability",
    "C103_pmcmc_filter_error",
    "C103_library_schemes"
   ],
   "note": "For the three schemes that satisfy C102 (C103_library_schemes); transition and initial laws have finite support. Systematic resampling is not covered, see C102."
  },
  {
   "property": "C104",
   "status": "partial",
   "theorems": [
    "C104_guided_drift",
    "C104_denoising_linear",
    "C104_final_twisting_refuted",
    "C104_final_twisting_data",
    "C104_inverse_exists",
    "C104_denoising_mean_refuted",
    "C104_image_variance_refuted"
   ],
   "note": "Guided drift proved (total, closed form). False: the final twisting function is evaluated at u + reverse_drift(u, T) dt instead of u, so it is not proportional to the likelihood, for every number of grid points, both SDEs and every y with C y <> 2 y; the denoising estimate is one Euler step, not the conditional mean; the image twisting variance F^2 v + Q is the variance of the noised state and exceeds the conditional variance (and the data variance) at all times. All in C104_..._refuted."
  },
  {
   "property": "C105",
   "status": "proved",
   "theorems": [
    "C105_path_law_ignores_reference_indices"
   ],
   "note": "For both library schemes. The indices returned together with the path are not covered (their law does depend on the reference indices)."
  },
  {
   "property": "C106",
   "status": "proved",
   "theorems": [
    "C106_chain_converges",
    "C106_chain_limit"
   ],
   "note": "Explicit rate: one minus (n/((n+1)G0)) (kappa/((n+1)G))^K Z, with kappa = n for multinomial, n - 1 + 2/(n+1) for killing, n = nsamples, G and G0 bounds on the likelihoods, Z the normalising constant. Transition and initial laws have finite support; tracing variant only (backward sampling: see C12)."
  },
  {
   "property": "C107",
   "status": "proved",
   "theorems": [
    "C107_new_state_depends_on_old_state_only"
   ],
   "note": "explicit_final off; finite-support laws. bs_star must have the right length and entries below nparticles."
  },
  {
   "property": "C108",
   "status": "proved",
   "theorems": [
    "C108_gibbs_chain_converges"
   ],
   "note": "Explicit rate: one minus ((n-1)/n) ((n-2+2/n)/(nG))^K Z, where Z is the backward-model mass of a measure nu on (u0, vs) that lies below the noised law of every x0. Without such a nu (noising that never forgets x0) nothing is claimed. explicit_backward additionally needs the weight condition of C16; explicit_final off; finite-support laws."
  },
  {
   "property": "C109",
   "status": "partial",
   "theorems": [
    "C109_reported_sample_refuted",
    "C109_any_slot_killing_partial",
    "C109_reported_sample_killing_partial"
   ],
   "note": "False of the code: all these places use stratified resampling, whose first slot always descends from the front of the cloud. C109_reported_sample_refuted: one step, filtering probability 1/4, reported with probability at least 1/3 for every number of particles >= 2 (also for systematic resampling). Proved with rate 1/n (squared error) for killing resampling and any slot."
  },
  {
   "property": "C110",
   "status": "proved",
   "theorems": [
    "C110_weighted_average_error",
    "C110_reported_sample_bias",
    "C110_stratified",
    "C110_single_particle"
   ],
   "note": "Holds for stratified (the scheme used), multinomial and killing resampling. The rate of the bias is 1/n by Cauchy-Schwarz on the error of the average and of the normalising constant. The limit is the posterior only when the last twisting function is the likelihood, which C104 shows to fail in the GP script."
  },
  {
   "property": "C111",
   "status": "partial",
   "theorems": [
    "C111_paths_converge",
    "C111_rate",
    "C111_pairs_converge_killing_partial",
    "C111_stratified_refuted"
   ],
   "note": "True of the paths for every scheme with a finite-support law and of the pair for killing, with the explicit rate 1 - eps Z / G^T; refuted for stratified (used by the scripts) and systematic: the kept x0 stays 1/50 away from the posterior for every chain length from 4 on."
  },
  {
   "property": "C112",
   "status": "proved",
   "theorems": [
    "C112_forward_converges",
    "C112_reverse_converges",
    "C112_exact_refuted"
   ],
   "note": "The draws are any finite law with mean 0 and identity covariance; first and second moments only. K is not explicit in the statement (bounds on compact intervals), but depends only on the SDE, T, m0, C0."
  },
  {
   "property": "C113",
   "status": "partial",
   "theorems": [
    "C113_euler_step_refuted"
   ],
   "note": "False for every step: equality of covariance and variance would force h sinh h + h sinh h cosh h = sinh^2 h + h^2 with h = -a(t-s) > 0, whose sides are strictly ordered. So the compatibility hypothesis of C15/C16/C107/C108 is met by the GP scripts only in the limit; C112 bounds the distance. The restored-data counterpart is C112."
  },
  {
   "property": "C114",
   "status": "proved",
   "theorems": [
    "C114_gibbs_run_keys",
    "C114_pmcmc_run_keys",
    "C114_filter_run_keys",
    "C114_twisted_run_keys",
    "C114_pmcmc_chains_independent",
    "C114_chains_independent",
    "C114_filter_samples_iid",
    "C114_twisted_samples_iid"
   ],
   "note": "The initialiser of the chains is any program that respects the discipline. The one gp_gibbs.py defines locally calls the backward smoother, which does not (C65); its smoothed path is not used by the kernel (C107). Independence of the Gibbs chains is an instance of the general statement, whose finite-law hypothesis is discharged here for the pMCMC kernel."
  },
  {
   "property": "C115",
   "status": "partial",
   "theorems": [
    "C115_mean_unbiased",
    "C115_cov_unbiased",
    "C115_mean_error",
    "C115_chain_mean",
    "C115_chain_variance",
    "C115_chain_cov_refuted",
    "C115_cov_psd",
    "C115_few_samples_refuted"
   ],
   "note": "Two parts are false. For a chain the sample variance is short by the excess error of the mean (C115_chain_variance); C115_chain_cov_refuted gives a stationary chain with half the right expectation. With at most as many samples as dimensions the covariance has no Cholesky factor (C115_few_samples_refuted). The skewness and kurtosis columns are not modelled."
  },
  {
   "property": "C116",
   "status": "partial",
   "theorems": [
    "C116_toy_names",
    "C116_toy_table",
    "C116_toy_run_all_partial",
    "C116_toy_row_missing_refuted",
    "C116_overwrite_refuted",
    "C116_sb_names",
    "C116_sb_run_all_partial",
    "C116_sb_two_particles_refuted",
    "C116_sb_start_refuted"
   ],
   "note": "The last part is false for one row and one column: run_toy_all.sh never runs pmcmc with delta 0.001 (C116_toy_row_missing_refuted) and run_sb_all.sh starts at four particles where the plot starts at two (C116_sb_two_particles_refuted). Dimension, sample and chain numbers are not in the name, so such runs overwrite each other (C116_overwrite_refuted). In sb_imgs/supr.py the start of the chain is overwritten for each x0 sampler, so the animation shows the wrong start (C116_sb_start_refuted)."
  },
  {
   "property": "C117",
   "status": "partial",
   "theorems": [
    "C117_names",
    "C117_like_with_like",
    "C117_run_all",
    "C117_seed_refuted",
    "C117_method_options",
    "C117_small_delta_refuted"
   ],
   "note": "The seed is not in the name: mixed seeds compare different images (C117_seed_refuted). A step size whose text has a dash, 1e-05, is parsed as 05 (C117_small_delta_refuted)."
  },
  {
   "property": "C118",
   "status": "partial",
   "theorems": [
    "C118_psnr",
    "C118_psnr_infinite",
    "C118_hidden",
    "C118_mean_psnr",
    "C118_error_split",
    "C118_exact_sampler_best_refuted",
    "C118_ssim",
    "C118_lpips_layout_refuted"
   ],
   "note": "The last two parts are false. The constant at the posterior mean beats every sampler and the exact posterior has twice its error, a loss of 10 log10 2 dB (C118_exact_sampler_best_refuted). swapaxes(img, -1, 0) transposes the image (C118_lpips_layout_refuted). PSNR and SSIM are skimage functions and modelled by their documented formulas; LPIPS itself is not modelled."
  },
  {
   "property": "C119",
   "status": "partial",
   "theorems": [
    "C119_score_is_mean",
    "C119_score_loss",
    "C119_ipfscore_loss",
    "C119_ipf_loss",
    "C119_ipf_prev_mean_refuted",
    "C119_dsb_cont",
    "C119_dsb_disc",
    "C119_loss_positive",
    "C119_terms"
   ],
   "note": "The part on the previous state is false: the 'ipf' minimiser moves only F times as far from y as that mean does (C119_ipf_loss, C119_ipf_prev_mean_refuted). The risk is studied through its density at each arrival state; integrating it over y is not modelled. The reverse drift takes f and g at the time before the step, as the code does."
  },
  {
   "property": "C120",
   "status": "partial",
   "theorems": [
    "C120_autocorrelation",
    "C120_sum",
    "C120_independent_zero_refuted",
    "C120_toy_curve",
    "C120_worst_variable",
    "C120_toy_blank_refuted",
    "C120_img_run",
    "C120_img_zero",
    "C120_best_variable_refuted"
   ],
   "note": "False in three parts: a variable constant in one chain blanks the whole toy curve (C120_toy_blank_refuted); the image curve takes a different pixel at each lag and counts negative values as zero, and can vanish at all lags though each pixel is correlated (C120_best_variable_refuted); independent samples show -(n-k)/(n(n-1)) at lag k (C120_independent_zero_refuted). numpyro's autocorrelation is modelled by its documented computation with the circular correlation in place of the two transforms."
  },
  {
   "property": "C121",
   "status": "partial",
   "theorems": [
    "C121_toy_figures_partial",
    "C121_toy_steps_refuted",
    "C121_toy_labels",
    "C121_img_figure"
   ],
   "note": "Each of the three toy figures needs particle MCMC with step size 0.001 (two of them 0.01 too), which no script runs: these files never exist (C121_toy_steps_refuted)."
  },
  {
   "property": "C122",
   "status": "partial",
   "theorems": [
    "C122_kernel",
    "C122_unit_variance_refuted",
    "C122_constant",
    "C122_factor_refuted",
    "C122_constant_kernel",
    "C122_bound",
    "C122_brighter_partial",
    "C122_brighter_border_refuted"
   ],
   "note": "False in three parts: with the added epsilon the variance is v/(v+eps) < 1 (C122_unit_variance_refuted) and a factor in the parameters changes the kernel (C122_factor_refuted); a constant added to the image changes the output at the border, which is padded with zeros (C122_brighter_border_refuted), and nowhere else (C122_brighter_partial)."
  },
  {
   "property": "C123",
   "status": "proved",
   "theorems": [
    "C123_separate",
    "C123_shapes"
   ],
   "note": "A NaN in the time embedding (dim = 2) is treated as failure, hence dim <> 2 in C123_shapes."
  },
  {
   "property": "C124",
   "status": "proved",
   "theorems": [
    "C124_linear_growth",
    "C124_resnet_change"
   ],
   "note": "Over the reals; so no overflow in intermediate values is considered."
  },
  {
   "property": "C125",
   "status": "proved",
   "theorems": [
    "C125_lipschitz",
    "C125_continuous"
   ],
   "note": "Over the reals. The constant exists because every normalisation adds an epsilon to its denominator and every attention block normalises its input first; it is not computed."
  },
  {
   "property": "C126",
   "status": "proved",
   "theorems": [
    "C126_initial_value",
    "C126_second_moment",
    "C126_entries"
   ],
   "note": "Over the reals; the noise is any finite law with mean zero and identity covariance."
  },
  {
   "property": "C127",
   "status": "proved",
   "theorems": [
    "C127_substeps",
    "C127_runs",
    "C127_merged",
    "C127_laws"
   ],
   "note": "Over the reals; the noise is any finite law with mean zero and identity covariance. The normalised sums have mean zero and identity covariance too; that they have the same law as the draws, as Gaussian draws do, is a hypothesis of the law form."
  },
  {
   "property": "C128",
   "status": "proved",
   "theorems": [
    "C128_pathwise",
    "C128_visits",
    "C128_moments"
   ],
   "note": "Over the reals. The score error is taken along the run of the exact score, at the times and with the step lengths of the simulator (C128_visits); the training loss takes it along the forward process."
  },
  {
   "property": "C129",
   "status": "partial",
   "theorems": [
    "C129_tags_are_harmless",
    "C129_ancestors_nested",
    "C129_multinomial_coalesces_partial",
    "C129_multinomial_rate_partial",
    "C129_coalescence_refuted",
    "C129_survivors",
    "C129_systematic_survivors",
    "C129_parents",
    "C129_particle_trajectory_refuted",
    "C129_figure_shows_ancestors_refuted"
   ],
   "note": "Partly false. True: the ancestor sets are nested along every run, for every scheme. With multinomial resampling the chance of not having coalesced after m steps is at most (1 - n^(1-n))^m for every likelihood, and with a flat likelihood the expected number of ordered pairs with different ancestors is exactly n(n-1)(1-1/n)^m. False for the stratified resampling that gibbs_init uses, and for systematic and killing: a flat likelihood keeps all n ancestors for ever (C129_coalescence_refuted). One resampling keeps at most sum_i min(1, n w_i) particles on average under any unbiased scheme, and systematic attains this. The lines labelled 'Particle trajectory' join the particles of one slot, which are not parent and child (C129_particle_trajectory_refuted; C129_parents states what the true parent is), and two runs with different genealogies can give the same figure (C129_figure_shows_ancestors_refuted)."
  },
  {
   "property": "C130",
   "status": "proved",
   "theorems": [
    "C130_moves",
    "C130_step",
    "C130_divergence",
    "C130_bounds",
    "C130_unet",
    "C130_filter_densities"
   ],
   "note": "Over the reals. The expected log-density ratio depends on the noise through its first two moments only; for normal noise it is the Kullback-Leibler divergence of the two path laws."
  },
  {
   "property": "C131",
   "status": "proved",
   "theorems": [
    "C131_filter_target_error",
    "C131_conditional_sampler_error"
   ],
   "note": "Finite-support laws; the true process enters through its kernels, the law of the states given the observations and the posterior (records density_ratio, disintegrates, reverses). Killing resampling only, because C109 is false for the stratified and systematic schemes."
  },
  {
   "property": "C132",
   "status": "proved",
   "theorems": [
    "C132_crescent_shape",
    "C132_crescent_rows",
    "C132_gmsb_shape",
    "C132_gmsb_rows",
    "C132_crescent_space",
    "C132_crescent_bounded_sets",
    "C132_gmsb_lipschitz",
    "C132_classic_lipschitz",
    "C132_autoencoder_lipschitz",
    "C132_crescent_time_refuted",
    "C132_sampler"
   ],
   "note": "The uniform time dependence of CrescentMLP is refuted (C132_crescent_time_refuted). MNISTResConv: see C133. The width of the input is that of the parameters."
  },
  {
   "property": "C133",
   "status": "proved",
   "theorems": [
    "C133_shape",
    "C133_rows",
    "C133_lipschitz",
    "C133_bounded",
    "C133_affine_score_refuted"
   ],
   "note": "That the network comes uniformly close to affine scores is refuted for all parameters (C133_affine_score_refuted). The other decoder raises (C81). 'SAME' padding by the documented rule; inputs (n, 28, 28) are treated as (n, 784), which has the same entries."
  },
  {
   "property": "C134",
   "status": "partial",
   "theorems": [
    "C134_proper_start",
    "C134_any_start_killing",
    "C134_separable_start",
    "C134_heuristic_start_refuted",
    "C134_gp_posterior_sampler_refuted",
    "C134_gp_posterior_defined",
    "C134_path_keys"
   ],
   "note": "The proper start, the error bound (killing resampling, as in C109), the separable case and the use of the keys are proved. A heuristic start is refuted: an exact two-point model where the reported sample misses the posterior for every number of particles. The last sentence is false: gp_posterior_sampler multiplies the noise by the Cholesky factor on the wrong side and never has the posterior covariance with two or more grid points (as C62)."
  },
  {
   "property": "C135",
   "status": "partial",
   "theorems": [
    "C135_low_res_image",
    "C135_interp_range",
    "C135_odd_rate_keeps_observed",
    "C135_interp_linear_image",
    "C135_default_rate_reproduces_linear_image_refuted"
   ],
   "note": "Everything is proved except the last part for even rates: the fixed mask observes the pixel at offset rate // 2, which for even rates is half a pixel away from the block centre that jax.image.resize assumes, so linear images come out shifted by half a pixel in both directions (the default rate is 4). For odd rates observed pixels are kept and linear images reproduced exactly. One channel; resize is modelled by its triangle weights."
  },
  {
   "property": "C136",
   "status": "proved",
   "theorems": [
    "C136_eigh_total",
    "C136_sqrtm_total",
    "C136_bures_total",
    "C136_cholesky",
    "C136_bridge_roots_exist",
    "C136_bridge_solve",
    "C136_bridge_factor",
    "C136_bridge_moments",
    "C136_bridge_optimal"
   ],
   "note": "Removes the assumptions on the matrix routines from C41, C59, C72 and C83: the square roots, the solve and the factor used there exist for all symmetric positive definite covariances, in exact arithmetic. The spectral theorem is proved from scratch (Rayleigh quotient, Householder reflection), as is differentiability of the inverse along a path."
  },
  {
   "property": "C137",
   "status": "proved",
   "theorems": [
    "C137_bures_sandwich",
    "C137_column_exists",
    "C137_bures_column",
    "C137_exact_sampler",
    "C137_cov_variance",
    "C137_var_column"
   ],
   "note": "The column never reaches zero: the exact sampler is charged at least tr(cov)/n, so differences between methods below that are sampling noise. Laws have finite support; chains (gibbs, pmcmc) only get the pointwise lower bound of C137_bures_sandwich. The KL, skewness and kurtosis columns are not covered (see C115 for the singular case)."
  },
  {
   "property": "C138",
   "status": "proved",
   "theorems": [
    "C138_least_energy",
    "C138_zero_gap",
    "C138_slope"
   ],
   "note": "Controls enter through finite-support joint laws of state and control at each time, of which the moment equations of the SDE are required; the comparison only uses those equations, so it covers every diffusion that satisfies them. Extends C136: the Riccati equation of the slope is proved on the closed interval (posdef is an open condition along the path)."
  },
  {
   "property": "C139",
   "status": "proved",
   "theorems": [
    "C139_before_end",
    "C139_end_point",
    "C139_hits_target_refuted"
   ],
   "note": "Up to T1 < T the constant depends on T1; the last point has its own argument (the pull towards the target times the step is at most 1 + K h, and equals 1 up to K h at the last step). Refuted: that the simulated path ends in the target unless replace is set."
  },
  {
   "property": "C140",
   "status": "proved",
   "theorems": [
    "C140_forward_path",
    "C140_reverse_path",
    "C140_ends"
   ],
   "note": "Library results (sqrtm, cho_factor) enter through their specifications, total by C136. The scripts use one sub-step of the reverse drift per grid interval inside the particle filter; that is the case n = 1."
  },
  {
   "property": "C141",
   "status": "proved",
   "theorems": [
    "C141_end_law",
    "C141_only_the_marginal",
    "C141_gap_decays"
   ],
   "note": "Moments only; extends C112, which is the case ma = F m0, Sa = P. The scripts on images start from a standard normal law, to which C141_gap_decays applies with v = 1."
  },
  {
   "property": "C142",
   "status": "partial",
   "theorems": [
    "C142_end_law",
    "C142_refuted",
    "C142_right_iff_identity",
    "C142_drift_defined"
   ],
   "note": "The mean converges (C142_end_law). The covariance does not: the reference draw multiplies by cond_cov_ref and not by a factor of it (C89), the reverse process does not forget it, and the limit is the posterior covariance only when cond_cov_ref is the identity (C142_right_iff_identity), which is impossible for the stationary SDEs and obs_var = 1 of the script (C142_refuted)."
  },
  {
   "property": "C143",
   "status": "partial",
   "theorems": [
    "C143_conditional_law",
    "C143_refuted",
    "C143_limit"
   ],
   "note": "False as soon as there is any correlation (C143_refuted): on a Gaussian image of two grey pixels with correlation r, one observed, the limit variance is at least (1 - r^2) / (1 - r^2 F^4) > 1 - r^2, F the coefficient of the transition from 0 to T, and the mean is at most (1 + r^2) / 2 of r y (C143_limit). The draws of the noised observation average out within the steps, so the sampler follows the score of the joint law at the mean of the noised observation."
  },
  {
   "property": "C144",
   "status": "proved",
   "theorems": [
    "C144_kl_sandwich",
    "C144_column_exists",
    "C144_column_defined",
    "C144_column_small",
    "C144_no_value"
   ],
   "note": "kl returns twice the divergence (C59); the bounds are for the number it returns. Finite-support samplers, independent samples; the chains of gibbs and pmcmc are not independent."
  },
  {
   "property": "C145",
   "status": "partial",
   "theorems": [
    "C145_covariance_collapses",
    "C145_refuted",
    "C145_defined"
   ],
   "note": "The first two parts hold; the last is false in every instance (C145_refuted): the Jacobian of the observation is taken in the previous observation instead of the state, and the noise covariance is sqrt(dt) b I, so every entry of the returned covariance is of the order of sqrt(dt) for every path and start, and falls below any fraction of the posterior variances. C91 is about one step of the same filter. The mean is in C148, for one kind of path; its limit along typical paths of the diffusion is not determined."
  },
  {
   "property": "C146",
   "status": "partial",
   "theorems": [
    "C146_posterior_covariance",
    "C146_defined",
    "C146_script_refuted"
   ],
   "note": "The first part holds with its rate (C146_posterior_covariance) and every path and grid has such a run (C146_defined). The last clause is false in every instance (C146_script_refuted): from the same moments and along the same path the variances adhoc_kf returns are below any fraction of the exact ones on fine grids, which strengthens C91 from one step of one model to all. The mean is in C147."
  },
  {
   "property": "C147",
   "status": "proved",
   "theorems": [
    "C147_posterior_mean",
    "C147_diffusion_paths"
   ],
   "note": "About the exact filter of the chain, the law that the particle methods approximate; gp_kf.py itself computes something else (C91, C145, C146). Together with C146 the whole conditional law is determined in the limit."
  },
  {
   "property": "C148",
   "status": "partial",
   "theorems": [
    "C148_refuted",
    "C148_exact_filter",
    "C148_script_refuted"
   ],
   "note": "False in every such instance (C148_refuted): along a path that is zero until its last step the gain is at least a half up to dt^2, whatever the kernel, because the observation Jacobian is the identity up to dt; the right gain, lambda / (lambda + s2) in an eigenvector of the kernel matrix, is smaller where lambda < s2. Limits of this: the witness is a path with a jump of fixed size in its last step, which a noised path does not make on a fine grid, so typical paths are not settled; and the theorem is about fine grids (dt <= some h0), not about the two steps the script uses. The script's kernel and noise are such an instance with either of its SDEs and any two or more points, and the filter does run there (C148_script_refuted, C148_example). The exact filter is right on the same path, at rate dt (C148_exact_filter)."
  }
 ]
}