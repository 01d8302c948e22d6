{
 "claims": [
  {
   "property": "C01",
   "status": "partial",
   "theorems": [
    "C01_single_id_refuted",
    "C01_frozen_refuted",
    "C01_merge_defined",
    "C01_merge_total",
    "C01_split_merge",
    "C01_split_total",
    "C01_split_order",
    "C01_merge_rank"
   ],
   "note": "REFUTED as stated: if some id is shared and another id is used by a single penalty, that penalty is counted twice; frozen penalties with a shared id come back unfrozen. Proved for all lists in which every id is used by no or at least two penalties (and penalties with an id are not frozen)."
  },
  {
   "property": "C02",
   "status": "proved",
   "theorems": [
    "C02_embedding_defined",
    "C02_embedding",
    "C02_quadratic_form",
    "C02_embed_formula",
    "C02_weighted_sum"
   ],
   "note": ""
  },
  {
   "property": "C03",
   "status": "proved",
   "theorems": [
    "C03_sum_of_squared_differences",
    "C03_symmetric_root",
    "C03_null_space",
    "C03_rank"
   ],
   "note": "Over the reals for the null space, over every commutative ring otherwise."
  },
  {
   "property": "C04",
   "status": "proved",
   "theorems": [
    "C04_tensor_penalty_slices",
    "C04_basis_order",
    "C04_slice_numbers"
   ],
   "note": ""
  },
  {
   "property": "C05",
   "status": "partial",
   "theorems": [
    "C05_gap_refuted",
    "C05_gapless"
   ],
   "note": "REFUTED as stated: the position of a block in the generalised inverse is counted from the first penalised coefficient and ignores unpenalised coefficients in between, as in every model with two formulas with intercepts. Proved when there are no such gaps."
  },
  {
   "property": "C06",
   "status": "partial",
   "theorems": [
    "C06_single_id_refuted",
    "C06_rank_flags"
   ],
   "note": "REFUTED when an id is used once next to a shared id (one flag too few). Proved for all other sorted lists."
  },
  {
   "property": "C07",
   "status": "proved",
   "theorems": [
    "C07_step_in_range",
    "C07_always_in_range"
   ],
   "note": "The update for all inputs, and every state of a fit of an additive model, with acceleration and step control."
  },
  {
   "property": "C08",
   "status": "proved",
   "theorems": [
    "C08_direction",
    "C08_never_against",
    "C08_no_penalty"
   ],
   "note": ""
  },
  {
   "property": "C09",
   "status": "proved",
   "theorems": [
    "C09_extension",
    "C09_undo"
   ],
   "note": ""
  },
  {
   "property": "C10",
   "status": "proved",
   "theorems": [
    "C10_gamm_step_control"
   ],
   "note": ""
  },
  {
   "property": "C100",
   "status": "proved",
   "theorems": [
    "C100_predictors",
    "C100_undo_coef",
    "C100_coordinates",
    "C100_penalties",
    "C100_penalised",
    "C100_covariance"
   ],
   "note": "Exact arithmetic. Assumes that the penalised terms of a parameter follow its unpenalised coefficients without gaps (C46) and that the transform of every term is a change of basis (C99). The optional root and inverse of the total penalty (form_root, form_inverse) are not modelled."
  },
  {
   "property": "C101",
   "status": "partial",
   "theorems": [
    "C101_value",
    "C101_gradient",
    "C101_fixed",
    "C101_dominant_refuted"
   ],
   "note": "REFUTED as stated: if one penalty of a term alone acts on every direction that the term's penalties act on, the log-determinant ignores the other penalties while the gradient does not. Proved for all other terms in exact arithmetic. Gradients are stated along differentiable curves; the family's gradient and the prior's are assumed correct (C28, C31, C58, C91)."
  },
  {
   "property": "C102",
   "status": "partial",
   "theorems": [
    "C102_stationary",
    "C102_gaussian",
    "C102_fixed_refuted"
   ],
   "note": "REFUTED as stated: with fixed smoothing parameters and a family with a scale parameter, the smoothing parameters (which are relative to the scale) are not divided by it. Proved for sampled smoothing parameters and for families without scale."
  },
  {
   "property": "C103",
   "status": "partial",
   "theorems": [
    "C103_documented",
    "C103_proper",
    "C103_twice_refuted",
    "C103_improper_refuted"
   ],
   "note": "REFUTED as stated: with several formulas a smooth that has its own null-space penalty can be given a second one; impulse response terms and unpenalised smooths keep an improper prior. Proved: the documented prior for one formula or for models without null-space penalties of their own; properness for any number of formulas without impulse response terms and unpenalised smooths. Penalties are represented by their quadratic forms; that the null-space penalty of a smooth completes its penalty is a hypothesis."
  },
  {
   "property": "C104",
   "status": "proved",
   "theorems": [
    "C104_rows",
    "C104_steps"
   ],
   "note": "The transition is an arbitrary function of chain, iteration, number of steps, max_j and state; families with both a scale and theta parameters are excluded (none exists). C104_steps assumes that a call for several steps does what several calls would do, which leaves out that the seed is chosen per call."
  },
  {
   "property": "C105",
   "status": "partial",
   "theorems": [
    "C105_all",
    "C105_selected_partial",
    "C105_stopped_partial",
    "C105_density_refuted",
    "C105_selected_refuted"
   ],
   "note": "REFUTED as stated: the log-density is monitored over all samples although the second half is returned, and convergence_type 1 monitors only coefficients whose design column has a positive sum. Proved otherwise: which half chains decide, and that the returned samples of all other parameters meet the criteria."
  },
  {
   "property": "C106",
   "status": "partial",
   "theorems": [
    "C106_common",
    "C106_no_warm_up_refuted"
   ],
   "note": "REFUTED as stated: with M_adapt = 0 the step size is 1 from the second step on. Proved for a warm-up of at least one step."
  },
  {
   "property": "C107",
   "status": "partial",
   "theorems": [
    "C107_forward",
    "C107_range",
    "C107_last_refuted",
    "C107_earlier_refuted"
   ],
   "note": "REFUTED as stated: if the series must end in the last state the last residual is not a distribution function (C107_last_refuted), and if a state must end with the series residuals at earlier time points are not either (C107_earlier_refuted). Proved for all other series and time points: equal to the ratio of sums over all segmentations, in [0,1], monotone, with limits 0 and 1."
  },
  {
   "property": "C108",
   "status": "partial",
   "theorems": [
    "C108_expected",
    "C108_standardised",
    "C108_signals_refuted",
    "C108_first_refuted",
    "C108_last_refuted"
   ],
   "note": "REFUTED as stated: with several signals the means are read from wrong positions when a state is entered (C108_signals_refuted), the first residual is not standardised (C108_first_refuted), the last expectation is not one if the series must end in the last state (C108_last_refuted). Proved: the expectation for bump models and for single signals, with the series free to end; the standardised sums from the second time point on."
  },
  {
   "property": "C109",
   "status": "partial",
   "theorems": [
    "C109_durations_partial",
    "C109_states",
    "C109_time_refuted",
    "C109_single_refuted",
    "C109_tables_refuted",
    "C109_transform_refuted"
   ],
   "note": "REFUTED as stated: time-varying distributions are taken at the end of a segment (C109_time_refuted), a series of one segment is tested against the distribution of later segments (C109_single_refuted), tables per series are those of the first series (C109_tables_refuted), with one series the autoregressive transform is applied twice (C109_transform_refuted). Proved for the remaining cases. That the last segment may be cut off by the end of the series is not part of the statement."
  },
  {
   "property": "C11",
   "status": "proved",
   "theorems": [
    "C11_gammlss_step_control",
    "C11_general_smooth_step_control",
    "C11_step_length_positive"
   ],
   "note": ""
  },
  {
   "property": "C110",
   "status": "partial",
   "theorems": [
    "C110_root",
    "C110_gap_refuted"
   ],
   "note": "REFUTED as stated: with unpenalised coefficients between penalised ones the block of a term with several penalties lands on other coefficients (C110_gap_refuted). Proved for all lists of penalties without such gaps, given roots of the single penalties and the contract of eigh."
  },
  {
   "property": "C111",
   "status": "partial",
   "theorems": [
    "C111_qr",
    "C111_chol",
    "C111_chol_refuted"
   ],
   "note": "REFUTED as stated: update_coef ignores the code of a failed Cholesky decomposition and returns zero coefficients (C111_chol_refuted, for every correct decomposition routine). Proved for the QR branch (every rank and pivoting) and for Cholesky decompositions that succeed."
  },
  {
   "property": "C112",
   "status": "partial",
   "theorems": [
    "C112_qr",
    "C112_chol",
    "C112_chol_refuted"
   ],
   "note": "REFUTED as stated: after a failed Cholesky decomposition the factor is a permutation matrix (C112_chol_refuted). Proved for the QR branch and for Cholesky decompositions that succeed."
  },
  {
   "property": "C113",
   "status": "partial",
   "theorems": [
    "C113_gaussian",
    "C113_files_refuted",
    "C113_scale_refuted"
   ],
   "note": "REFUTED as stated: data read from files ignore the offset (C113_files_refuted); for other families working residuals compare working data without the offset with a predictor including it, so an estimated scale is wrong (C113_scale_refuted). Proved for Gaussian models with identity link and data in memory (C113_gaussian); C114_scale covers zero offsets."
  },
  {
   "property": "C114",
   "status": "partial",
   "theorems": [
    "C114_scale",
    "C114_dropped_refuted"
   ],
   "note": "REFUTED as stated: a model without penalties counts dropped coefficients as degrees of freedom (C114_dropped_refuted). Proved for every set of excluded rows when the offset is zero and, if nothing is penalised, no coefficient was dropped. Non-zero offsets are refuted under C113."
  },
  {
   "property": "C115",
   "status": "partial",
   "theorems": [
    "C115_hessian",
    "C115_excluded_refuted"
   ],
   "note": "REFUTED as stated: with an excluded row the square root of the weights is taken twice (C115_excluded_refuted). Proved when no row is excluded."
  },
  {
   "property": "C116",
   "status": "partial",
   "theorems": [
    "C116_converged",
    "C116_settings",
    "C116_stopped_refuted",
    "C116_two_refuted",
    "C116_rejected_refuted"
   ],
   "note": "REFUTED as stated: when max_outer is reached the predictor belongs to coefficients that are not returned (C116_stopped_refuted); so with max_inner=2 (C116_two_refuted, every tolerance); with default settings a rejected last proposal for smoothing parameters leaves the predictor of the previous coefficients (C116_rejected_refuted, every tolerance). Proved for converged fits with max_inner other than 2 for Gaussian models with identity link, for max_inner at most 1, and when the last proposal is not rejected (C116_converged); C116_settings gives settings under which none is. Estimated parameters of extended families and autocorrelated residuals are not modelled."
  },
  {
   "property": "C117",
   "status": "proved",
   "theorems": [
    "C117_belongs",
    "C117_terminates"
   ],
   "note": "Newton and gradient steps, tests for convergence and identifiability checks are parameters, so the result holds for whatever they return (of the right length)."
  },
  {
   "property": "C118",
   "status": "partial",
   "theorems": [
    "C118_not_worse",
    "C118_restart_refuted"
   ],
   "note": "REFUTED as stated: gradient descent (prefit_grad) restarts from random coefficients once it has converged, and with few iterations these are returned (C118_restart_refuted, every tolerance). Proved for Newton steps if no coefficient is dropped."
  },
  {
   "property": "C119",
   "status": "partial",
   "theorems": [
    "C119_before_last_step",
    "C119_refuted"
   ],
   "note": "REFUTED as stated: for every setting the Hessian is the one from which the last step was computed (C119_refuted). Proved: it is the Hessian at coefficients that are not better than the returned ones, and at the returned ones if the last step did not change them."
  },
  {
   "property": "C12",
   "status": "proved",
   "theorems": [
    "C12_theta_never_worse"
   ],
   "note": ""
  },
  {
   "property": "C120",
   "status": "partial",
   "theorems": [
    "C120_converged",
    "C120_terminates",
    "C120_stopped_refuted",
    "C120_extension_refuted"
   ],
   "note": "REFUTED as stated: when max_outer is reached the last step is still added to the smoothing parameters (C120_stopped_refuted, for every number of iterations and distance); a converged fit with extended steps may keep a smoothing parameter whose extension was undone without estimating again (C120_extension_refuted). Proved for converged fits without extension: equal up to 1e-7, exactly with control_lambda below 2; and that step control and the loop end. The test for convergence is a parameter; restarts of method qEFS are not modelled."
  },
  {
   "property": "C121",
   "status": "proved",
   "theorems": [
    "C121_range"
   ],
   "note": "Coefficient estimation, traces and the test for convergence are parameters; restarts of method qEFS are not modelled."
  },
  {
   "property": "C122",
   "status": "partial",
   "theorems": [
    "C122_hessian",
    "C122_symmetric",
    "C122_repeated_refuted"
   ],
   "note": "REFUTED as stated: for terms with more than one penalty in a block that is repeated (factor smooths, by-factor smooths that share smoothing parameters) the number of copies enters the log-determinant's second derivative twice (C122_repeated_refuted). Proved for models in which every repeated block has one penalty and penalties without dominant member (see C97); the scale is known."
  },
  {
   "property": "C123",
   "status": "partial",
   "theorems": [
    "C123_inverse",
    "C123_regularised",
    "C123_weighted",
    "C123_regularised_refuted"
   ],
   "note": "REFUTED as stated for the regularised version of the weighted covariance matrix, which uses the square of 1/(1/sqrt(e)+0.1) (C123_regularised_refuted). Everything else is proved, the eigenvalue decomposition is exact."
  },
  {
   "property": "C124",
   "status": "proved",
   "theorems": [
    "C124_weights",
    "C124_fixed",
    "C124_mean",
    "C124_mixture"
   ],
   "note": "Exact arithmetic. The candidates (covariance matrices, coefficients, criteria) are arbitrary; that the criterion of a candidate is the restricted likelihood is C97."
  },
  {
   "property": "C125",
   "status": "partial",
   "theorems": [
    "C125_bounds",
    "C125_sum",
    "C125_expected",
    "C125_alias_refuted"
   ],
   "note": "REFUTED as stated: with form_t1 (the further correction) and degrees of freedom reduced to the bound, the array of coefficient-wise degrees of freedom is changed a second time under its other name and does not add up to the total (C125_alias_refuted). Bounds of the totals are proved for all settings, sums whenever the reduction and form_t1 do not meet."
  },
  {
   "property": "C126",
   "status": "partial",
   "theorems": [
    "C126_same",
    "C126_gather",
    "C126_expected_refuted",
    "C126_failed_refuted"
   ],
   "note": "REFUTED as stated: with only_expected_edf and several processes the degrees of freedom of the candidates are multiplied by the ratio of scales (another method than Chol), with one process not (C126_expected_refuted); a candidate that cannot be estimated is skipped with one process and ends the computation with several (C126_failed_refuted). Otherwise candidates are the same, if there is no offset (C127) and none fails."
  },
  {
   "property": "C127",
   "status": "partial",
   "theorems": [
    "C127_offset",
    "C127_offset_refuted"
   ],
   "note": "REFUTED as stated: with one process, or another method than Chol, the offset is subtracted for estimating coefficients, but scale and likelihood compare the coefficients' predictor with the observations that still include it (C127_offset_refuted). Proved for several processes with method Chol."
  },
  {
   "property": "C128",
   "status": "partial",
   "theorems": [
    "C128_law",
    "C128_constant",
    "C128_duration_refuted",
    "C128_transition_refuted"
   ],
   "note": "REFUTED as stated: a state for which a duration of d time points is drawn is left only when the counter is negative, so it lasts d + 1 time points (C128_duration_refuted); time-varying models use the transition matrix of the first time point of the new state where the likelihood uses that of the time point before (C128_transition_refuted). Proved: the law of the simulated states is exactly that of the model with durations one longer and transitions one time point ahead, for all models that are not HMP models."
  },
  {
   "property": "C129",
   "status": "partial",
   "theorems": [
    "C129_bumps",
    "C129_bumps_refuted"
   ],
   "note": "REFUTED as stated: simulated bumps last event_width + 1 time points and start with the last value of the template (index -1) (C129_bumps_refuted). What is simulated instead is proved for all models without autoregressive residuals (C129_bumps)."
  },
  {
   "property": "C13",
   "status": "proved",
   "theorems": [
    "C13_back_tracking"
   ],
   "note": ""
  },
  {
   "property": "C130",
   "status": "partial",
   "theorems": [
    "C130_samples",
    "C130_cores",
    "C130_series_refuted"
   ],
   "note": "REFUTED as stated: every series starts a generator with the same seed (default 0), so series with the same predictors and length are copies of each other (C130_series_refuted). Independence of samples and of the number of processes is proved. Generators are streams of numbers; seed=None (fresh entropy per series) is outside of the model."
  },
  {
   "property": "C131",
   "status": "partial",
   "theorems": [
    "C131_edf",
    "C131_scale",
    "C131_scale_refuted",
    "C131_empty_refuted"
   ],
   "note": "REFUTED as stated: without accepted update vectors, or when sampled vectors replaced an empty memory (n_corrs stays 0), computetrVS3 indexes a 0-d array and raises (C131_empty_refuted); sampled pairs of mixed curvature can give the scale 0, since only negative values are replaced (C131_scale_refuted). Proved for memories with vectors and positive scale (no known columns). Decompositions (QR, eigenvectors, singular values, Cholesky) are oracles with contracts; the contracts are met by routines constructed in RcfMat. The values of penalties with a common id are added afterwards, not modelled here (C06, C57)."
  },
  {
   "property": "C132",
   "status": "partial",
   "theorems": [
    "C132_factor",
    "C132_blocks",
    "C132_coordinates",
    "C132_empty_refuted",
    "C132_single_refuted"
   ],
   "note": "REFUTED as stated: with an empty memory getExplicitnH raises although omega = 1 is prepared for it (C132_empty_refuted); after a single sampled pair the matrix that computeHSR1 inverts is exactly zero (C132_single_refuted). Proved for both ways of computing the factor, with and without known columns, for memories whose inner matrix is invertible and positive definite penalised Hessians. Decompositions are oracles with contracts (met by routines in RcfMat)."
  },
  {
   "property": "C133",
   "status": "partial",
   "theorems": [
    "C133_columns",
    "C133_derivatives",
    "C133_twice_refuted"
   ],
   "note": "REFUTED for lists with repetitions: a column listed twice is counted twice (C133_twice_refuted). Proved for all lists of distinct columns. The finite differences of one column (jcolhessian) are an oracle."
  },
  {
   "property": "C134",
   "status": "partial",
   "theorems": [
    "C134_blocks",
    "C134_unchanged",
    "C134_zero_refuted"
   ],
   "note": "REFUTED as stated for a block of zeros: the threshold sqrt(eps) * max|eigenvalue| is 0 then, the block stays singular and its inverse is 1/0 (C134_zero_refuted). Proved for all other symmetric matrices."
  },
  {
   "property": "C135",
   "status": "partial",
   "theorems": [
    "C135_trace",
    "C135_wide",
    "C135_null",
    "C135_late",
    "C135_last",
    "C135_edf",
    "C135_null_refuted",
    "C135_last_refuted"
   ],
   "note": "REFUTED as stated for null-space penalties of one coefficient: the stop of np.arange ignores start_index, so that levels are left out whenever the penalised coefficient of the first level has an index of at least two times the number of coefficients per level (C135_late: always too small; C135_null_refuted), and an index after the last column is used when it is below the number of coefficients per level and the term is the last one (C135_last, C135_last_refuted). Proved for all other penalties (C135_trace, C135_wide) and for null-space penalties in between. The triangular solve is an oracle with a contract."
  },
  {
   "property": "C136",
   "status": "partial",
   "theorems": [
    "C136_clusters",
    "C136_subgroup",
    "C136_twice_refuted",
    "C136_subgroup_refuted"
   ],
   "note": "REFUTED as stated: a factor in split_by that changes within a series puts the series into several clusters (C136_twice_refuted), and two factors to split by together with by_subgroup raise (C136_subgroup_refuted). Proved for factors that are constant within series, for sub-groups with at most one factor; kmeans2 is an oracle that returns a label for every series. Without collapsing statistics and normalisation."
  },
  {
   "property": "C137",
   "status": "partial",
   "theorems": [
    "C137_one",
    "C137_two",
    "C137_columns",
    "C137_bins",
    "C137_discretized",
    "C137_three_refuted"
   ],
   "note": "REFUTED as stated for three covariates: the offset of a covariate is the number of values of the covariate before it only, so that counts of different covariates are added in the same columns (C137_three_refuted). Proved for one and two covariates, without collapsing statistics and normalisation."
  },
  {
   "property": "C138",
   "status": "partial",
   "theorems": [
    "C138_exact",
    "C138_weights",
    "C138_processes",
    "C138_below",
    "C138_numbers",
    "C138_levels_refuted",
    "C138_order_refuted"
   ],
   "note": "REFUTED as stated: series are numbered in the order in which they appear in the data and used as numbers of levels, which are sorted (C138_order_refuted, C138_levels_refuted). Proved if series are ordered like levels (C138_numbers), for roots whose non-zero columns are the first ones of every level (as rank and D_J_emb of difference penalties have them), any Hessian and number of processes."
  },
  {
   "property": "C139",
   "status": "partial",
   "theorems": [
    "C139_own",
    "C139_best",
    "C139_error",
    "C139_loss",
    "C139_shared_refuted"
   ],
   "note": "REFUTED as stated: clusters are stored in the dictionary passed as approx_deriv, so two smooths with the same dictionary both use the clusters of the last one (C139_shared_refuted). Proved for distinct dictionaries; the best restart is kept for any sequence of results."
  },
  {
   "property": "C14",
   "status": "proved",
   "theorems": [
    "C14_terminates",
    "C14_rejected_pass",
    "C14_result",
    "C14_frozen"
   ],
   "note": ""
  },
  {
   "property": "C140",
   "status": "partial",
   "theorems": [
    "C140_independent",
    "C140_span",
    "C140_deficient_refuted",
    "C140_units_refuted"
   ],
   "note": "REFUTED as stated: if the first matrix has dependent columns, independent columns of the second one are dropped, since its QR decomposition is not pivoted (C140_deficient_refuted); columns measured in large units, that is with small values, are dropped although independent (C140_units_refuted). Proved when the first matrix has independent columns: kept columns are independent for any tolerance, and nothing is lost when the last diagonal element reaches the threshold. QR decompositions are oracles with contracts, arithmetic is exact."
  },
  {
   "property": "C141",
   "status": "partial",
   "theorems": [
    "C141_kept",
    "C141_single",
    "C141_runs",
    "C141_by_refuted",
    "C141_levels_refuted",
    "C141_fs_refuted"
   ],
   "note": "REFUTED as stated: f(x) is not found to be nested in f(x, z, by=g) (C141_by_refuted), two factors with a common name of a level at different positions raise an IndexError (C141_levels_refuted), and a formula with fs terms as its only smooth terms raises a ValueError (C141_fs_refuted). Proved for any identification that meets the contract of C140, for names of variables at levels as they are built; columns of other terms are those of the level at the same position. Matrices of terms are given; exact arithmetic."
  },
  {
   "property": "C142",
   "status": "proved",
   "theorems": [
    "C142_pieces"
   ],
   "note": ""
  },
  {
   "property": "C143",
   "status": "partial",
   "theorems": [
    "C143_kept",
    "C143_first",
    "C143_new",
    "C143_passed",
    "C143_coef_refuted",
    "C143_gammlss_refuted"
   ],
   "note": "REFUTED as stated: C143_coef_refuted shows that restart=True ignores the stored coefficients (start values are those of a first fit), C143_gammlss_refuted that for GAMMLSS they cannot even be passed. Proved for all inputs: what happens to the smoothing parameters (kept, ValueError, given, default, IndexError if too few) and that passing the stored coefficients as init_coef resumes a GSMM."
  },
  {
   "property": "C144",
   "status": "partial",
   "theorems": [
    "C144_columns",
    "C144_given",
    "C144_off",
    "C144_null_refuted",
    "C144_float_refuted"
   ],
   "note": "REFUTED as stated: C144_null_refuted shows a smooth term without unpenalised part among the fixed columns, C144_float_refuted that a number of columns given as float raises TypeError. Proved for all formulas, budgets and draws: order, offsets, kinds of terms, count, never all coefficients."
  },
  {
   "property": "C145",
   "status": "partial",
   "theorems": [
    "C145_aligned",
    "C145_all",
    "C145_transformed",
    "C145_repeated",
    "C145_refuted"
   ],
   "note": "REFUTED as stated: C145_refuted shows two formulas whose responses are missing in different rows: the matrices have the same number of rows but rows of different subjects are combined. Proved if the missing responses agree, for all formulas; and without dropping rows."
  },
  {
   "property": "C146",
   "status": "partial",
   "theorems": [
    "C146_none",
    "C146_given",
    "C146_repeated_refuted",
    "C146_other_refuted"
   ],
   "note": "REFUTED as stated: fit writes n_samples into the dictionary of the caller; C146_repeated_refuted shows two identical calls that sample 10 (or 5, as given) and then 100 vectors, C146_other_refuted a model that uses the number of another model. Proved for all inputs if no dictionary is passed, or if it gives a number and qEFS_final_memory_usage is None."
  },
  {
   "property": "C147",
   "status": "partial",
   "theorems": [
    "C147_grid",
    "C147_single",
    "C147_fidiff_refuted",
    "C147_scale_refuted",
    "C147_single_refuted"
   ],
   "note": "REFUTED as stated: C147_fidiff_refuted shows that with Vp_fidiff=True a point visited by finite differencing replaces the estimate, C147_scale_refuted that a draw a thousand times smaller than the estimate counts as close (the difference of smoothing parameters is compared with a standard deviation of their logarithms), C147_single_refuted that one draw for one penalty raises. Proved for all other shapes and draws: rows, order, infinite draws, and that the estimate is added exactly if no draw is close on the scale of the smoothing parameters."
  },
  {
   "property": "C148",
   "status": "partial",
   "theorems": [
    "C148_serial",
    "C148_processes",
    "C148_failing",
    "C148_failing_refuted"
   ],
   "note": "REFUTED as stated: C148_failing_refuted shows a failing candidate that is skipped with one process and raises with two; C148_failing proves this for all inputs. Proved: with one process the result consists of the candidates that have a score, each evaluated at its own parameters; if all have one, the result is the same for every number of processes."
  },
  {
   "property": "C149",
   "status": "proved",
   "theorems": [
    "C149_pairs",
    "C149_quadratic",
    "C149_second"
   ],
   "note": "Random numbers are an oracle; the Cholesky factor by which draws are multiplied is an argument. C149_second assumes products of steps and differences that are not zero."
  },
  {
   "property": "C15",
   "status": "proved",
   "theorems": [
    "C15_memory_window"
   ],
   "note": ""
  },
  {
   "property": "C150",
   "status": "partial",
   "theorems": [
    "C150_radius",
    "C150_given",
    "C150_impossible",
    "C150_undefined_refuted"
   ],
   "note": "REFUTED as stated: C150_undefined_refuted shows that draws with undefined log-likelihood count as accepted, whatever their number, so that the radius ends above ten times the initial one. Proved: dual averaging for all inputs, with the Metropolis rates wherever these are defined; draws with log-likelihood minus infinity have rate zero and reduce the radius."
  },
  {
   "property": "C151",
   "status": "partial",
   "theorems": [
    "C151_passed",
    "C151_direct",
    "C151_fit_refuted"
   ],
   "note": "REFUTED as stated: C151_fit_refuted shows that the second version fails in every fit, whatever the options: GSMM.fit always adds n_samples, which scipy's jacobian does not accept. Proved: options of the first version are passed on unchanged; called directly with options of jacobian the second version runs."
  },
  {
   "property": "C152",
   "status": "proved",
   "theorems": [
    "C152_restart",
    "C152_weight"
   ],
   "note": "Random numbers are an oracle indexed by their seed."
  },
  {
   "property": "C153",
   "status": "partial",
   "theorems": [
    "C153_sampled",
    "C153_not_full",
    "C153_full_refuted"
   ],
   "note": "REFUTED as stated: C153_full_refuted shows a full memory to which a pair is added: the test includes the oldest pair, which is removed afterwards, and what is kept does not define an update. Proved: for sampled memories of every size and for pairs taken while the memory is not full."
  },
  {
   "property": "C154",
   "status": "partial",
   "theorems": [
    "C154_first",
    "C154_isotropic",
    "C154_one_refuted"
   ],
   "note": "REFUTED as stated: C154_one_refuted shows a model with one coefficient for which no draw is ever kept; C154_isotropic proves this for every number of coefficients if the curvature is the same in all directions. C154_first: the first pair is kept exactly if the curvature is negative or step and difference are not parallel. In exact arithmetic."
  },
  {
   "property": "C155",
   "status": "partial",
   "theorems": [
    "C155_estimate",
    "C155_one_refuted"
   ],
   "note": "REFUTED as stated: C155_one_refuted shows that for one coefficient the estimate is infinite with code 1 and a warning, because svds with k=1 needs more than one row. Proved for two or more coefficients whenever one of the solvers works. Solvers are oracles that give the largest singular value; exact arithmetic."
  },
  {
   "property": "C156",
   "status": "partial",
   "theorems": [
    "C156_fine",
    "C156_each",
    "C156_last",
    "C156_general",
    "C156_silent_refuted",
    "C156_raise_refuted",
    "C156_one_refuted"
   ],
   "note": "REFUTED as stated: C156_silent_refuted shows that Cholesky fits of additive models neither warn nor stop at level 2 (only level 1 is tested), C156_raise_refuted that other fits end with a TypeError instead of a warning, C156_one_refuted that a model with one coefficient is reported as badly conditioned or stopped. Proved: no effect at level 0, errors at the other levels, general models warn and store the level."
  },
  {
   "property": "C157",
   "status": "proved",
   "theorems": [
    "C157_qr"
   ],
   "note": "Matrices over any ordered field, exact arithmetic; cpp_dqrr is an oracle: a permutation of the columns, the rank, and independence of the leading columns."
  },
  {
   "property": "C158",
   "status": "partial",
   "theorems": [
    "C158_direct",
    "C158_lu",
    "C158_lu_refuted",
    "C158_single_refuted"
   ],
   "note": "REFUTED as stated: C158_lu_refuted shows that method 'LU' raises for a design with two equal columns (splu refuses exactly singular matrices and is called outside the try block), C158_single_refuted that a single coefficient is kept although its system is singular. Proved: the loop ends, returns a partition, and the system left is regular unless the search for the singular vector failed. Decompositions are oracles."
  },
  {
   "property": "C159",
   "status": "proved",
   "theorems": [
    "C159_belongs",
    "C159_terminates"
   ],
   "note": "Methods other than 'qEFS'. Log-likelihood, gradient, Newton step, random numbers, convergence check and search for coefficients are oracles; the only assumption on the family is that absent columns act like zero coefficients. Exceptions are outcomes."
  },
  {
   "property": "C16",
   "status": "proved",
   "theorems": [
    "C16_whitens",
    "C16_innovations",
    "C16_log_determinant"
   ],
   "note": ""
  },
  {
   "property": "C160",
   "status": "partial",
   "theorems": [
    "C160_not_worse",
    "C160_restart_refuted"
   ],
   "note": "REFUTED as stated: C160_restart_refuted has an undefined Newton step at apparent convergence, after which coefficients are replaced by a mixture with random numbers that is accepted although it is worse. Proved if the log-likelihood is a number at each step proposed and nothing is dropped."
  },
  {
   "property": "C161",
   "status": "partial",
   "theorems": [
    "C161_pairs",
    "C161_options_refuted"
   ],
   "note": "REFUTED as stated: C161_options_refuted shows that options without 'maxcor' end with a KeyError after the coefficients have been estimated. Proved for options with 'maxcor' and any sequence of linear penalties, if L-BFGS-B returns at most maxcor pairs in order (its contract)."
  },
  {
   "property": "C162",
   "status": "proved",
   "theorems": [
    "C162_split"
   ],
   "note": "Rows are of an arbitrary type; exceptions (index errors) are outcomes and the theorem is about calls that return."
  },
  {
   "property": "C163",
   "status": "partial",
   "theorems": [
    "C163_signals",
    "C163_bumps",
    "C163_shared_refuted"
   ],
   "note": "REFUTED as stated: C163_shared_refuted shows that bump models with two signals and a shared term read the first signal twice and never the second, for both settings of shared_m. Proved for all states with families (any shared terms) and for bump models without shared terms."
  },
  {
   "property": "C164",
   "status": "partial",
   "theorems": [
    "C164_same",
    "C164_twice_refuted",
    "C164_transitions_refuted"
   ],
   "note": "REFUTED as stated: with one series and an autoregressive model observations are transformed twice (C164_twice_refuted), and with transition matrices given per series those of the first series are used for all (C164_transitions_refuted). Proved otherwise: whatever the residuals' decoding gets is what decoding gets."
  },
  {
   "property": "C165",
   "status": "partial",
   "theorems": [
    "C165_probabilities",
    "C165_new_data_refuted"
   ],
   "note": "REFUTED as stated: for data of another length and an autoregressive model compute_od_probs raises, and decoding takes observations as they are although expected bumps are transformed (C165_new_data_refuted). Proved: when both run, probabilities are computed from the data that decoding uses."
  },
  {
   "property": "C166",
   "status": "partial",
   "theorems": [
    "C166_shared",
    "C166_second_refuted"
   ],
   "note": "REFUTED as stated: shared_pars=[1] always raises IndexError (C166_second_refuted). Proved for shared_pars = [0, ..., k-1] and states with one family per signal."
  },
  {
   "property": "C167",
   "status": "proved",
   "theorems": [
    "C167_simulated",
    "C167_seeds"
   ],
   "note": "States with one family per signal; models that are not bump models. Seeds of different series are the subject of C130."
  },
  {
   "property": "C168",
   "status": "partial",
   "theorems": [
    "C168_apart",
    "C168_again",
    "C168_data_refuted",
    "C168_nested_refuted",
    "C168_subgroup_refuted"
   ],
   "note": "REFUTED as stated: a second formula with other data replaces the constraint used by the first model (C168_data_refuted: the function does not sum to zero over its own data any more), coefficients dropped in one formula stay dropped in the next (C168_nested_refuted), and terms with by_subgroup cannot be used again (C168_subgroup_refuted, KeyError). Proved: formulas without common term objects do not affect each other, and building again from the same data changes nothing for terms without subgroups."
  },
  {
   "property": "C169",
   "status": "partial",
   "theorems": [
    "C169_documented",
    "C169_refuted",
    "C169_slope_refuted"
   ],
   "note": "REFUTED as stated: ids of penalties are id plus position, so the second penalty of a tensor smooth with id 1 shares with a term with id 2 (C169_refuted), levels of random slopes likewise (C169_slope_refuted). Proved as an equivalence if the ids of different terms leave room for the penalties between them. Null space penalties are left out."
  },
  {
   "property": "C17",
   "status": "partial",
   "theorems": [
    "C17_missing_start_refuted",
    "C17_whitens_remaining_rows"
   ],
   "note": "REFUTED as stated: if the first row of a series is missing, the first remaining row of the series is not treated as a start. Proved when every series keeps its first row."
  },
  {
   "property": "C170",
   "status": "partial",
   "theorems": [
    "C170_each",
    "C170_default",
    "C170_default_refuted",
    "C170_lists",
    "C170_lists_refuted"
   ],
   "note": "REFUTED as stated: with the default rp=2 of tensor smooths every term with two or more penalties is accepted but raises IndexError when its penalties are built (C170_default, C170_default_refuted); a list of basis_kwargs, a list nk for binary smooths, and a list nk for one variable raise TypeError (C170_lists, C170_lists_refuted). Proved for all lists of penalties without transformations and for one penalty with them."
  },
  {
   "property": "C171",
   "status": "partial",
   "theorems": [
    "C171_draws",
    "C171_stored",
    "C171_seed_refuted"
   ],
   "note": "REFUTED as stated: seed=None, which is documented, always raises TypeError (C171_seed_refuted, line 7834). Proved for all integer seeds; random draws are an oracle that returns accepted vectors."
  },
  {
   "property": "C172",
   "status": "partial",
   "theorems": [
    "C172_defined",
    "C172_unpenalised",
    "C172_unpenalised_refuted"
   ],
   "note": "REFUTED as stated: a model without penalties fitted with method='qEFS' and default qEFS_final_memory_usage has edf None (C172_unpenalised for all draws that accept something, C172_unpenalised_refuted). Proved with penalties, for other methods, and without final sampling."
  },
  {
   "property": "C173",
   "status": "partial",
   "theorems": [
    "C173_start",
    "C173_restart",
    "C173_message_refuted"
   ],
   "note": "REFUTED as stated: with default arguments restart=True before the first fit raises TypeError from len(None) (C173_message_refuted). Proved: penalties and inner iterations of all calls that return, and that such a restart always raises."
  },
  {
   "property": "C174",
   "status": "partial",
   "theorems": [
    "C174_resid",
    "C174_unfitted",
    "C174_family_refuted"
   ],
   "note": "REFUTED as stated: type='family' passes the check of the argument and returns None (C174_family_refuted). Proved for all other types."
  },
  {
   "property": "C175",
   "status": "proved",
   "theorems": [
    "C175_location_scale",
    "C175_multivariate",
    "C175_survival"
   ],
   "note": "Deviance residuals of events with a cumulative hazard below machine epsilon (where the code replaces the logarithm) are outside the statement."
  },
  {
   "property": "C176",
   "status": "partial",
   "theorems": [
    "C176_densities",
    "C176_categories",
    "C176_multivariate",
    "C176_seeds_refuted"
   ],
   "note": "REFUTED as stated: MultiGauss.rvs starts the generator for row i with seed + i, so data sets with neighbouring seeds share rows if means are equal (C176_seeds_refuted). Proved: densities, means, variances, probabilities, covariance, separate streams within a data set. Drawing by scipy is an oracle; np.linalg.inv is assumed to return an inverse."
  },
  {
   "property": "C177",
   "status": "partial",
   "theorems": [
    "C177_lines",
    "C177_p_refuted"
   ],
   "note": "REFUTED as stated: the degrees of freedom are observations minus all coefficients (penalised ones too); with at least as many coefficients as observations every p-value is NaN (C177_p_refuted). Proved for positive degrees of freedom and for normal distributions. Distribution functions are parameters assumed symmetric; rounding is left out."
  },
  {
   "property": "C178",
   "status": "partial",
   "theorems": [
    "C178_parts",
    "C178_resid",
    "C178_no_theta_refuted"
   ],
   "note": "REFUTED as stated: for an ExtendedFamily without parameters coef[:-0] is empty (C178_no_theta_refuted). Proved for families with at least one parameter and for other families."
  },
  {
   "property": "C179",
   "status": "partial",
   "theorems": [
    "C179_responses",
    "C179_llk",
    "C179_unfitted",
    "C179_compare_refuted"
   ],
   "note": "REFUTED as stated: compare_CDL passes drop_NA to correct_VB but not to get_llk, so that models fitted with drop_NA=False are compared by another log-likelihood (C179_compare_refuted). Proved for get_llk and for compare_CDL of fits that drop rows."
  },
  {
   "property": "C18",
   "status": "partial",
   "theorems": [
    "C18_gamm_llk",
    "C18_hsmm_sign_refuted",
    "C18_hsmm_llk_partial"
   ],
   "note": "REFUTED for hidden semi-Markov models: the log-determinant correction is subtracted instead of added. Proved for additive models; the partial theorem states by how much the hidden semi-Markov log-likelihood is off."
  },
  {
   "property": "C180",
   "status": "partial",
   "theorems": [
    "C180_moments",
    "C180_weights",
    "C180_scale",
    "C180_scale_refuted"
   ],
   "note": "REFUTED as stated: n is an array of float holding the residual degrees of freedom, and the binding of Davies' routine casts it to int, while the weight is divided by the uncut number; the denominator then does not have mean 1 (C180_scale_refuted). Proved for whole residual degrees of freedom; the part about r for all fractional r > 1."
  },
  {
   "property": "C181",
   "status": "partial",
   "theorems": [
    "C181_range",
    "C181_negative_refuted",
    "C181_failed",
    "C181_close"
   ],
   "note": "REFUTED as stated: with an estimated scale the result of Davies' routine is not capped at 1, as it is otherwise, and a value above 1 within its accuracy gives a negative p-value (C181_negative_refuted). Proved: p-values exceed the interval by at most the accuracy, and are not negative for a known scale (as long as the routine does not report code 2, possible round-off, for which its value is used as it is). Distribution functions and Davies' routine are parameters with a contract."
  },
  {
   "property": "C182",
   "status": "proved",
   "theorems": [
    "C182_pick"
   ],
   "note": "Penalties are given in order of their first coefficient, as split_shared_penalties returns them."
  },
  {
   "property": "C183",
   "status": "partial",
   "theorems": [
    "C183_rows",
    "C183_answers",
    "C183_small",
    "C183_default_refuted"
   ],
   "note": "REFUTED as stated: the default n_sel=1e5 is a float, which the generator refuses as size; with more than 100000 rows the default gives a TypeError (C183_default_refuted). Proved for integers. That numpy refuses a float as size is assumed."
  },
  {
   "property": "C184",
   "status": "partial",
   "theorems": [
    "C184_range",
    "C184_sorted",
    "C184_known",
    "C184_scale",
    "C184_refuted"
   ],
   "note": "REFUTED as stated: the loop over k ends after its first round, so that a weight that is larger than the last one goes to the first place and overwrites what was there (C184_refuted). For models with estimated scale this happens whenever the statistic over the residual degrees of freedom exceeds the smallest weight (C184_scale). Proved for weights that are in order and for the weights used with a known scale; entries always are valid places."
  },
  {
   "property": "C185",
   "status": "partial",
   "theorems": [
    "C185_small",
    "C185_refuted"
   ],
   "note": "REFUTED as stated: with the ranking of C184 degrees of freedom are counted twice and others not at all (C185_refuted). Proved for any correct ranking."
  },
  {
   "property": "C186",
   "status": "proved",
   "theorems": [
    "C186_bound"
   ],
   "note": "Over the reals; the series of log1 stands for the logarithm."
  },
  {
   "property": "C187",
   "status": "proved",
   "theorems": [
    "C187_invalid",
    "C187_answers",
    "C187_work"
   ],
   "note": "Bounds and integrals are arbitrary real functions; NaN and out of memory (code 5) are left out."
  },
  {
   "property": "C188",
   "status": "partial",
   "theorems": [
    "C188_identity",
    "C188_values",
    "C188_root",
    "C188_rank",
    "C188_root_refuted",
    "C188_rank_refuted"
   ],
   "note": "REFUTED as stated: with `f` the root is the penalty itself, which is right only for values 0 and 1 (C188_root is an equivalence), and the rank is the size, which is right only if f has no zeros (C188_rank). Proved without f."
  },
  {
   "property": "C189",
   "status": "partial",
   "theorems": [
    "C189_built",
    "C189_kept",
    "C189_refuted",
    "C189_none_refuted"
   ],
   "note": "REFUTED as stated: whenever build_mat is given, even if it asks for every matrix, preds and mus are not assigned and stay those of an earlier fit, or None. Proved for every sequence of fits whose last one has build_mat=None."
  },
  {
   "property": "C19",
   "status": "proved",
   "theorems": [
    "C19_links_invert"
   ],
   "note": ""
  },
  {
   "property": "C190",
   "status": "partial",
   "theorems": [
    "C190_identity",
    "C190_only",
    "C190_refuted"
   ],
   "note": "REFUTED as stated: the residuals are observation minus linear predictor whatever the link; they are right exactly for the identity (C190_only is an equivalence)."
  },
  {
   "property": "C191",
   "status": "proved",
   "theorems": [
    "C191_findu",
    "C191_ctff"
   ],
   "note": "For any bounds; the factor of 1.2 (1.1 is proved) needs that the bound of the truncation error does not increase, which is a hypothesis of that part. C186 says what bound and cutoff of errbd are."
  },
  {
   "property": "C192",
   "status": "proved",
   "theorems": [
    "C192_integral"
   ],
   "note": "The square of the characteristic function is written with complex powers and exponentials; the function itself is given as the continuous root that is 1 at 0. The series of log1 stands for the logarithm; reals instead of doubles."
  },
  {
   "property": "C193",
   "status": "proved",
   "theorems": [
    "C193_size"
   ],
   "note": "Over the reals."
  },
  {
   "property": "C194",
   "status": "proved",
   "theorems": [
    "C194_error",
    "C194_limit",
    "C194_direct"
   ],
   "note": "Over the reals, where the loop would not end; the number of rounds is a parameter."
  },
  {
   "property": "C195",
   "status": "partial",
   "theorems": [
    "C195_unit",
    "C195_antitone",
    "C195_equal",
    "C195_increase",
    "C195_refuted"
   ],
   "note": "REFUTED as stated: where 2 u |lambda| passes 1 for a second weight, the smaller of the two bounds is lost and the bound jumps up (C195_increase), so that findu can step over an interval in which it is not within the accuracy and miss a good point at u / 1.2 (C195_refuted: weights 10 and 1/2 with 4 and 24 degrees of freedom). Only the integration gets longer than necessary; the accuracy at the returned point holds (C191). Proved: the bound is between 0 and 1, does not increase between two points unless a further weight is passed, and the comment holds if all weights have the same size."
  },
  {
   "property": "C196",
   "status": "proved",
   "theorems": [
    "C196_modulus",
    "C196_tail",
    "C196_findu"
   ],
   "note": "Over the reals; E is any continuous root of the squared characteristic function (as in C192), and the modulus at u is assumed not to be below exp(-50), where exp1 returns zero. All three bounds of the function are covered, among them the constant 2.5 for which the source gives no reason. A returned 1 means no bound."
  },
  {
   "property": "C197",
   "status": "proved",
   "theorems": [
    "C197_order",
    "C197_P1",
    "C197_P2",
    "C197_twice"
   ],
   "note": "Columns are distinct because GSMM.fit applies np.unique (models.py:1120-1122); C197_twice shows that this is needed, as a column listed twice would make the order longer than the coefficients. Columns outside the coefficients, which a user may list, are not covered."
  },
  {
   "property": "C198",
   "status": "partial",
   "theorems": [
    "C198_chosen",
    "C198_some",
    "C198_listed",
    "C198_refuted"
   ],
   "note": "REFUTED as stated: columns listed by the user are only sorted and made distinct, so that a list with all coefficients leaves none to the updates (which the routine avoids for its own choice at models.py:1111-1112), and an empty list leaves none to be differenced (C198_refuted, C198_listed). Proved for int and float budgets: distinct coefficients of visited terms, in order, within the budget (at least one), one coefficient left. Assumes that coef_idx_per_term of the terms of a formula are disjoint and below n_coef, and that the draw is without replacement."
  },
  {
   "property": "C20",
   "status": "proved",
   "theorems": [
    "C20_link_derivatives"
   ],
   "note": ""
  },
  {
   "property": "C21",
   "status": "proved",
   "theorems": [
    "C21_deviance"
   ],
   "note": ""
  },
  {
   "property": "C22",
   "status": "proved",
   "theorems": [
    "C22_variance"
   ],
   "note": ""
  },
  {
   "property": "C23",
   "status": "proved",
   "theorems": [
    "C23_newton",
    "C23_fisher",
    "C23_canonical",
    "C23_newton_general"
   ],
   "note": "All provided exponential families with all provided links, and any family and link with the stated derivatives."
  },
  {
   "property": "C24",
   "status": "proved",
   "theorems": [
    "C24_transform"
   ],
   "note": ""
  },
  {
   "property": "C25",
   "status": "proved",
   "theorems": [
    "C25_probabilities",
    "C25_derivatives"
   ],
   "note": ""
  },
  {
   "property": "C26",
   "status": "proved",
   "theorems": [
    "C26_gaussian",
    "C26_gamma"
   ],
   "note": "Moments of the response are hypotheses on an arbitrary expectation functional; they are not derived by integration."
  },
  {
   "property": "C27",
   "status": "proved",
   "theorems": [
    "C27_deviance",
    "C27_mean_derivatives",
    "C27_expected",
    "C27_variance",
    "C27_theta"
   ],
   "note": "The moments in C27_expected and C27_variance are hypotheses, not derived by integration."
  },
  {
   "property": "C28",
   "status": "partial",
   "theorems": [
    "C28_log_link_refuted",
    "C28_exponential",
    "C28_extended_identity"
   ],
   "note": "REFUTED as stated: for an extended family the derivative of the link is evaluated at the derivative of the deviance instead of at the mean. Proved for exponential families with every link and for the scaled t family with its default identity link."
  },
  {
   "property": "C29",
   "status": "partial",
   "theorems": [
    "C29_log_link_refuted",
    "C29_layout",
    "C29_bijection",
    "C29_log_determinant",
    "C29_llk",
    "C29_gradient_factor",
    "C29_gradient_identity"
   ],
   "note": "REFUTED as stated: the gradient of the mean coefficients lacks the derivative of the inverse link. Layout, bijection and log-determinant are proved for every dimension; the gradient is proved for the parameters of the factor with all links, and for all coefficients with identity links."
  },
  {
   "property": "C30",
   "status": "proved",
   "theorems": [
    "C30_partial_likelihood"
   ],
   "note": "The table of event times is assumed to hold exactly the times of the subjects, as documented."
  },
  {
   "property": "C31",
   "status": "proved",
   "theorems": [
    "C31_gradient"
   ],
   "note": ""
  },
  {
   "property": "C32",
   "status": "partial",
   "theorems": [
    "C32_between_refuted",
    "C32_after_last_refuted",
    "C32_baseline_hazard",
    "C32_survival_at_event_times"
   ],
   "note": "REFUTED as stated: between event times the hazard of the next later event time is used, and after the last one a ValueError is raised. Proved at event times; the baseline hazard is Breslow's estimate, non-negative and non-decreasing."
  },
  {
   "property": "C33",
   "status": "proved",
   "theorems": [
    "C33_equation",
    "C33_derivative"
   ],
   "note": ""
  },
  {
   "property": "C34",
   "status": "proved",
   "theorems": [
    "C34_hessian",
    "C34_inverse_secant",
    "C34_mutually_inverse"
   ],
   "note": "scipy's inverse is an oracle that inverts invertible matrices."
  },
  {
   "property": "C35",
   "status": "partial",
   "theorems": [
    "C35_failed_factor_refuted",
    "C35_inverse",
    "C35_inverse_dampened"
   ],
   "note": "REFUTED as stated: the error code of the pivoted Cholesky factorisation of the first term plus penalty is ignored, so an indefinite first term yields a matrix that inverts nothing. Proved when the factorisation succeeds and the partial sums are invertible. The clamping of tiny singular values is not modelled (the inner inverse is an oracle)."
  },
  {
   "property": "C36",
   "status": "proved",
   "theorems": [
    "C36_newton_step",
    "C36_terminates"
   ],
   "note": "Factorisation and triangular inversion are oracles meeting their contracts."
  },
  {
   "property": "C37",
   "status": "partial",
   "theorems": [
    "C37_int_mean_refuted",
    "C37_inverse_root",
    "C37_pivoted_inverse_root",
    "C37_pivoted_factor",
    "C37_refuses"
   ],
   "note": "REFUTED for an integer mean other than 0, which is accepted but dropped. Proved for mean vectors: the samples are an affine image of the draws with the right covariance factor, for each accepted combination of arguments."
  },
  {
   "property": "C38",
   "status": "proved",
   "theorems": [
    "C38_permutation",
    "C38_unpivot"
   ],
   "note": ""
  },
  {
   "property": "C39",
   "status": "partial",
   "theorems": [
    "C39_te_refuted",
    "C39_marginals_centred",
    "C39_tensor_centred",
    "C39_orthogonal_factor",
    "C39_penalty_follows"
   ],
   "note": "REFUTED as stated: for a te with the default reparameterisation the constraint is computed from the bases before they are reparameterised, so the columns do not sum to zero. Proved: univariate smooths and marginals of tensor interactions for every reparameterisation, te without reparameterisation, the functions that remain and the penalty. For the sparse constraints see C82."
  },
  {
   "property": "C40",
   "status": "proved",
   "theorems": [
    "C40_forward",
    "C40_all_series"
   ],
   "note": "Bump durations are assumed to be fixed at the event width, as the python code sets them. A series without possible segmentation gives NaN or -inf in C++ and -inf in python."
  },
  {
   "property": "C41",
   "status": "proved",
   "theorems": [
    "C41_viterbi",
    "C41_identified"
   ],
   "note": "Bump durations fixed as in C40."
  },
  {
   "property": "C42",
   "status": "partial",
   "theorems": [
    "C42_tv_refuted",
    "C42_ar_refuted",
    "C42_posterior"
   ],
   "note": "REFUTED as stated: with time-varying durations the sampler uses the duration probabilities of the wrong time point; with an AR model for bumps it ignores that the first observation of a flat has its own probability. Proved for all other models, every length and every boundary option."
  },
  {
   "property": "C43",
   "status": "partial",
   "theorems": [
    "C43_serial_refuted",
    "C43_two_states_refuted",
    "C43_probabilities",
    "C43_shape",
    "C43_parallel",
    "C43_serial"
   ],
   "note": "REFUTED as stated: with lists of fixed matrices and one process all series get the matrices of the first, because the loop rebinds the variables the inner function refers to; with two states and time-varying models the array has four dimensions. Proved otherwise."
  },
  {
   "property": "C44",
   "status": "partial",
   "theorems": [
    "C44_irf_names_refuted",
    "C44_model_matrix",
    "C44_names",
    "C44_setup"
   ],
   "note": "REFUTED for names only: an impulse response with a by-factor reports L*L*n names for L*n coefficients. Columns, coefficients and positions are proved for all formulas of the modelled terms (all but fs and nested smooths), names without such terms. Formulas without missing values."
  },
  {
   "property": "C45",
   "status": "partial",
   "theorems": [
    "C45_drop_refuted",
    "C45_drop_last_partial"
   ],
   "note": "REFUTED as stated: the columns that are kept are renumbered and then taken from the first columns of the basis. True if only the last columns are dropped."
  },
  {
   "property": "C46",
   "status": "partial",
   "theorems": [
    "C46_unpenalised_irf_refuted",
    "C46_penalties_tile",
    "C46_penalties_built"
   ],
   "note": "REFUTED as stated: an unpenalised impulse response advances the position twice, so the consistency check at the end raises. Proved for all other formulas (one penalty per marginal)."
  },
  {
   "property": "C47",
   "status": "proved",
   "theorems": [
    "C47_coding"
   ],
   "note": "Codebooks have to be injective and below the number of levels."
  },
  {
   "property": "C48",
   "status": "partial",
   "theorems": [
    "C48_single_level_refuted",
    "C48_linear_columns",
    "C48_rows_and_levels"
   ],
   "note": "REFUTED as stated: with a constant, a factor with a single level disappears from an interaction instead of making it empty, which repeats the other predictor. Proved when every factor of an interaction has a level to code."
  },
  {
   "property": "C49",
   "status": "proved",
   "theorems": [
    "C49_all_interactions"
   ],
   "note": ""
  },
  {
   "property": "C50",
   "status": "partial",
   "theorems": [
    "C50_names_refuted",
    "C50_empty_refuted",
    "C50_irf_refuted",
    "C50_blocks",
    "C50_matrix",
    "C50_files"
   ],
   "note": "REFUTED as stated: with the cache, files of the same name in different directories are confused; a file or slice without usable rows raises an exception; with impulse response terms the matrix cannot be built by several processes. Proved otherwise, for every number of processes, order of execution, number of evaluations, with and without the cache."
  },
  {
   "property": "C51",
   "status": "partial",
   "theorems": [
    "C51_crash_refuted",
    "C51_nested_refuted",
    "C51_restored",
    "C51_existing"
   ],
   "note": "REFUTED as stated: after a crash every caching fit is refused; an empty directory above the cache directory is removed with it. Proved: a fit that ends restores the state of the working directory, whatever is written, if no existing directory above the cache directory is empty."
  },
  {
   "property": "C52",
   "status": "proved",
   "theorems": [
    "C52_split"
   ],
   "note": "Split positions as fit computes them, with or without extra coefficients; after coefficients are dropped see C62."
  },
  {
   "property": "C53",
   "status": "proved",
   "theorems": [
    "C53_sum",
    "C53_all",
    "C53_term",
    "C53_interval",
    "C53_difference"
   ],
   "note": "Prediction for any selection of terms is the sum of the predictions for each (and without a selection over all terms); one term's prediction applies that term's columns to that term's coefficients inside the coefficients of the parameter; half width = normal quantile times posterior standard deviation of the prediction; a difference prediction is the difference, with the standard deviation of the difference, and exchanging the data sets changes only the sign. Real arithmetic; encode_data's mapping of levels is C47."
  },
  {
   "property": "C54",
   "status": "partial",
   "theorems": [
    "C54_latest",
    "C54_answers",
    "C54_rho_refuted",
    "C54_transform_refuted",
    "C54_edf1_refuted",
    "C54_failed_refuted"
   ],
   "note": "REFUTED as stated: rho, res_ar and transform_X are only ever set, never reset, bias corrected degrees of freedom are computed once, and a failing fit has already replaced rho. Proved: after any history of fits and queries a fit answers every query like a new model would, if rho and transform_X are given in the last call or were never given (and, for edf1, it is recomputed or was not asked for before). GAMM with data in memory; the solver, the family and matrix operations are parameters."
  },
  {
   "property": "C55",
   "status": "partial",
   "theorems": [
    "C55_multiplier",
    "C55_cancel_refuted",
    "C55_altered_refuted",
    "C55_zero_row_refuted"
   ],
   "note": "REFUTED as stated: coefficients are selected by the sum of their column, so a column whose entries cancel is left out (C55_cancel_refuted); b *= bmadq overwrites the caller's array (C55_altered_refuted); one row with half width zero turns the whole interval into NaN (C55_zero_row_refuted). C55_multiplier: without cancelling columns and zero half widths the multiplier is the quantile over draws of the largest ratio computed from all coefficients."
  },
  {
   "property": "C56",
   "status": "partial",
   "theorems": [
    "C56_mirror",
    "C56_aic",
    "C56_theta_refuted",
    "C56_order_refuted",
    "C56_settings_refuted"
   ],
   "note": "REFUTED as stated: theta of the second model is not counted if the first model's was fixed; with equally many coefficients and a higher likelihood for the model with fewer degrees of freedom the p-value is a number in one order and NaN in the other; the options of the uncertainty correction are resolved from the first model. Proved outside these cases. correct_VB (with a fixed seed), the trace used for the t1 correction and the two distribution functions are parameters."
  },
  {
   "property": "C57",
   "status": "proved",
   "theorems": [
    "C57_edf_adds_up",
    "C57_edf_bounds"
   ],
   "note": "The traces are computed from the inverse of a Cholesky factor (InvChol branch); the bounds hold for every positive semi-definite negative Hessian and every list of penalties laid out as build_penalties does and in which an id is used never or at least twice (the other case is C01_single_id_refuted)."
  },
  {
   "property": "C58",
   "status": "partial",
   "theorems": [
    "C58_uniform",
    "C58_centered",
    "C58_valid_refuted"
   ],
   "note": "REFUTED as stated: values are moved to 0.9 times the limit, which is outside the support if both limits have the same sign, e.g. for the centered prior around 5 with half width 2. Proved: densities, values within the support kept, and validity for all inputs exactly if the limits enclose zero."
  },
  {
   "property": "C59",
   "status": "partial",
   "theorems": [
    "C59_degree_zero_refuted",
    "C59_cox_de_boor",
    "C59_partition",
    "C59_degree_zero"
   ],
   "note": "REFUTED for degree zero only: at the lower limit all basis functions are zero, so the row sums to zero. Proved for every degree from one on (and for degree zero above the lower limit); the columns are shown to be the B-splines of the Cox-de Boor recursion."
  },
  {
   "property": "C60",
   "status": "proved",
   "theorems": [
    "C60_superposition",
    "C60_shift",
    "C60_builds"
   ],
   "note": "An irf term has one event per series; several events are several terms. By factors and tensor products included; tolerance zero."
  },
  {
   "property": "C61",
   "status": "partial",
   "theorems": [
    "C61_shape_refuted",
    "C61_blocks",
    "C61_second_derivatives"
   ],
   "note": "REFUTED only for the shape: the sparse matrix is built without a shape, so it lacks rows if the last column of the last model matrix is empty. Proved: blocks, symmetry, and, if the last coefficient has an explicit entry, that gradient and Hessian are the first and second derivatives of the log-likelihood with one row per coefficient."
  },
  {
   "property": "C62",
   "status": "partial",
   "theorems": [
    "C62_extra_refuted",
    "C62_check_refuted",
    "C62_unbuilt_refuted",
    "C62_aligned",
    "C62_predictors",
    "C62_padded_matrices",
    "C62_extra"
   ],
   "note": "REFUTED as stated: for families with extra coefficients the final step loses their position if there are several formulas, and the check before it misplaces them if there is one; matrices that were not built lead to an exception. Proved for models without extra coefficients, and for each of the two steps in the other case."
  },
  {
   "property": "C63",
   "status": "partial",
   "theorems": [
    "C63_unsorted_refuted",
    "C63_trace_terms_aligned"
   ],
   "note": "REFUTED for the order of penalties the formula code produces for by-smooths with several penalties next to a shared id. Proved for lists sorted by first coefficient."
  },
  {
   "property": "C64",
   "status": "partial",
   "theorems": [
    "C64_undefined_means_refuted",
    "C64_all_means_defined"
   ],
   "note": "REFUTED as stated: observations whose mean is undefined are left out of the deviance, so a step that makes means undefined can be accepted. Proved when all proposed means are defined."
  },
  {
   "property": "C65",
   "status": "partial",
   "theorems": [
    "C65_extension_refuted",
    "C65_fitted_at_returned"
   ],
   "note": "REFUTED with accelerated steps: undoing an extension can leave a step so small that the loop stops, and the model fitted at the extended parameter is returned. Without extended steps the difference is less than 1e-7 per parameter."
  },
  {
   "property": "C66",
   "status": "partial",
   "theorems": [
    "C66_negative_rho_refuted",
    "C66_bump_means"
   ],
   "note": "REFUTED for negative auto-correlations. Proved for non-negative ones."
  },
  {
   "property": "C67",
   "status": "proved",
   "theorems": [
    "C67_log_density"
   ],
   "note": "Means and variances of the reference distributions are the textbook ones; they are not derived by integration."
  },
  {
   "property": "C68",
   "status": "proved",
   "theorems": [
    "C68_intervals"
   ],
   "note": ""
  },
  {
   "property": "C69",
   "status": "partial",
   "theorems": [
    "C69_off_diagonal_refuted",
    "C69_hessian"
   ],
   "note": "REFUTED as stated: for an off-diagonal parameter of the factor, its own second derivative contains a term that belongs to diagonal parameters only. All other entries are proved with identity links."
  },
  {
   "property": "C70",
   "status": "partial",
   "theorems": [
    "C70_fisher_log_refuted",
    "C70_newton",
    "C70_fisher_identity"
   ],
   "note": "REFUTED as stated: the Fisher variant keeps the observed first derivative, so with a non-identity link its weights depend on the response and can be negative. Proved for the Newton variant, and for the Fisher variant with identity link."
  },
  {
   "property": "C71",
   "status": "partial",
   "theorems": [
    "C71_stale_refuted",
    "C71_fresh"
   ],
   "note": "REFUTED as stated: the table of hazards is computed by the first call on an object and never again. Proved for the first call and for later calls with the same coefficients."
  },
  {
   "property": "C72",
   "status": "proved",
   "theorems": [
    "C72_hessian"
   ],
   "note": ""
  },
  {
   "property": "C73",
   "status": "proved",
   "theorems": [
    "C73_martingale"
   ],
   "note": ""
  },
  {
   "property": "C74",
   "status": "proved",
   "theorems": [
    "C74_delta_method"
   ],
   "note": ""
  },
  {
   "property": "C75",
   "status": "partial",
   "theorems": [
    "C75_definite_refuted",
    "C75_semidefinite",
    "C75_definite"
   ],
   "note": "REFUTED for the stronger option: if every eigenvalue needs fixing the lift is a multiple of zero and the matrix stays singular. Semi-definiteness and unchanged directions are proved in general; definiteness when at least one eigenvalue needs no fixing."
  },
  {
   "property": "C76",
   "status": "proved",
   "theorems": [
    "C76_implicit_is_explicit",
    "C76_blocks",
    "C76_semidefinite"
   ],
   "note": ""
  },
  {
   "property": "C77",
   "status": "proved",
   "theorems": [
    "C77_triplets"
   ],
   "note": ""
  },
  {
   "property": "C78",
   "status": "proved",
   "theorems": [
    "C78_terms"
   ],
   "note": "No coefficient dropped and a successful factorisation; the case of dropped coefficients differs only in the derivatives, see C79."
  },
  {
   "property": "C79",
   "status": "partial",
   "theorems": [
    "C79_dropped_refuted",
    "C79_coefficient_derivative",
    "C79_dropped",
    "C79_dropped_unit"
   ],
   "note": "REFUTED as stated: with dropped coefficients the inverse is multiplied by the scale although the system is unscaled, so the derivatives are scale times too large. Proved without dropped coefficients and, with them, for scale 1 (C79_dropped states the factor)."
  },
  {
   "property": "C80",
   "status": "partial",
   "theorems": [
    "C80_sign_refuted",
    "C80_minus_derivative"
   ],
   "note": "REFUTED as stated: the returned matrix is minus the derivative (proved in general)."
  },
  {
   "property": "C81",
   "status": "partial",
   "theorems": [
    "C81_codebook_refuted",
    "C81_names_and_levels"
   ],
   "note": "REFUTED as stated: with a codebook the names of by-smooths list levels alphabetically while their columns follow the codes. Proved for all terms but impulse responses; for by-smooths if the codes follow the alphabet."
  },
  {
   "property": "C82",
   "status": "proved",
   "theorems": [
    "C82_same_matrix",
    "C82_any_function",
    "C82_constant_removed"
   ],
   "note": ""
  },
  {
   "property": "C83",
   "status": "partial",
   "theorems": [
    "C83_impossible_refuted"
   ],
   "note": "REFUTED: the last state is -1 and psi is read at that index."
  },
  {
   "property": "C84",
   "status": "proved",
   "theorems": [
    "C84_polynomials"
   ],
   "note": "Degree at least one."
  },
  {
   "property": "C85",
   "status": "partial",
   "theorems": [
    "C85_late_start_refuted",
    "C85_regular"
   ],
   "note": "REFUTED as stated: the basis is evaluated at the absolute times of the series before it is shifted, so the response is right only if the series starts at time zero (proved for those)."
  },
  {
   "property": "C86",
   "status": "partial",
   "theorems": [
    "C86_selection_refuted",
    "C86_first_series"
   ],
   "note": "REFUTED as stated: prediction pairs the series of the new data with the event onsets of the fitted data from the first one on. Proved for the first series in their order."
  },
  {
   "property": "C87",
   "status": "partial",
   "theorems": [
    "C87_options_refuted",
    "C87_missing_refuted",
    "C87_same"
   ],
   "note": "REFUTED as stated: files are read during the fit without the loading options, and with keep_cov rows with missing predictors are kept. Proved if neither matters."
  },
  {
   "property": "C88",
   "status": "partial",
   "theorems": [
    "C88_missing_refuted",
    "C88_reference_refuted",
    "C88_constraints",
    "C88_limits",
    "C88_levels"
   ],
   "note": "REFUTED as stated: one missing value in a file makes the limits undefined, and the order of levels, hence the reference level, is the iteration order of a set. Proved: constraints and limits without missing values, and the set of levels."
  },
  {
   "property": "C89",
   "status": "partial",
   "theorems": [
    "C89_integer",
    "C89_general",
    "C89_orientation",
    "C89_first",
    "C89_orientation_refuted",
    "C89_zero_entry_refuted"
   ],
   "note": "REFUTED as stated: the second of the two statistics undoes the sign convention, so for degrees of freedom that are not an integer statistic and p-value depend on the relative orientation of two eigenvectors; np.sign(0) = 0 removes eigenvectors whose first entry is zero. Proved for integer degrees of freedom with non-zero first entries, and for orientations in which the last two eigenvectors are reversed together. Eigendecomposition and distribution functions are parameters."
  },
  {
   "property": "C90",
   "status": "partial",
   "theorems": [
    "C90_own",
    "C90_irf_refuted",
    "C90_unpenalised_refuted"
   ],
   "note": "REFUTED as stated: neither coefficients nor degrees of freedom of impulse response terms are skipped, and coefficients of unpenalised smooths are skipped before the first smooth. Proved for formulas without impulse response terms in which all smooths are penalised."
  },
  {
   "property": "C91",
   "status": "partial",
   "theorems": [
    "C91_observations",
    "C91_durations",
    "C91_transitions",
    "C91_initial",
    "C91_hmp",
    "C91_series",
    "C91_tables",
    "C91_initial_refuted",
    "C91_hmp_refuted"
   ],
   "note": "REFUTED as stated: with durations that vary over time the gradient for initial probabilities uses the durations of the first time point at all time points, and event (hmp) models that estimate transition and initial probabilities get a zero gradient for their coefficients. Proved for everything else: emission coefficients with any sharing, durations with normalisation, transitions, initial probabilities with durations that do not vary, event models with exponential or Gaussian density with and without AR model, and sums over series. Derivatives of log-densities with respect to linear predictors and the products with model matrices are given (C25, C26)."
  },
  {
   "property": "C92",
   "status": "proved",
   "theorems": [
    "C92_reversible",
    "C92_trajectory",
    "C92_area"
   ],
   "note": "Exact arithmetic; llk_fun and grad_fun are functions of the state only. C92_area assumes that grad is differentiable along curves with a symmetric derivative and that Minv is symmetric. That a map which preserves areas preserves volumes is not proved."
  },
  {
   "property": "C93",
   "status": "proved",
   "theorems": [
    "C93_recorded",
    "C93_calls"
   ],
   "note": "Momenta and exponential draws are arguments, uniform draws are branches; both outcomes of each are followed."
  },
  {
   "property": "C94",
   "status": "proved",
   "theorems": [
    "C94_proposals"
   ],
   "note": "Exact arithmetic; a comparison p > U(gen) is an event with probability min(1, max(0, p)), independent of all others."
  },
  {
   "property": "C95",
   "status": "proved",
   "theorems": [
    "C95_transitions"
   ],
   "note": "Exact arithmetic and independent uniform draws. Conditional on momentum and slice variable; that these are drawn from the right distributions and that integrating over them yields the posterior (measure theory) is not modelled."
  },
  {
   "property": "C96",
   "status": "proved",
   "theorems": [
    "C96_statistic",
    "C96_step_size",
    "C96_first_step_size"
   ],
   "note": "For max_j = 0 a and na are never assigned. Termination of the search for a first step size is not claimed."
  },
  {
   "property": "C97",
   "status": "partial",
   "theorems": [
    "C97_value",
    "C97_indefinite",
    "C97_null_space",
    "C97_dominant_refuted",
    "C97_repeated_refuted",
    "C97_later_refuted",
    "C97_fallback_refuted"
   ],
   "note": "REFUTED as stated: if the largest of several penalties of a term penalises everything the others penalise, the determinant leaves the others out; the null-space dimension ignores repeated blocks and unpenalised columns after the first penalised one; the QR fallback omits the division by the scale. Proved for exact factorisations when no penalty alone has full rank; the constant is right without repeated blocks and later unpenalised columns."
  },
  {
   "property": "C98",
   "status": "proved",
   "theorems": [
    "C98_gradient",
    "C98_gaussian",
    "C98_ascent"
   ],
   "note": "Exact arithmetic; terms without a penalty that alone has full rank (see C97). C98_gradient is for any likelihood whose Hessian is held fixed and whose penalised maximum depends differentiably on the smoothing parameter; C98_gaussian proves these two conditions for normal observations with known scale. One smoothing parameter varies at a time."
  },
  {
   "property": "C99",
   "status": "partial",
   "theorems": [
    "C99_transform",
    "C99_dominant_refuted",
    "C99_shape_refuted"
   ],
   "note": "REFUTED as stated: if the largest weighted penalty of a term penalises everything that the others do, the loop is left in its first pass; the sum then holds the first penalty only, and if the term has a null space the bases have different shapes and an exception is raised. Proved, including termination, for exact decompositions with tolerance zero when there is no such penalty or only one penalty."
  }
 ]
}