{
 "claims": [
  {
   "property": "C01",
   "status": "proved",
   "theorems": [
    "C01_rectangular_inversion_solves",
    "C01_rectangular_inversion_unique"
   ],
   "note": "Exact success condition, equation at every lag, uniqueness."
  },
  {
   "property": "C02",
   "status": "proved",
   "theorems": [
    "C02_trapezoidal_inversion_solves"
   ],
   "note": "Iff characterisation gives success condition, equation and uniqueness."
  },
  {
   "property": "C03",
   "status": "proved",
   "theorems": [
    "C03_second_kind_rect_solves",
    "C03_second_kind_trapz_solves"
   ],
   "note": "Both second-kind routines, iff characterisation."
  },
  {
   "property": "C04",
   "status": "partial",
   "theorems": [
    "C04_midpoint_refuted",
    "C04_midpoint_coded_partial",
    "C04_midpoint_locally_constant_partial"
   ],
   "note": "False of the code: correlations are read at even lags (refuted by witness). Partial theorems: the equation it does solve, and the full rule when B(2k)=B(2k+1)."
  },
  {
   "property": "C05",
   "status": "partial",
   "theorems": [
    "C05_rectangular_buffer_refuted",
    "C05_midpoint_buffer_refuted",
    "C05_trapz_buffer_independent",
    "C05_second_rect_buffer_independent",
    "C05_second_trapz_buffer_independent",
    "C05_rectangular_prefix_partial",
    "C05_midpoint_odd_partial",
    "C05_rectangular_last_is_zero"
   ],
   "note": "False for rectangular (last sample) and midpoint with an even number of samples (witnesses); proved for trapz, second-kind, rectangular prefix and odd midpoint."
  },
  {
   "property": "C06",
   "status": "proved",
   "theorems": [
    "C06_rectangular_causal",
    "C06_midpoint_causal",
    "C06_trapezoidal_causal",
    "C06_second_rect_causal",
    "C06_second_trapz_causal"
   ],
   "note": "All five routines used by compute_kernel."
  },
  {
   "property": "C07",
   "status": "proved",
   "theorems": [
    "C07_rectangular_basis_change",
    "C07_midpoint_basis_change",
    "C07_trapezoidal_basis_change",
    "C07_second_rect_basis_change",
    "C07_second_trapz_basis_change",
    "C07_memory_rect_invariant",
    "C07_memory_trapz_invariant",
    "C07_kernel_value_invariant"
   ],
   "note": "Kernel coefficients, memory force and evaluated kernel."
  },
  {
   "property": "C08",
   "status": "proved",
   "theorems": [
    "C08_rectangular_linear",
    "C08_midpoint_linear",
    "C08_trapezoidal_linear",
    "C08_second_rect_linear",
    "C08_second_trapz_linear",
    "C08_zero_force_rectangular",
    "C08_zero_force_trapezoidal"
   ],
   "note": "All five routines."
  },
  {
   "property": "C09",
   "status": "proved",
   "theorems": [
    "C09_kernel_lengths",
    "C09_richardson_short"
   ],
   "note": "Every method, N>=4; the only other outcome is a singular matrix. Bound 4 sharp for Richardson."
  },
  {
   "property": "C10",
   "status": "partial",
   "theorems": [
    "C10_simpson_inversion_solves",
    "C10_simpson_second_kind_refuted",
    "C10_simpson_second_kind_partial"
   ],
   "note": "First kind proved (iff); second-kind Simpson refuted (wrong sign), proved when Bdot(0)=0."
  },
  {
   "property": "C11",
   "status": "partial",
   "theorems": [
    "C11_check_inversion_refuted",
    "C11_check_inversion_partial",
    "C11_affine_partial"
   ],
   "note": "False: the kernel is smoothed after inversion (witness). Exact reported residual proved; zero proved for kernels affine in time."
  },
  {
   "property": "C12",
   "status": "proved",
   "theorems": [
    "C12_rectangular_recovers",
    "C12_trapezoidal_recovers",
    "C12_second_rect_recovers",
    "C12_second_trapz_recovers"
   ],
   "note": "Four routines."
  },
  {
   "property": "C13",
   "status": "proved",
   "theorems": [
    "C13_memory_rect"
   ],
   "note": ""
  },
  {
   "property": "C14",
   "status": "partial",
   "theorems": [
    "C14_memory_trapz_refuted",
    "C14_memory_trapz_partial"
   ],
   "note": "False once the trajectory is longer than the kernel (last weight 3/2 instead of 1/2): witness; exact value proved for every i."
  },
  {
   "property": "C15",
   "status": "partial",
   "theorems": [
    "C15_noise_refuted",
    "C15_noise_partial",
    "C15_one_component_partial",
    "C15_midpoint_rejected",
    "C15_times"
   ],
   "note": "False from two components on: the force is summed over components (witness). Exact split proved for every window; the full property proved for one component; midpoint methods rejected."
  },
  {
   "property": "C16",
   "status": "partial",
   "theorems": [
    "C16_corrs_trapz",
    "C16_corrs_rect",
    "C16_model_trapz",
    "C16_model_rect",
    "C16_trapz_restart_partial",
    "C16_rect_restart_partial",
    "C16_rect_restart_refuted"
   ],
   "note": "Values and times of compute_corrs_w_noise proved for every method. Agreement with compute_noise restarted at every start: proved for trapezoidal methods and one component; false for rectangular methods (compute_noise adds the term dt E_t K_n): witness and exact difference."
  },
  {
   "property": "C17",
   "status": "partial",
   "theorems": [
    "C17_model_trapz_partial",
    "C17_model_rect_partial",
    "C17_evolve_trapz_refuted",
    "C17_evolve_rect_refuted",
    "C17_evolve_trapz_partial",
    "C17_evolve_rect_partial"
   ],
   "note": "False: far end of the window dropped (witnesses); the exact equation satisfied is proved with uniqueness."
  },
  {
   "property": "C18",
   "status": "partial",
   "theorems": [
    "C18_stab_reads_out_of_bounds_refuted",
    "C18_stab_simplex",
    "C18_stab_succeeds_only"
   ],
   "note": "In-bounds part false for every kernel with two samples; simplex part proved."
  },
  {
   "property": "C19",
   "status": "partial",
   "theorems": [
    "C19_flux_trapz_refuted",
    "C19_flux_rect_refuted",
    "C19_flux_rect_partial",
    "C19_flux_trapz_partial",
    "C19_flux_simpson_out_of_bounds"
   ],
   "note": "False (shifted one step, last term missing): witnesses; exact value proved."
  },
  {
   "property": "C20",
   "status": "proved",
   "theorems": [
    "C20_mean_force_least_squares",
    "C20_mean_force_recovers",
    "C20_mean_force_success"
   ],
   "note": "Orthogonality, optimality, uniqueness, recovery, exact success condition."
  },
  {
   "property": "C21",
   "status": "proved",
   "theorems": [
    "C21_pooled_products",
    "C21_pooled_mean",
    "C21_cut_and_order",
    "C21_degenerate_fails",
    "C21_gram_kernel",
    "C21_gram_kernel_empty"
   ],
   "note": ""
  },
  {
   "property": "C22",
   "status": "proved",
   "theorems": [
    "C22_parallel_is_serial",
    "C22_no_deadlock",
    "C22_bounded",
    "C22_workers"
   ],
   "note": "joblib pool as a state machine; every reachable terminal state, no deadlock, bounded length."
  },
  {
   "property": "C23",
   "status": "proved",
   "theorems": [
    "C23_pooled_correlations",
    "C23_lag_zero",
    "C23_overdamped",
    "C23_position_only",
    "C23_with_friction",
    "C23_after_projection"
   ],
   "note": "All routines (FFT/direct, vectorised or not), with or without projection."
  },
  {
   "property": "C24",
   "status": "proved",
   "theorems": [
    "C24_fft_1D",
    "C24_fft_1D_auto",
    "C24_direct_1D",
    "C24_fft_ND",
    "C24_direct_ND",
    "C24_direct_trunc_zero"
   ],
   "note": "Over every real closed field and every primitive root of unity; trunc=0 is the only truncation where the two differ (direct raises)."
  },
  {
   "property": "C25",
   "status": "partial",
   "theorems": [
    "C25_single_argument_refuted",
    "C25_single_argument_transposed_refuted",
    "C25_fft_single_partial",
    "C25_direct_single_partial",
    "C25_one_component_partial"
   ],
   "note": "False for two components: direct broadcasts the autocorrelations, FFT returns the transposed matrix (witnesses). Exact value of each proved, agreement proved for one component."
  },
  {
   "property": "C26",
   "status": "partial",
   "theorems": [
    "C26_out_of_order_partial",
    "C26_failure_frame_partial",
    "C26_wrong_exception_refuted",
    "C26_failing_call_refuted"
   ],
   "note": "Documented exceptions proved in every sequence of calls; false for compute_kernel (AttributeError) and for \"a failing call changes nothing\" (the method is stored before the failure): witnesses. What a failing call preserves is proved."
  },
  {
   "property": "C27",
   "status": "partial",
   "theorems": [
    "C27_fresh_partial",
    "C27_stale_refuted"
   ],
   "note": "False when the force is recomputed after the kernel (witness); proved when no call changes the force between the correlations and the end."
  },
  {
   "property": "C28",
   "status": "partial",
   "theorems": [
    "C28_trunc_ind_refuted",
    "C28_trunc_ind_partial",
    "C28_trunc_ind_total"
   ],
   "note": "False when trajectories have different time origins (witness); proved for trajectories on a common grid."
  },
  {
   "property": "C29",
   "status": "partial",
   "theorems": [
    "C29_pooled_partial",
    "C29_order_partial",
    "C29_single_partial",
    "C29_variance_refuted"
   ],
   "note": "Count, minimum, maximum and mean of the pooled samples, in any order of the trajectories, proved; false for the variance, which stays that of the first trajectory (witness)."
  },
  {
   "property": "C30",
   "status": "partial",
   "theorems": [
    "C30_projection_partial",
    "C30_default_tolerance",
    "C30_correlations_partial",
    "C30_rejected_partial",
    "C30_rank_zero_refuted"
   ],
   "note": "Projection, default tolerance, correlations and rejection proved; false when the numerical rank is zero (witness)."
  },
  {
   "property": "C31",
   "status": "partial",
   "theorems": [
    "C31_unfitted_basis_refuted",
    "C31_fields_partial",
    "C31_restored_partial",
    "C31_pmf_partial",
    "C31_noise_refuted",
    "C31_pmf_refuted"
   ],
   "note": "False: method, effective mass, inverse mass and kernel Gram matrix are not restored (witnesses). Force, kernel, range projection, Gram matrix of the force, and the noise of rectangular methods proved preserved; exact list of restored fields in C31_fields_partial."
  },
  {
   "property": "C32",
   "status": "proved",
   "theorems": [
    "C32_underdamped",
    "C32_others",
    "C32_position_only",
    "C32_model_position_velocity",
    "C32_model_const_kernel",
    "C32_model_position_only",
    "C32_model_hybrid"
   ],
   "note": "Every class, twice differentiable basis, dimension and trajectory; the linear, polynomial and Fourier bases meet the hypotheses."
  },
  {
   "property": "C33",
   "status": "partial",
   "theorems": [
    "C33_linear",
    "C33_linear_antiderivative_partial",
    "C33_centered_refuted",
    "C33_polynomial_values",
    "C33_monomials",
    "C33_polynomial",
    "C33_polynomial_constant",
    "C33_polynomial_antiderivative",
    "C33_fourier_values",
    "C33_fourier",
    "C33_fourier_constant",
    "C33_fourier_antiderivative_partial",
    "C33_zero_frequency_refuted",
    "C33_gradient_unique"
   ],
   "note": "Values, gradients and Hessians proved for every degree, order, dimension and point; antiderivatives proved for the uncentred linear, the polynomial and the Fourier basis of non-zero frequency; false for the centred linear basis and for a zero frequency (witnesses)."
  },
  {
   "property": "C34",
   "status": "partial",
   "theorems": [
    "C34_unity_partial",
    "C34_named",
    "C34_states_partial",
    "C34_one_periodic_refuted"
   ],
   "note": "Range and sum proved for every ordered list of boundaries except the periodic case with one state, which is false (witness)."
  },
  {
   "property": "C35",
   "status": "partial",
   "theorems": [
    "C35_derivative_partial",
    "C35_named",
    "C35_hessian",
    "C35_hessian_tricube",
    "C35_one_periodic_refuted"
   ],
   "note": "Derivatives proved at every point, Hessians away from region boundaries; false for one periodic state (witness)."
  },
  {
   "property": "C36",
   "status": "partial",
   "theorems": [
    "C36_indices",
    "C36_indices_total",
    "C36_columns",
    "C36_gradient",
    "C36_hessian",
    "C36_fit_partial",
    "C36_fit_refuted"
   ],
   "note": "Indices, columns, gradient and symmetric Hessian proved for every pair of bases; own-coordinate fit proved for two distinct factors, false when the second is left out (witness)."
  },
  {
   "property": "C37",
   "status": "partial",
   "theorems": [
    "C37_values",
    "C37_two_partial",
    "C37_ends",
    "C37_three_refuted",
    "C37_one_refuted"
   ],
   "note": "Values proved for any number of bases, derivatives for two; false for one (exception) and for three or more, where only the first and last are differentiated (witnesses)."
  },
  {
   "property": "C38",
   "status": "partial",
   "theorems": [
    "C38_force",
    "C38_kernel_partial",
    "C38_const_kernel",
    "C38_hybrid",
    "C38_bases",
    "C38_tensor",
    "C38_indicator",
    "C38_combiner_partial",
    "C38_combiner_obj",
    "C38_hybrid_refuted",
    "C38_const_kernel_refuted",
    "C38_combiner_refuted",
    "C38_no_vel_refuted"
   ],
   "note": "Force widths proved for every class, kernel widths for all but two, for every basis family; false for the hybrid class in two dimensions, the constant kernel with an observable of another dimension, and combinations of bases without constant (witnesses)."
  },
  {
   "property": "C39",
   "status": "partial",
   "theorems": [
    "C39_zero",
    "C39_zero_overdamped",
    "C39_differences",
    "C39_pointwise",
    "C39_overdamped",
    "C39_derivative_partial",
    "C39_separable_partial",
    "C39_2d_refuted",
    "C39_centered_refuted"
   ],
   "note": "Zero minimum and differences proved for every input; derivative proved in one dimension and for separable forces with diagonal mass in any; false for coupled forces in two dimensions and for the centred linear basis (witnesses)."
  },
  {
   "property": "C40",
   "status": "proved",
   "theorems": [
    "C40_kept_samples",
    "C40_exact_va",
    "C40_exact_a",
    "C40_exact_a_from_vel",
    "C40_gjf_half_step"
   ],
   "note": "Kept samples for every pattern of missing values; exact on quadratics for compute_va, compute_a, compute_a_from_vel; the gjf variant is exact half a step earlier."
  },
  {
   "property": "C41",
   "status": "proved",
   "theorems": [
    "C41_unwraps",
    "C41_unwraps_gjf"
   ],
   "note": "compute_va and compute_va_gjf; steps below the threshold and below period minus threshold."
  },
  {
   "property": "C42",
   "status": "partial",
   "theorems": [
    "C42_fixed_partial",
    "C42_plain_partial",
    "C42_accepted_partial",
    "C42_acceleration_alone_refuted"
   ],
   "note": "Times proved for every successful call and success characterised; false that an acceleration may come without a velocity (witness)."
  },
  {
   "property": "C43",
   "status": "partial",
   "theorems": [
    "C43_memory_partial",
    "C43_run_partial",
    "C43_noise_partial",
    "C43_noise_refuted",
    "C43_first_step_refuted"
   ],
   "note": "The running memory integral and every step of a run proved to be the truncated trapezoid rule; false at the first step of a run with one initial sample, and false that the noise extraction uses the same memory once the trajectory is longer than the kernel (witnesses)."
  },
  {
   "property": "C44",
   "status": "partial",
   "theorems": [
    "C44_run_partial",
    "C44_deterministic",
    "C44_ballistic",
    "C44_one_lag_kernel_refuted"
   ],
   "note": "Length, initial samples, determinism without noise and ballistic motion proved; false for one-lag kernels, which are rejected (always)."
  },
  {
   "property": "C45",
   "status": "partial",
   "theorems": [
    "C45_colored_partial",
    "C45_colored_refuted",
    "C45_covariance_matrix",
    "C45_backward",
    "C45_noise_partial",
    "C45_too_long",
    "C45_indefinite",
    "C45_nan_refuted",
    "C45_eig_refuted"
   ],
   "note": "Toeplitz matrix, refusal of long requests and covariance dt*C proved for every orthonormal decomposition with nonnegative eigenvalues and every white noise; false for indefinite kernels (nan), for non-orthogonal unit eigenvectors, which np.linalg.eig allows, and for the coloured noise generator (witnesses). Exact covariance of the coloured noise proved."
  },
  {
   "property": "C46",
   "status": "partial",
   "theorems": [
    "C46_inverse_partial",
    "C46_short_refuted",
    "C46_filter_partial",
    "C46_linear_refuted"
   ],
   "note": "Inversion proved for three or more samples, false for two (sign flipped) and one (rejected). The filter squares to the kernel on the circle when the spectrum is nonnegative, in general to its positive part; false on the line, where the generator convolves (witness)."
  },
  {
   "property": "C47",
   "status": "partial",
   "theorems": [
    "C47_round_trip_partial",
    "C47_even_refuted",
    "C47_inspect_partial"
   ],
   "note": "Proved for every odd length; false for every even length (the last sample is lost). The normalised, filtered series of prony_inspect_data is exact when the dropped singular values are zero."
  },
  {
   "property": "C48",
   "status": "partial",
   "theorems": [
    "C48_factorisation_partial",
    "C48_number",
    "C48_index_refuted",
    "C48_threshold_refuted"
   ],
   "note": "Orthonormality, count and exact failure condition proved for every positive threshold; false when N_keep is the number of singular values (IndexError) or the rank (zero threshold, division by zero): witnesses."
  },
  {
   "property": "C49",
   "status": "partial",
   "theorems": [
    "C49_powers_partial",
    "C49_even_refuted"
   ],
   "note": "Powers of the Jacobi matrix proved equal to every sample of an odd-length series under the rank condition; false for the last sample of an even-length one (witness). The matrix logarithm and exponential giving the fitted series are not modelled."
  },
  {
   "property": "C50",
   "status": "partial",
   "theorems": [
    "C50_unknown",
    "C50_fit_total",
    "C50_fit_then_eval",
    "C50_kernel_partial",
    "C50_column_refuted"
   ],
   "note": "Same function, parameters and place proved; unknown names rejected by both; false for kernels with times given as a column, fitted but never evaluated."
  },
  {
   "property": "C51",
   "status": "partial",
   "theorems": [
    "C51_intersect",
    "C51_parallel",
    "C51_graded_partial",
    "C51_graded_refuted",
    "C51_uniform",
    "C51_round",
    "C51_vertex",
    "C51_stop",
    "C51_terminates",
    "C51_no_error",
    "C51_hull",
    "C51_rectangle_refuted",
    "C51_closing_refuted",
    "C51_error_refuted"
   ],
   "note": "Intersection, termination, one vertex per round, smallest edge and new vertex proved for all inputs; the graded line for every ratio whose power is not one, false for ratio one; false: finite vertices (thin rectangle), the closing edge is never considered, limits above one end in an error (witnesses)."
  },
  {
   "property": "C52",
   "status": "partial",
   "theorems": [
    "C52_basis",
    "C52_deriv_1d_partial",
    "C52_deriv_single_partial",
    "C52_deriv_refuted"
   ],
   "note": "Basis array proved in every dimension; derivative array proved in one dimension and for one function at one sample, and proved wrong on every mesh in all other cases."
  },
  {
   "property": "C53",
   "status": "partial",
   "theorems": [
    "C53_unchanged_partial",
    "C53_changed",
    "C53_twice",
    "C53_refuted"
   ],
   "note": "The array is unchanged exactly when no sample is at the last mesh point; false otherwise (witness). The other bases are modelled as functions and have nothing to write to."
  },
  {
   "property": "C54",
   "status": "partial",
   "theorems": [
    "C54_histogram_partial",
    "C54_success_partial",
    "C54_minimum_refuted",
    "C54_resting_trajectory_refuted"
   ],
   "note": "Probability vector, samples above the minimum counted once and success condition proved; false that every sample is counted (the minimum is not) and that non-empty data are accepted (witnesses). The free-energy branch (splines) is not modelled."
  },
  {
   "property": "C55",
   "status": "partial",
   "theorems": [
    "C55_times_partial",
    "C55_restart_points",
    "C55_times_refuted"
   ],
   "note": "False for two or more initial samples: the times are shifted by the length of the history (proved always); exact times and restart points proved."
  },
  {
   "property": "C56",
   "status": "partial",
   "theorems": [
    "C56_memory_partial",
    "C56_memory_refuted"
   ],
   "note": "False while the history is shorter than the kernel (full weight on the first velocity): witness; exact value proved for every history."
  },
  {
   "property": "C57",
   "status": "partial",
   "theorems": [
    "C57_values",
    "C57_gradient",
    "C57_hessian",
    "C57_antiderivative",
    "C57_dropped",
    "C57_single",
    "C57_single_hessian_partial",
    "C57_linear_refuted"
   ],
   "note": "Proved for every family of splines given the derivatives of each; false for the Hessian of a single spline of degree one, which is refused."
  },
  {
   "property": "C58",
   "status": "partial",
   "theorems": [
    "C58_exact_partial",
    "C58_temperature_refuted",
    "C58_one_refuted"
   ],
   "note": "Proved at kT = 1 or for a constant mass; false at another temperature and for one point (witnesses)."
  },
  {
   "property": "C59",
   "status": "partial",
   "theorems": [
    "C59_1d_partial",
    "C59_outside",
    "C59_unsorted_refuted",
    "C59_2d_partial",
    "C59_five_partial",
    "C59_few_refuted",
    "C59_long_refuted"
   ],
   "note": "One dimension proved for increasing meshes, false for reordered ones; two dimensions proved when an element around the point is among the five candidates, in particular on five elements; false on fewer than five and on a mesh with a long element (witnesses)."
  },
  {
   "property": "C60",
   "status": "proved",
   "theorems": [
    "C60_generator_conserves",
    "C60_evolution_conserves",
    "C60_kernel"
   ],
   "note": "Rectangular and trapezoidal evolution; the stabilised variant rescales and is not covered."
  },
  {
   "property": "C61",
   "status": "proved",
   "theorems": [
    "C61_kernel_values",
    "C61_richardson_exact"
   ],
   "note": "The midpoint equation is the coded one; that it differs from the midpoint rule is C04."
  },
  {
   "property": "C62",
   "status": "partial",
   "theorems": [
    "C62_position_velocity_partial",
    "C62_position_only_partial",
    "C62_const_kernel_partial",
    "C62_hybrid_partial",
    "C62_hybrid_dimension_partial",
    "C62_hybrid_refuted",
    "C62_wrong_rows"
   ],
   "note": "Proved for all classes but the hybrid one, which is right in dimension one and raises ValueError in every other dimension (witness)."
  },
  {
   "property": "C63",
   "status": "proved",
   "theorems": [
    "C63_friction_split"
   ],
   "note": ""
  },
  {
   "property": "C64",
   "status": "partial",
   "theorems": [
    "C64_flux_force_partial",
    "C64_flux_force_refuted"
   ],
   "note": "False: numpy computes C(t) F^T (C64_flux_force_refuted, finding F55). The value and length for all inputs, and the equality for symmetric coefficients, are proved in C64_flux_force_partial. Different lengths or mismatched shapes, which numpy refuses, are excluded by the types."
  },
  {
   "property": "C65",
   "status": "partial",
   "theorems": [
    "C65_least_squares_partial",
    "C65_success",
    "C65_one_dimension_partial",
    "C65_recovers_partial",
    "C65_two_dimensions_refuted",
    "C65_pos_gle_refuted",
    "C65_pos_gle_constant_removed",
    "C65_pos_gle_constant_kept",
    "C65_pmf_num_int_refuted"
   ],
   "note": "What the fitted coefficients minimise, and when they exist, is proved for every class and dimension; the full property only for position-only classes in one dimension. False from two dimensions on (one row per point), for Pos_gle (fitted on gradients, evaluated on values; ValueError or a singular matrix when the basis has a constant), and always for pmf_num_int_eval, which indexes a third axis: witnesses, finding F56. Pos_gle_with_friction is not modelled here (its evaluation needs a velocity column that is never supplied)."
  },
  {
   "property": "C66",
   "status": "partial",
   "theorems": [
    "C66_save_condition",
    "C66_unprojected_partial",
    "C66_contents",
    "C66_hybrid_refuted",
    "C66_projected_refuted",
    "C66_load_refuted"
   ],
   "note": "False (F57): saving raises ValueError exactly when the stored arrays have different basis widths (proved both ways, witnesses for the hybrid class and range projection); keyword arguments of load_model are written in the saved data."
  },
  {
   "property": "C67",
   "status": "partial",
   "theorems": [
    "C67_accepted",
    "C67_trunc",
    "C67_accepts",
    "C67_documented_time",
    "C67_documented_column_partial",
    "C67_observable_refuted",
    "C67_iterator_refuted",
    "C67_time_step_refuted",
    "C67_dimension_refuted"
   ],
   "note": "False (F58): witnesses for a missing observable (KeyError), iterators (TypeError), mixed time steps and mixed dimensions. Proved: what is accepted has all that the class needs and is described correctly; well-formed data are accepted; missing time, time step, or columns give the documented exception when the first trajectory has the observable."
  },
  {
   "property": "C68",
   "status": "partial",
   "theorems": [
    "C68_fresh",
    "C68_step_partial",
    "C68_build_partial",
    "C68_shared_refuted",
    "C68_refit_refuted"
   ],
   "note": "False (F59): witness of a Pos_gle model broken by a later overdamped model on the same basis, and of a basis reused on data of another dimension. Proved: a new model is consistent, and stays so through any sequence of constructions by classes that leave the flag alone, on other objects, or on bases whose flag is cleared."
  },
  {
   "property": "C69",
   "status": "partial",
   "theorems": [
    "C69_run_partial",
    "C69_ballistic",
    "C69_float_position",
    "C69_restart_refuted",
    "C69_restart_repeats",
    "C69_memory_refuted"
   ],
   "note": "Lengths, times, initial data, the kept history, the Runge-Kutta step of every sample and the accelerations are proved. False: the memory at the start of the second step is the memory of the past (only lag zero is counted); a continued run equals the uninterrupted one; the default float position is accepted."
  },
  {
   "property": "C70",
   "status": "partial",
   "theorems": [
    "C70_build_partial",
    "C70_needs",
    "C70_truncation_refuted",
    "C70_no_model_refuted",
    "C70_default_coeffs_refuted",
    "C70_midpoint_refuted"
   ],
   "note": "Proved: what a built integrator holds, and the shapes every built integrator needs. Refuted: trunc_kernel below the kernel length always fails; no model always fails; missing inverse mass coefficients fail; a kernel on every second time step is accepted with a noise of the wrong step."
  },
  {
   "property": "C71",
   "status": "partial",
   "theorems": [
    "C71_fresh_partial",
    "C71_gram_refuted",
    "C71_width_refuted",
    "C71_failing_refuted"
   ],
   "note": "Proved: kernel and noise after correlations and a kernel with any kernel, Gram and noise calls (failing or not) in between and after. Refuted: compute_gram_kernel always fails; recomputed correlations leave a kernel of another width; a failing compute_corrs leaves unprojected correlations from which a kernel is computed."
  },
  {
   "property": "C72",
   "status": "partial",
   "theorems": [
    "C72_spectra_partial",
    "C72_real_refuted",
    "C72_complex_partial",
    "C72_past_end_refuted",
    "C72_uncorrelated_refuted"
   ],
   "note": "Proved: stored spectra; the value generated from complex-typed values of the basis. Refuted: real values always raise TypeError; steps from 2N-1 on always fail; noises of two calls are uncorrelated for every kernel."
  },
  {
   "property": "C73",
   "status": "partial",
   "theorems": [
    "C73_weighted_partial",
    "C73_same_length_partial",
    "C73_array_partial",
    "C73_all_windows_refuted"
   ],
   "note": "Proved: times unchanged and the average of the window averages weighted by the number of samples; for trajectories of one length this is the average over all windows; an array serves only trajectories of its own length. Refuted: with different lengths it is not the average over all windows."
  },
  {
   "property": "C74",
   "status": "partial",
   "theorems": [
    "C74_memory_partial",
    "C74_one_saver_partial",
    "C74_first_order_refuted",
    "C74_prefix_refuted"
   ],
   "note": "Proved: results held by estimators do not depend on saveall, prefix or the disk; with one saving estimator the two files hold what it holds, as long as the second-order correlations are computed. Refuted: correlations without the second-order ones always fail to be saved, after being stored; the prefix is ignored, so two estimators overwrite each other's files."
  },
  {
   "property": "C75",
   "status": "partial",
   "theorems": [
    "C75_powers_partial",
    "C75_fit_partial",
    "C75_real_negative",
    "C75_fit_refuted",
    "C75_zero",
    "C75_removal_refuted",
    "C75_all_removed",
    "C75_one_time_refuted"
   ],
   "note": "Proved: evaluation gives the powers of the Jacobi matrix, hence the fitted series, when no eigenvalue is zero, none is removed, and a negative eigenvalue comes with one that is not real. Refuted: with real eigenvalues only, a negative one makes the fit fail (series 1 0 1 0 1); removing an eigenvalue changes the amplitude of the others, and removing all leaves a fit that cannot be evaluated; a single time is refused. eig, svd, expm and log are parameters with contracts, instantiated over the reals in the examples."
  },
  {
   "property": "C76",
   "status": "partial",
   "theorems": [
    "C76_components",
    "C76_eval",
    "C76_round_trip_partial",
    "C76_shift",
    "C76_zero_component",
    "C76_fit_total_refuted",
    "C76_memory_fit",
    "C76_shift_refuted",
    "C76_removed_refuted"
   ],
   "note": "Proved: the fit and the evaluation act on each component separately, with the round trip on times starting at zero for components meeting the hypotheses of C75 (the last of an even number of samples is not used), and memory_fit_kernel with type prony is the same fit. Refuted: the first time is ignored, so a kernel starting later comes back shifted; a component starting at zero makes the whole fit fail; a growing component is fitted and cannot be evaluated."
  },
  {
   "property": "C77",
   "status": "partial",
   "theorems": [
    "C77_frame",
    "C77_success",
    "C77_observable",
    "C77_idempotent",
    "C77_failure",
    "C77_isolated_partial",
    "C77_disjoint",
    "C77_isolated_refuted",
    "C77_data_refuted",
    "C77_atomic_refuted",
    "C77_force_refuted"
   ],
   "note": "Proved: the frame, the exact condition of success, the written values, idempotence, what a failure keeps, and isolation for estimators with disjoint trajectories or names. Refuted: two estimators on one data set using the default name disturb each other; the name may be that of the velocities, which are lost; a failing call leaves the projection off and the first trajectories changed; a force computed before the switch stays."
  },
  {
   "property": "C78",
   "status": "partial",
   "theorems": [
    "C78_fit",
    "C78_unity",
    "C78_polynomials",
    "C78_bounds",
    "C78_local",
    "C78_support",
    "C78_ends",
    "C78_default",
    "C78_periodic_partial",
    "C78_not_periodic",
    "C78_periodic_sum",
    "C78_periodic_refuted",
    "C78_periodic_unity_refuted",
    "C78_knots"
   ],
   "note": "Proved for plain splines with the knot placement, interval search and recursion of FITPACK modelled; justifies the hypothesis of C57_dropped. The default knots are increasing for any non-degenerate range. Refuted for periodic splines: every unit coefficient vector is used alone, so no function is periodic (proved for all degrees and knots), and the last degree - 1 functions are missing, so the sum is below one at the right end; it is one left of the knot number n - degree - 1."
  },
  {
   "property": "C79",
   "status": "partial",
   "theorems": [
    "C79_second_rect",
    "C79_second_trapz",
    "C79_first_rect",
    "C79_midpoint_half",
    "C79_rect_integral",
    "C79_trapz_integral",
    "C79_midpoint_refuted"
   ],
   "note": "Proved for the whole of compute_kernel with exact real numbers (no rounding, no statistical error of the correlations): first order for rectangles of both kinds, second order for trapezoids of the second kind, and the quadratures themselves. Refuted for midpoints: the first sample converges to half of the kernel at time zero, whatever the equation (C79_midpoint_half). Not covered: trapezoids and Simpson's rule of the first kind."
  },
  {
   "property": "C80",
   "status": "partial",
   "theorems": [
    "C80_simpson",
    "C80_simpson_uniform",
    "C80_friction",
    "C80_friction_mismatch",
    "C80_friction_label_refuted",
    "C80_asymptotic",
    "C80_laplace_fails",
    "C80_laplace_refuted"
   ],
   "note": "Proved: quadrature, layout and asymptotic value (curve_fit: any least-squares solution). Refuted: markovian_friction returns the builtin type as its first value; the Laplace transform of a kernel stored by the estimator raises KeyError for every positive number of points, since it reads the coordinate time and the kernel has time_kernel."
  },
  {
   "property": "C81",
   "status": "partial",
   "theorems": [
    "C81_noisy_rect",
    "C81_noisy_trapz",
    "C81_noisy_first",
    "C81_second_rect",
    "C81_second_trapz",
    "C81_first_rect",
    "C81_first_refuted"
   ],
   "note": "Proved for the two inversions of the second kind, with an explicit constant; combined with C79, samples known within epsilon give the kernel of the continuous equation within C (dt + epsilon), or C (dt^2 + epsilon) with trapezoids. For the first kind with rectangles the proved bound carries epsilon over the time step, and the uniform statement is refuted: one perturbed sample moves the kernel by epsilon over the time step."
  },
  {
   "property": "C82",
   "status": "proved",
   "theorems": [
    "C82_evolve_converges",
    "C82_second_order_refuted",
    "C82_noisy_kernel",
    "C82_inverted_kernel",
    "C82_pipeline_rect",
    "C82_pipeline_trapz"
   ],
   "note": "Methods rect and trapz. A kernel known within epsilon gives errors of C (dt + epsilon) (C82_noisy_kernel), and the kernel computed by compute_kernel can be handed over as it is (C82_inverted_kernel), also when the correlations are themselves known within epsilon (C82_pipeline_rect, C82_pipeline_trapz). Second order is refuted for both, trapezoids included: the force is taken at the previous sample, and a nilpotent force gives an error of exactly half the step times the time (C82_second_order_refuted)."
  }
 ]
}