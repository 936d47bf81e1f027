{"id": "C01", "title": "Rectangular inversion solves the discretised Volterra equation", "statement": "After compute_kernel(method='rectangular') the returned kernel K satisfies, for every i with i+1 < trunc_ind, dt*sum_{j=0..i} bkbk[(i+1-j)dt] K[j] = -bkdx[(i+1)dt], and it is the only sequence that does so on those indices. The call succeeds exactly when there are at least two correlation samples and dt*bkbk[dt] is invertible.", "quantifier": "every number of correlation samples, every basis size and observable dimension, every sequence of correlation matrices, every dt", "why_tests_cant": "A test compares one kernel on one data set with a tolerance; the identity must hold at every lag for every correlation input and matrix size.", "anchors": ["VolterraBasis/fkernel.f90:kernel_first_kind_rect", "VolterraBasis/fkernel.f90:rect_integral", "VolterraBasis/gle_estimation.py:Estimator_gle.compute_kernel"]}
{"id": "C02", "title": "Trapezoidal inversion solves the discretised Volterra equation", "statement": "The trapezoidal first-kind inversion started at K[0]=k0 returns, for every i>=1, the unique K with dt*(1/2 bkbk[i]K[0] + sum_{0<j<i} bkbk[i-j]K[j] + 1/2 bkbk[0]K[i]) = -bkdx[i]; it succeeds exactly when dt/2*bkbk[0] is invertible.", "quantifier": "every number of samples, basis size, observable dimension, k0, correlation input and dt", "why_tests_cant": "Needs to hold at every lag for every input; finite tests only sample it.", "anchors": ["VolterraBasis/fkernel.f90:kernel_first_kind_trapz", "VolterraBasis/fkernel.f90:trapz_integral", "VolterraBasis/gle_estimation.py:Estimator_gle.compute_kernel"]}
{"id": "C03", "title": "Second-kind inversion solves the discretised second-kind equation", "statement": "compute_kernel(method='second_kind_rect') returns the unique K with K[0]=k0 and bkbk[0]K[i] = dt*sum_{j<i} dotbkbk[i-j]K[j] + dotbkdx[i] for i>=1; 'second_kind_trapz' the unique K with bkbk[0]K[i] = dt*(1/2 dotbkbk[i]K[0]+sum_{0<j<i} dotbkbk[i-j]K[j]+1/2 dotbkbk[0]K[i]) + dotbkdx[i].", "quantifier": "every number of samples, sizes, k0, correlation input and dt", "why_tests_cant": "Universally quantified identity over all inputs and lags.", "anchors": ["VolterraBasis/fkernel.f90:kernel_second_kind_rect", "VolterraBasis/fkernel.f90:kernel_second_kind_trapz", "VolterraBasis/gle_estimation.py:Estimator_gle.compute_kernel"]}
{"id": "C04", "title": "Midpoint inversion solves the midpoint-rule Volterra equation", "statement": "The kernel returned by compute_kernel(method='midpoint'), whose sample j is labelled time 2*j*dt, satisfies the midpoint rule with step 2dt: 2dt*sum_{j<=i} bkbk[(2(i-j)+1)dt] K[j] = -bkdx[(2i+1)dt], i.e. every correlation factor is taken at the odd lag t-s that belongs to its kernel sample.", "quantifier": "every correlation input, size and dt, every i in range", "why_tests_cant": "The discrepancy is invisible on slowly varying data within tolerance; only the algebraic identity for all inputs settles it.", "anchors": ["VolterraBasis/fkernel.f90:kernel_first_kind_midpoint", "VolterraBasis/fkernel.f90:midpoint_integral"]}
{"id": "C05", "title": "Every kernel sample returned is determined by the data", "statement": "For each method of compute_kernel, every sample of the returned kernel is computed from the correlations (none is an untouched buffer value), so changing what the output buffer held beforehand never changes the result.", "quantifier": "every method, every number of samples, every initial content of the output buffer", "why_tests_cant": "A zero or stale last sample looks plausible in a test and depends on the parity of the number of samples.", "anchors": ["VolterraBasis/fkernel.f90:kernel_first_kind_rect", "VolterraBasis/fkernel.f90:kernel_first_kind_midpoint", "VolterraBasis/fkernel.f90:kernel_first_kind_trapz", "VolterraBasis/fkernel.f90:kernel_second_kind_rect", "VolterraBasis/fkernel.f90:kernel_second_kind_trapz"]}
{"id": "C06", "title": "Inversion is causal: a longer truncation never changes earlier kernel samples", "statement": "If two runs see correlations that agree up to lag i then the kernels returned by the same inversion routine agree on every sample computed from lags <= i; in particular enlarging trunc only appends samples (up to the never-assigned tail of the rectangular and midpoint routines).", "quantifier": "every pair of correlation inputs agreeing on a prefix, every length, every method", "why_tests_cant": "Relates two executions on arbitrary inputs; tests compare only a few.", "anchors": ["VolterraBasis/fkernel.f90:kernel_first_kind_rect", "VolterraBasis/fkernel.f90:kernel_first_kind_trapz", "VolterraBasis/fkernel.f90:kernel_second_kind_rect", "VolterraBasis/fkernel.f90:kernel_second_kind_trapz", "VolterraBasis/fkernel.f90:kernel_first_kind_midpoint"]}
{"id": "C07", "title": "The memory kernel depends on the span of the basis, not on the basis", "statement": "Replacing the kernel basis E by P.E for any invertible P (so bkbk -> P bkbk P^T, bkdx -> P bkdx, and likewise for the dotted correlations) multiplies the kernel coefficients by the inverse transpose of P, so the memory force sum_k E_k(t-s)K_k(s) and the evaluated kernel are unchanged, for all inversion methods.", "quantifier": "every invertible change of basis, all inputs and lengths", "why_tests_cant": "Ranges over all invertible matrices and all data.", "anchors": ["VolterraBasis/fkernel.f90:kernel_first_kind_rect", "VolterraBasis/fkernel.f90:kernel_first_kind_trapz", "VolterraBasis/fkernel.f90:kernel_second_kind_rect", "VolterraBasis/fkernel.f90:kernel_second_kind_trapz", "VolterraBasis/fkernel.f90:memory_rect", "VolterraBasis/fkernel.f90:memory_trapz"]}
{"id": "C08", "title": "The inversion is linear in the force correlations", "statement": "For fixed bkbk the kernel returned for a*bkdx1 + b*bkdx2 (and the same combination of k0) is the same combination of the kernels; in particular zero force correlation gives a zero kernel.", "quantifier": "all scalars, all inputs, all lengths, every method", "why_tests_cant": "Universally quantified algebraic law.", "anchors": ["VolterraBasis/fkernel.f90:kernel_first_kind_rect", "VolterraBasis/fkernel.f90:kernel_first_kind_trapz", "VolterraBasis/fkernel.f90:kernel_second_kind_rect", "VolterraBasis/fkernel.f90:kernel_second_kind_trapz", "VolterraBasis/fkernel.f90:kernel_first_kind_midpoint"]}
{"id": "C09", "title": "Kernel samples and time stamps always match", "statement": "For every method and every trunc_ind >= 4, compute_kernel produces exactly as many kernel samples as time stamps (so building the labelled kernel never fails), and stamp i is i*dt for rectangular, trapezoidal and second-kind, 2*i*dt for midpoint and 6*i*dt for midpoint with Richardson; the shapes combined by the Richardson step always agree.", "quantifier": "every trunc_ind >= 4, every method", "why_tests_cant": "Arithmetic on strided slice lengths has to be checked for all lengths modulo 2, 3 and 6 combined.", "anchors": ["VolterraBasis/gle_estimation.py:Estimator_gle.compute_kernel", "VolterraBasis/fkernel.f90:kernel_first_kind_midpoint"]}
{"id": "C10", "title": "Simpson inversion solves the Simpson-rule Volterra equation", "statement": "The first-kind Simpson routine solves, at every lag i>=2, the composite Simpson rule (with one trapezoid on the first interval when i is odd), and the second-kind Simpson routine solves the corresponding second-kind equation.", "quantifier": "every number of samples, size and input", "why_tests_cant": "Universally quantified over parity and lengths; routine has no tests.", "anchors": ["VolterraBasis/fkernel.f90:kernel_first_kind_simpson", "VolterraBasis/fkernel.f90:kernel_second_kind_simpson", "VolterraBasis/fkernel.f90:simpson_integral"]}
{"id": "C11", "title": "check_volterra_inversion reports zero residual for a trapezoidal kernel", "statement": "After compute_kernel(method='trapz'), check_volterra_inversion(return_diff=True) is zero at every lag n>=1 covered by the kernel.", "quantifier": "every correlation input", "why_tests_cant": "Equality at all lags for all inputs.", "anchors": ["VolterraBasis/gle_estimation.py:Estimator_gle.check_volterra_inversion", "VolterraBasis/gle_estimation.py:Estimator_gle.compute_kernel"]}
{"id": "C12", "title": "The inversion recovers the kernel that generated the data", "statement": "If the force correlations are exactly the discretised convolution (rectangular, trapezoidal or second-kind rule) of bkbk with some kernel K*, then the corresponding compute_kernel routine returns K* (given k0=K*[0] where one is needed) on every sample it computes.", "quantifier": "every kernel K*, every correlation sequence with invertible leading matrix, every length", "why_tests_cant": "Round-trip over all kernels and data.", "anchors": ["VolterraBasis/fkernel.f90:kernel_first_kind_rect", "VolterraBasis/fkernel.f90:kernel_first_kind_trapz", "VolterraBasis/fkernel.f90:kernel_second_kind_rect", "VolterraBasis/fkernel.f90:kernel_second_kind_trapz"]}
{"id": "C13", "title": "Rectangular memory force is the rectangle-rule convolution", "statement": "For a model whose method is rectangular, the memory term returned by compute_noise is 0 at the first time and -dt*sum_{j=0..min(i,L)} E(i-j) K(j) at every later time i, where L+1 is the number of kernel samples used.", "quantifier": "every trajectory length, kernel length, basis size", "why_tests_cant": "Identity at all times for all lengths, including trajectories longer and shorter than the kernel.", "anchors": ["VolterraBasis/fkernel.f90:memory_rect", "VolterraBasis/models.py:ModelBase.compute_noise"]}
{"id": "C14", "title": "Trapezoidal memory force is the trapezoid-rule convolution truncated at the kernel length", "statement": "For a trapezoidal model the memory term at every time i>=1 is minus the composite trapezoid rule of E(i-s)K(s) over s in [0, min(i,L)*dt] (half weight on both ends), also once the trajectory is longer than the kernel.", "quantifier": "every trajectory and kernel length", "why_tests_cant": "The failing region starts only past the kernel length; must hold for all pairs of lengths.", "anchors": ["VolterraBasis/fkernel.f90:memory_trapz", "VolterraBasis/models.py:ModelBase.compute_noise"]}
{"id": "C15", "title": "compute_noise splits the observable exactly into force, memory and noise", "statement": "For every trajectory and window [start_point,end_point), the arrays returned by compute_noise satisfy observable = noise + force + memory at every time, where force is, component by component, the fitted mean force (what force_eval returns) and memory starts from zero at the window start; kernels from midpoint methods are rejected.", "quantifier": "every trajectory, window, dimension, method", "why_tests_cant": "Must hold for every dimension and every window.", "anchors": ["VolterraBasis/models.py:ModelBase.compute_noise", "VolterraBasis/models.py:ModelBase.force_eval"]}
{"id": "C16", "title": "Noise correlations average over all window starts", "statement": "For a trapezoidal model compute_corrs_w_noise at lag n equals the mean over every start time t of left_op(t) times the noise compute_noise(start_point=t) would report n steps later (trapezoid convolution restarted at t); for rectangular models the same with the rectangle rule.", "quantifier": "every trajectory, kernel length not longer than the trajectory, every lag and start", "why_tests_cant": "Relates an in-place running update to a restart at every possible start time.", "anchors": ["VolterraBasis/fkernel.f90:corrs_trapz", "VolterraBasis/fkernel.f90:corrs_rect", "VolterraBasis/models.py:ModelBase.compute_corrs_w_noise", "VolterraBasis/models.py:ModelBase.compute_noise"]}
{"id": "C17", "title": "evolve_volterra advances the discretised linear GLE", "statement": "For each step i>=1 the result of evolve_volterra satisfies (G(i)-G(i-1))/dt = G(i-1).F - M(i), where M(i) is the trapezoid ('trapz') or rectangle ('rect') rule for the convolution of G(i-s) with the kernel over the full memory window of min(i, L) steps.", "quantifier": "every length, kernel, initial value", "why_tests_cant": "Needs all windows shorter and longer than the kernel.", "anchors": ["VolterraBasis/fkernel.f90:solve_ide_trapz", "VolterraBasis/fkernel.f90:solve_ide_rect", "VolterraBasis/models.py:Pos_gle_overdamped.evolve_volterra"]}
{"id": "C18", "title": "Stabilised evolution stays in bounds and on the simplex", "statement": "evolve_volterra(method='trapz_stab') reads only elements of its arrays, and after every step all entries are nonnegative and sum to one (when some entry was positive before normalising).", "quantifier": "every dimension, length and kernel", "why_tests_cant": "Out-of-bounds reads are silent in the compiled routine; simplex property must hold at every step.", "anchors": ["VolterraBasis/fkernel.f90:solve_ide_trapz_stab", "VolterraBasis/models.py:Pos_gle_overdamped.evolve_volterra"]}
{"id": "C19", "title": "flux_from_volterra returns the memory term of the evolution equation", "statement": "For the solution G of the discretised evolution, flux_from_volterra at step n returns the memory convolution at time n: minus the quadrature of G(n-j)K(j).", "quantifier": "every correlation, kernel, method and n", "why_tests_cant": "An index shift by one sample is within tolerance on smooth data.", "anchors": ["VolterraBasis/models.py:ModelBase.flux_from_volterra", "VolterraBasis/fkernel.f90:trapz_integral", "VolterraBasis/fkernel.f90:rect_integral", "VolterraBasis/fkernel.f90:simpson_integral"]}
{"id": "C20", "title": "The mean force is the least-squares projection", "statement": "compute_mean_force returns coefficients such that the residual observable - force is orthogonal (pooled time average over all trajectories) to every force basis function, and no other coefficients give a smaller pooled squared residual; if the observable is exactly a combination of the basis functions those coefficients are returned.", "quantifier": "every set of trajectories, lengths, basis, dimension with invertible Gram matrix", "why_tests_cant": "Optimality over all coefficient vectors and all data.", "anchors": ["VolterraBasis/gle_estimation.py:Estimator_gle.compute_mean_force", "VolterraBasis/gle_estimation.py:Estimator_gle._projection_on_basis", "VolterraBasis/gle_estimation.py:solve_linear"]}
{"id": "C21", "title": "Averages over several trajectories are pooled averages", "statement": "Gram matrices, basis means, squared velocities and force projections computed from a list of trajectories equal the average over all samples of all trajectories taken together, so they do not depend on how the samples are cut into trajectories nor on the order of the trajectories.", "quantifier": "every list of trajectories of every lengths, every permutation and every way of cutting", "why_tests_cant": "Quantifies over all partitions and orders of the data.", "anchors": ["VolterraBasis/gle_estimation.py:Estimator_gle._loop_over_trajs_serial", "VolterraBasis/gle_estimation.py:Estimator_gle._compute_gram", "VolterraBasis/gle_estimation.py:Estimator_gle._projection_on_basis", "VolterraBasis/gle_estimation.py:Estimator_gle._compute_square_vel"]}
{"id": "C22", "title": "Parallel evaluation gives the serial result", "statement": "With n_jobs>1 every averaged quantity equals the n_jobs=1 result, whatever order the worker tasks are executed and completed in.", "quantifier": "every number of trajectories and every interleaving/completion order of the tasks", "why_tests_cant": "Schedules cannot be enumerated by tests.", "anchors": ["VolterraBasis/gle_estimation.py:Estimator_gle._loop_over_trajs_parallel", "VolterraBasis/gle_estimation.py:Estimator_gle._loop_over_trajs_serial"]}
{"id": "C23", "title": "Force correlation vanishes at lag zero when the kernel basis is part of the force basis", "statement": "For the overdamped, position-only and with-friction models, after compute_mean_force the correlation bkdx computed by compute_corrs is zero at lag zero for every basis function and component.", "quantifier": "every set of trajectories and basis with invertible Gram matrix", "why_tests_cant": "Holds by orthogonality for all data, needed for the first-kind equation to be solvable at t=0.", "anchors": ["VolterraBasis/gle_estimation.py:Estimator_gle.compute_corrs", "VolterraBasis/gle_estimation.py:Estimator_gle.compute_mean_force", "VolterraBasis/models.py:Pos_gle_overdamped.basis_vector", "VolterraBasis/models.py:Pos_gle_with_friction.basis_vector"]}
{"id": "C24", "title": "FFT and direct correlations are the same function", "statement": "For any two real series of equal length, the FFT based estimator returns at every lag below the truncation exactly the direct estimate (1/(T-n)) sum_t a(t) b(t+n); the zero padding prevents any wrap-around.", "quantifier": "every pair of series, every length, every truncation", "why_tests_cant": "Circular wrap-around depends on the length relative to powers of two; must hold for all lengths.", "anchors": ["VolterraBasis/correlation.py:correlation_1D", "VolterraBasis/correlation.py:correlation_ND", "VolterraBasis/correlation.py:correlation_direct_1D", "VolterraBasis/correlation.py:correlation_direct_ND"]}
{"id": "C25", "title": "Single-argument correlation_fft and correlation_direct agree", "statement": "Calling correlation_fft(a) and correlation_direct(a) with one multi-component array returns the same array of cross-correlations <a_i(t) a_j(t+n)>.", "quantifier": "every array with every number of components and samples", "why_tests_cant": "Existing tests use one component only.", "anchors": ["VolterraBasis/correlation.py:correlation_ND", "VolterraBasis/correlation.py:correlation_direct_ND"]}
{"id": "C26", "title": "Estimation steps out of order fail cleanly and never leave a half result", "statement": "In any sequence of calls on an estimator, compute_corrs fails with the documented exception unless a mean force is set, compute_kernel fails with the documented exception unless correlations exist, noise evaluation fails unless a force (and kernel) exist, and a failing call changes nothing.", "quantifier": "every finite sequence of API calls", "why_tests_cant": "All call histories.", "anchors": ["VolterraBasis/gle_estimation.py:Estimator_gle.compute_corrs", "VolterraBasis/gle_estimation.py:Estimator_gle.compute_kernel", "VolterraBasis/gle_estimation.py:Estimator_gle.compute_gram_kernel", "VolterraBasis/gle_estimation.py:Estimator_gle.check_volterra_inversion", "VolterraBasis/models.py:ModelBase.compute_noise"]}
{"id": "C27", "title": "The stored kernel always belongs to the stored force and correlations", "statement": "After any sequence of successful calls, if the model has a kernel then that kernel was computed from correlations of the residual of the force coefficients currently stored in the model.", "quantifier": "every finite sequence of API calls", "why_tests_cant": "All call histories.", "anchors": ["VolterraBasis/gle_estimation.py:Estimator_gle.compute_mean_force", "VolterraBasis/gle_estimation.py:Estimator_gle.set_zero_force", "VolterraBasis/gle_estimation.py:Estimator_gle.compute_corrs", "VolterraBasis/gle_estimation.py:Estimator_gle.compute_kernel"]}
{"id": "C28", "title": "The truncation index never exceeds a trajectory", "statement": "trunc_ind computed from trunc is at most the number of samples of every trajectory, so all correlations have the same length trunc_ind and can be averaged.", "quantifier": "every list of trajectories with increasing times", "why_tests_cant": "Depends on relation between time origins and lengths of all trajectories.", "anchors": ["VolterraBasis/gle_estimation.py:Estimator_gle._compute_trunc_ind"]}
{"id": "C29", "title": "Merged data description equals the description of the pooled data", "statement": "describe_data over several trajectories reports the number of observations, minimum, maximum, mean and variance of all samples pooled, independent of the order of trajectories.", "quantifier": "every list of non-empty trajectories", "why_tests_cant": "All partitions of all data.", "anchors": ["VolterraBasis/gle_estimation.py:Estimator_gle.describe_data", "VolterraBasis/basis/_data_describe.py:sum_describe"]}
{"id": "C30", "title": "Range projection removes exactly the null directions", "statement": "When the basis is rank deficient and rank projection is on, the projected correlation matrix at lag zero is invertible, nothing is lost (the lag-zero matrix is recovered from its projection), and a basis of rank zero is rejected.", "quantifier": "every symmetric positive semidefinite lag-zero matrix and tolerance", "why_tests_cant": "All matrices and ranks.", "anchors": ["VolterraBasis/models.py:ModelBase._set_range_projection", "VolterraBasis/gle_estimation.py:Estimator_gle.compute_corrs", "VolterraBasis/models.py:matmulPrange"]}
{"id": "C31", "title": "Saving and loading a model preserves its behaviour", "statement": "load_model(basis, save_model(m)) behaves as m: same force, kernel, noise decomposition, free energy.", "quantifier": "every model state reachable by the API", "why_tests_cant": "Must cover every attribute and every method choice.", "anchors": ["VolterraBasis/models.py:ModelBase.save_model", "VolterraBasis/models.py:ModelBase.load_model"]}
{"id": "C32", "title": "Kernel basis and its derivative are time derivatives along the trajectory", "statement": "For the underdamped model, along any twice differentiable trajectory x(t) with velocity v and acceleration a the kernel basis E is the time derivative of the basis functions b(x(t)) and dE is the time derivative of E; in the position-only models dE is the time derivative of E=b(x(t)).", "quantifier": "every smooth trajectory in any dimension, every twice differentiable basis", "why_tests_cant": "Analytic identity for all trajectories and bases.", "anchors": ["VolterraBasis/models.py:Pos_gle.basis_vector", "VolterraBasis/models.py:Pos_gle_no_vel_basis.basis_vector", "VolterraBasis/models.py:Pos_gle_overdamped.basis_vector"]}
{"id": "C33", "title": "deriv, hessian and antiderivative of the global bases are what they say", "statement": "For the linear, polynomial and Fourier bases, deriv is the gradient of basis, hessian the gradient of deriv, and the derivative of antiderivative is basis, column by column (with the constant columns dropped when the constant is removed), at every point.", "quantifier": "every degree/order, frequency, dimension and point; with or without constant removal and centering", "why_tests_cant": "All points and orders; tests check shapes only.", "anchors": ["VolterraBasis/basis/_basis_features.py:LinearFeatures", "VolterraBasis/basis/_basis_features.py:PolynomialFeatures", "VolterraBasis/basis/_basis_features.py:FourierFeatures"]}
{"id": "C34", "title": "Smooth indicators form a partition of unity", "statement": "For ordered non-overlapping state boundaries the smooth indicator features are between 0 and 1 and sum to 1 at every point, for every number of states, each boundary type, periodic or not.", "quantifier": "every point, every list of ordered boundaries, boundary type and periodicity", "why_tests_cant": "All points and numbers of states.", "anchors": ["VolterraBasis/basis/_local_features.py:SmoothIndicatorFeatures.basis"]}
{"id": "C35", "title": "Smooth indicator derivatives are the derivatives", "statement": "deriv of the smooth indicator features is the derivative of basis at every point including the boundaries of the transition regions, the derivatives sum to zero, and hessian is the derivative of deriv away from region boundaries.", "quantifier": "every point, boundary list and boundary type", "why_tests_cant": "All points, includes matching of one-sided derivatives.", "anchors": ["VolterraBasis/basis/_local_features.py:SmoothIndicatorFeatures.deriv", "VolterraBasis/basis/_local_features.py:tricube"]}
{"id": "C36", "title": "Tensor basis indexing and derivatives", "statement": "For the 2D tensor basis column comb_indices(i,j) of basis is b1_i(x)*b2_j(y), comb_indices and split_index are inverse bijections, deriv is its gradient, hessian its symmetric Hessian, and each factor is fitted on its own coordinate.", "quantifier": "every pair of bases, sizes, indices and points", "why_tests_cant": "All sizes, indices and points.", "anchors": ["VolterraBasis/basis/_multidim_basis.py:TensorialBasis2D"]}
{"id": "C37", "title": "Combined bases concatenate values and derivatives consistently", "statement": "For a combination of any number of bases, deriv has one column for the derivative of every non-constant column of basis, in the same order.", "quantifier": "every list of one or more bases", "why_tests_cant": "All numbers of components; tests use two.", "anchors": ["VolterraBasis/basis/_basis_features.py:FeaturesCombiner"]}
{"id": "C38", "title": "Declared basis sizes match the arrays actually produced", "statement": "For every model class and basis, N_basis_elt_force and N_basis_elt_kernel equal the widths of the force and kernel basis arrays produced by basis_vector.", "quantifier": "every model class, basis family, dimension, constant removal", "why_tests_cant": "All combinations.", "anchors": ["VolterraBasis/models.py:Pos_gle", "VolterraBasis/models.py:Pos_gle_with_friction", "VolterraBasis/models.py:Pos_gle_no_vel_basis", "VolterraBasis/models.py:Pos_gle_const_kernel", "VolterraBasis/models.py:Pos_gle_hybrid", "VolterraBasis/models.py:Pos_gle_overdamped"]}
{"id": "C39", "title": "Free energy has zero minimum and minus the force as gradient", "statement": "pmf_eval(set_zero=True) is nonnegative with minimum exactly zero over the evaluation points, its differences do not depend on set_zero, and its derivative with respect to position is -force*mass/kT at every point.", "quantifier": "every set of evaluation points, coefficients, kT, basis with antiderivative", "why_tests_cant": "All evaluation grids and points.", "anchors": ["VolterraBasis/models.py:ModelBase.pmf_eval", "VolterraBasis/models.py:Pos_gle_overdamped.pmf_eval"]}
{"id": "C40", "title": "Finite differences are exact on parabolas and keep interior samples", "statement": "compute_va keeps exactly the samples whose two neighbours exist and are valid, leaves x and time unchanged there, and returns velocity and acceleration exactly equal to the derivatives when x is a quadratic polynomial of time (default weights).", "quantifier": "every trajectory length and placement of missing values, every quadratic", "why_tests_cant": "All lengths, coefficients and NaN patterns.", "anchors": ["VolterraBasis/__init__.py:compute_va", "VolterraBasis/__init__.py:compute_a", "VolterraBasis/__init__.py:compute_va_gjf", "VolterraBasis/__init__.py:compute_a_from_vel"]}
{"id": "C41", "title": "Jump correction recovers the unwrapped trajectory", "statement": "If the data are a periodic wrapping of a trajectory whose steps are small compared with the threshold, compute_va(correct_jumps=True) returns exactly the velocity and acceleration of the unwrapped trajectory.", "quantifier": "every trajectory and every wrapping by at most one period per step", "why_tests_cant": "All wrapped trajectories.", "anchors": ["VolterraBasis/__init__.py:compute_va", "VolterraBasis/__init__.py:compute_va_gjf"]}
{"id": "C42", "title": "xframe time axis", "statement": "With fix_time the times are exactly i*dt with dt a multiple of round_time within half of round_time of the first step (or the given dt), otherwise times are unchanged and dt is the first step; passing a requires nothing else of the caller.", "quantifier": "every time axis and options", "why_tests_cant": "All inputs, rounding at ties.", "anchors": ["VolterraBasis/__init__.py:xframe"]}
{"id": "C43", "title": "Integrator memory equals the truncated trapezoid and matches the noise extraction", "statement": "The memory used by the integrator at step m is the trapezoid rule of E(m-s)K(s) over the last min(m,L) steps, and equals minus the memory reported by compute_noise for a trapezoidal model.", "quantifier": "every history length, kernel length and basis size", "why_tests_cant": "All pairs of lengths.", "anchors": ["VolterraBasis/gle_integrate.py:Integrator_gle._mem_int_red", "VolterraBasis/gle_integrate.py:Integrator_gle._f_rk", "VolterraBasis/fkernel.f90:memory_trapz"]}
{"id": "C44", "title": "Integrator reproduces ballistic motion exactly and respects initial data", "statement": "run keeps the given initial samples, returns n_steps samples, is deterministic without noise, and with a constant force, no memory and no noise reproduces x0+v0 t+F t^2/2 exactly at every step.", "quantifier": "every number of steps, initial data, force and dt", "why_tests_cant": "All step counts and parameters.", "anchors": ["VolterraBasis/gle_integrate.py:Integrator_gle.run", "VolterraBasis/gle_integrate.py:Integrator_gle._rk_step"]}
{"id": "C45", "title": "Generated noise has the prescribed covariance", "statement": "The covariance matrix built from a stationary kernel is symmetric Toeplitz with entry kernel[|i-j|], and noise generated from it by the Karhunen-Loeve generator has covariance dt times that matrix; asking for more samples than available is refused.", "quantifier": "every kernel, size and orthonormal eigendecomposition", "why_tests_cant": "Statistical property for all kernels; sampling can only approximate.", "anchors": ["VolterraBasis/gle_integrate.py:KarhunenLoeveNoiseGenerator", "VolterraBasis/gle_integrate.py:ColoredNoiseGenerator"]}
{"id": "C46", "title": "Fourier helpers are inverse and colored noise filter squares to the kernel", "statement": "ift(ft(f)) = f for every sampled function, and the filter used by the colored noise generator convolved with itself gives back the symmetrised kernel.", "quantifier": "every sample count and function", "why_tests_cant": "All lengths.", "anchors": ["VolterraBasis/gle_integrate.py:ft", "VolterraBasis/gle_integrate.py:ift", "VolterraBasis/gle_integrate.py:ColoredNoiseGenerator"]}
{"id": "C47", "title": "Hankel round trip", "statement": "Reconstructing a time series from its unfiltered Hankel matrix gives back the series, for every length.", "quantifier": "every series", "why_tests_cant": "All lengths and parities.", "anchors": ["VolterraBasis/fit_prony.py:reconstruct_data", "VolterraBasis/fit_prony.py:prony_inspect_data"]}
{"id": "C48", "title": "Prony orthogonalisation", "statement": "The vectors returned by the Hankel factorisation are orthonormal up to sign for the (indefinite) Hankel form, their number is at most the number kept, and the routine fails exactly when none passes the threshold.", "quantifier": "every symmetric matrix and threshold", "why_tests_cant": "All indefinite matrices.", "anchors": ["VolterraBasis/fit_prony.py:ldl_hankel", "VolterraBasis/fit_prony.py:phi_bis"]}
{"id": "C49", "title": "Prony reproduces the data it was given", "statement": "When the Hankel matrix has rank N and the orthogonalisation is not degenerate, the [0,0] entry of the k-th power of the Jacobi matrix is data[k]/data[0] for every sample, so the fitted series passes through the data at the sample times.", "quantifier": "every series of every length satisfying the rank condition", "why_tests_cant": "All series and lengths.", "anchors": ["VolterraBasis/fit_prony.py:get_jacobi_matrix_reduced", "VolterraBasis/fit_prony.py:ldl_hankel", "VolterraBasis/fit_prony.py:prony_fit_times_serie"]}
{"id": "C50", "title": "Fit and evaluation accept the same kernels", "statement": "Every type name accepted by memory_fit is accepted by memory_fit_eval with the parameters produced, kernel-wide fits are evaluated component by component in the same place, and unknown names are rejected by both.", "quantifier": "every type name, kernel shape and component", "why_tests_cant": "All strings and shapes.", "anchors": ["VolterraBasis/fit_memory.py:memory_fit", "VolterraBasis/fit_memory.py:memory_fit_eval", "VolterraBasis/fit_memory.py:memory_fit_kernel", "VolterraBasis/fit_memory.py:memory_kernel_eval"]}
{"id": "C51", "title": "Mesh helpers", "statement": "get_intersect returns a point lying on both lines whenever they are not parallel, the graded line starts and ends at the given end points with constant ratio of consecutive elements, and hull simplification terminates removing one vertex per round.", "quantifier": "every four points, every ratio and element count, every polygon", "why_tests_cant": "All geometric inputs; termination for every polygon.", "anchors": ["VolterraBasis/basis/_mesh_utils.py:get_intersect", "VolterraBasis/basis/_mesh_utils.py:non_uniform_line", "VolterraBasis/basis/_mesh_utils.py:remove_one_point", "VolterraBasis/basis/_mesh_utils.py:centroid_driven_mesh"]}
{"id": "C52", "title": "Finite element derivative layout", "statement": "The dense array returned by the finite element deriv has at [sample, dof, direction] the derivative of that dof's shape function in that direction.", "quantifier": "every number of samples, local functions and dimension", "why_tests_cant": "All dimensions; layout bug invisible in 1D.", "anchors": ["VolterraBasis/basis/_fem_features.py:FEMScalarFeatures.deriv", "VolterraBasis/basis/_fem_features.py:FEMScalarFeatures.basis"]}
{"id": "C53", "title": "Evaluating a basis does not modify the data", "statement": "Calling basis() or deriv() of any basis leaves the trajectory array passed in unchanged.", "quantifier": "every array", "why_tests_cant": "In-place modification happens only on a boundary value.", "anchors": ["VolterraBasis/basis/_fem_features.py:ElementFinder.find_element_1D"]}
{"id": "C54", "title": "Free-energy histogram accounts for every sample", "statement": "compute_1d_fe(hist=True) returns probabilities that are nonnegative and sum to one and count every sample between the smallest and largest value.", "quantifier": "every data set and number of bins", "why_tests_cant": "Half-open bins treat exactly one boundary sample differently.", "anchors": ["VolterraBasis/__init__.py:compute_1d_fe"]}
{"id": "C55", "title": "A restarted run keeps the time axis of its history", "statement": "The times returned by run for the given initial samples are the times those samples had, and consecutive samples are dt apart; initial_conditions returns n_mem+1 consecutive samples of the data with times 0, dt, ..., that run accepts.", "quantifier": "every history length, number of steps, data set and drawn point", "why_tests_cant": "All history lengths; the shift vanishes for the default single initial sample.", "anchors": ["VolterraBasis/gle_integrate.py:Integrator_gle.run", "VolterraBasis/gle_integrate.py:Integrator_gle.initial_conditions"]}
{"id": "C56", "title": "BGLE integrator memory is the truncated trapezoid", "statement": "The memory used by the one-dimensional BGLE integrator after m steps is the trapezoid rule of K(s)v(m-s) over the last min(m, L) steps.", "quantifier": "every velocity history and kernel length", "why_tests_cant": "All pairs of lengths; the end weight differs only while the history is shorter than the kernel.", "anchors": ["VolterraBasis/gle_integrate.py:BGLEIntegrator._mem_int_red", "VolterraBasis/gle_integrate.py:BGLEIntegrator.f_rk"]}
{"id": "C57", "title": "Spline bases: derivatives, antiderivatives and the dropped column", "statement": "For the B-spline and single-spline bases, column n*dim+i of basis is spline n at coordinate i, deriv and hessian are its gradient and second derivatives, antiderivative integrates it, and when the constant is removed the column left out is a combination of those kept (the splines summing to one).", "quantifier": "every family of splines, number of splines, degree, dimension and point", "why_tests_cant": "All points, families and dimensions; tests check shapes only.", "anchors": ["VolterraBasis/basis/_local_features.py:BSplineFeatures", "VolterraBasis/basis/_basis_features.py:SplineFctFeatures"]}
{"id": "C58", "title": "Numerically integrated free energy is exact on exponential densities", "statement": "pmf_num_int_eval on a uniform grid, with an affine inverse mass and the mean force it implies for an exponential density, returns the free energy differences exactly in units of kT, at every temperature and for any number of grid points.", "quantifier": "every grid size, spacing, slope, affine inverse mass without zero and temperature", "why_tests_cant": "All grids and temperatures; the error vanishes at the default kT=1.", "anchors": ["VolterraBasis/models.py:ModelBase.pmf_num_int_eval"]}
{"id": "C59", "title": "The element finder returns an element containing the point", "statement": "For every point of the meshed domain the element index returned by ElementFinder.find is that of an element which contains the point, ends of the domain included.", "quantifier": "every mesh in one or two dimensions and every point in it", "why_tests_cant": "All meshes; the search looks at five candidates only and fails on elongated elements and on reordered or tiny meshes, none of which the examples use.", "anchors": ["VolterraBasis/basis/_fem_features.py:ElementFinder.find_element_1D", "VolterraBasis/basis/_fem_features.py:ElementFinder.find_element_ND", "VolterraBasis/basis/_fem_features.py:ElementFinder.inside_2D"]}
{"id": "C60", "title": "The Fokker-Planck workflow conserves constant combinations of the basis", "statement": "After to_gfpe, every combination of basis functions whose derivative is zero (their sum, for a partition of unity) annihilates the force coefficients and every kernel sample, whatever the correlation routine and the inversion method, and evolve_volterra with the rectangular or trapezoidal method keeps the corresponding combination of the coefficients equal to its initial value at every step.", "quantifier": "every basis, set of trajectories, time step, truncation, routine, inversion method, initial condition and number of steps", "why_tests_cant": "All trajectories and bases: conservation of probability is a property of the whole chain (force, correlations, inversion, evolution) and no test composes it.", "anchors": ["VolterraBasis/gle_estimation.py:Estimator_gle.to_gfpe", "VolterraBasis/gle_estimation.py:Estimator_gle.compute_kernel", "VolterraBasis/models.py:Pos_gle_overdamped.evolve_volterra"]}
{"id": "C61", "title": "The kernel returned by compute_kernel solves the equation of the chosen method", "statement": "For every method, the samples returned by compute_kernel satisfy that method's discrete Volterra equation between the stored correlations: the basis correlations and the orthogonal-observable correlations for the first-kind methods, their derivative versions for the second-kind ones; the sample at time zero is the given k0 or the solution of <bk,bk>(0) K = <dot bk,dx>(0); the trapezoidal kernel is the 1/4, 1/2, 1/4 average of the solution; the Richardson combination cancels any error quadratic in the time step.", "quantifier": "every set of correlations, time step, method, k0 and number of lags", "why_tests_cant": "All correlations: the tests compare shapes only, so a swapped correlation or a wrong combination goes unnoticed.", "anchors": ["VolterraBasis/gle_estimation.py:Estimator_gle.compute_kernel"]}
{"id": "C62", "title": "Evaluating the kernel gives the memory term back", "statement": "At every point and kernel time, the array of kernel_eval contracted with the velocity (position-velocity, friction and constant kernel classes), or as it stands (overdamped), equals the kernel basis E times the stored kernel coefficients, with or without range projection; for the hybrid class the constant part times the velocity plus the position dependent part does.", "quantifier": "every dimension, basis, kernel, set of points, projection", "why_tests_cant": "Ties three methods with different array layouts together in every dimension; the test-suite is one-dimensional.", "anchors": ["VolterraBasis/models.py:ModelBase.kernel_eval", "VolterraBasis/models.py:Pos_gle_hybrid.kernel_eval", "VolterraBasis/models.py:Pos_gle_hybrid.get_const_kernel_part"]}
{"id": "C63", "title": "Force and friction evaluations add up to the fitted mean force", "statement": "For the model with friction, at every sample the fitted mean force E c equals force_eval at the position plus friction_force_eval contracted with the velocity.", "quantifier": "every basis, dimension, coefficients, sample", "why_tests_cant": "The split of the coefficient array between the two methods must be right for every basis size.", "anchors": ["VolterraBasis/models.py:Pos_gle_with_friction.force_eval", "VolterraBasis/models.py:Pos_gle_with_friction.friction_force_eval", "VolterraBasis/models.py:Pos_gle_with_friction.basis_vector"]}
{"id": "C64", "title": "Force term of the flux decomposition", "statement": "The first array returned by flux_from_volterra is, at every time, the force term of the evolution equation that evolve_volterra solves: the correlation matrix of that time multiplied by the force coefficients, C(t) F.", "quantifier": "for every matrix of force coefficients, every sequence of correlation matrices and every time", "why_tests_cant": "No test calls flux_from_volterra (the only call is commented out); with one basis function, or symmetric coefficients, the transposed product gives the same numbers.", "anchors": ["VolterraBasis/models.py:335", "VolterraBasis/fkernel.f90:395-423", "examples/plot_gfpe.py:57"]}
{"id": "C65", "title": "Position-dependent inverse mass", "statement": "compute_pos_effective_mass followed by inv_mass_eval gives at every point a matrix indexed by two components: the least-squares projection of the products of velocities v_j v_k on the functions of the force basis; pmf_num_int_eval can use it.", "quantifier": "for every model class, basis, dimension, list of trajectories and evaluation point", "why_tests_cant": "The only test of this path is commented out; in one dimension with a position-only class the numbers are right, so a test there passes.", "anchors": ["VolterraBasis/gle_estimation.py:230-238", "VolterraBasis/gle_estimation.py:417-425", "VolterraBasis/models.py:248-278"]}
{"id": "C66", "title": "Every estimated model can be saved, and loading leaves the saved data alone", "statement": "save_model returns a Dataset holding every stored array for whatever model the estimator produced, and load_model does not modify the Dataset it is given.", "quantifier": "every combination of stored arrays, widths of the force, kernel and projected bases, every keyword argument", "why_tests_cant": "The failing combinations need a particular class or a projection together with a Gram matrix; the test suite saves one class only.", "anchors": ["VolterraBasis/models.py:ModelBase.save_model", "VolterraBasis/models.py:ModelBase.load_model"]}
{"id": "C67", "title": "The estimator constructor accepts exactly usable data", "statement": "Estimator_gle accepts a Dataset or a collection of Datasets iff every trajectory has a time dimension, a time step and the columns of the model class, all with the same time step and dimension; otherwise it raises its documented exception. The recorded weights, dimensions, time step and truncation index are those of the data.", "quantifier": "every collection of trajectories, model class, observable name, truncation, basis object", "why_tests_cant": "The unusable inputs are combinations of missing columns, attributes and argument types over several trajectories.", "anchors": ["VolterraBasis/gle_estimation.py:Estimator_gle.__init__", "VolterraBasis/gle_estimation.py:Estimator_gle._do_check", "VolterraBasis/gle_estimation.py:Estimator_gle._do_check_obs", "VolterraBasis/gle_estimation.py:Estimator_gle._compute_trunc_ind", "VolterraBasis/models.py:ModelBase._check_basis"]}
{"id": "C68", "title": "Models sharing a basis object do not interfere", "statement": "After any sequence of constructions, every model built has recorded sizes and rank projection flag that are those of the arrays its basis object produces.", "quantifier": "every sequence of constructions over a store of basis objects, every class", "why_tests_cant": "Needs two models built in one program on one basis object; each alone is right.", "anchors": ["VolterraBasis/models.py:ModelBase._check_basis", "VolterraBasis/models.py:Pos_gle.__init__", "VolterraBasis/models.py:Pos_gle_overdamped.__init__", "VolterraBasis/models.py:Pos_gle_hybrid.__init__", "VolterraBasis/models.py:Pos_gle_no_vel_basis.__init__"]}
{"id": "C69", "title": "Runs of the BGLE integrator", "statement": "BGLEIntegrator.integrate returns trajectories of n_steps samples starting at x0, v0, each sample obtained from the previous one by one Runge-Kutta step of dv/dt = force + noise - memory, the memory being interpolated between the start and the end of the step; times are multiples of dt, accelerations are velocity increments over dt; a run continued from its history is the uninterrupted run.", "quantifier": "for every kernel of at least two samples, force, noise, length, starting index and history", "why_tests_cant": "A test runs one kernel and one force for a few steps; the start of the memory and the continuation of a run are special cases that a plausible trajectory does not show.", "anchors": ["VolterraBasis/gle_integrate.py:389-466"]}
{"id": "C70", "title": "Building an integrator from a model", "statement": "An integrator built from a model holds the force, the kernel and the time step of the model and one noise filter per component, whose circular square is the noise kernel (noise coefficients times kernel) when its spectrum is nowhere negative. It can be built from any fitted model with default coefficients, with a shorter kernel by trunc_kernel, or without a model from keyword arguments, and its noise has the time step of the integrator.", "quantifier": "All models (any stored force, kernel, times, inverse mass coefficients, sizes), all noise coefficients, all trunc_kernel, all keyword arguments.", "why_tests_cant": "Tests build an integrator from one fitted model with one kernel method and no truncation; wrong spacing of the noise raises no exception.", "anchors": ["VolterraBasis/gle_integrate.py:28-55", "VolterraBasis/gle_integrate.py:187-245"]}
{"id": "C71", "title": "Estimator with projection on the range of the basis", "statement": "With rank_projection set, in any sequence of estimator calls the kernel in store is that of the correlations of the present force projected on the stored range, the noise is that of the whole basis with the kernel lifted back, the Gram matrix of the kernel basis is projected, and a call that raises leaves no half-made result behind from which later calls continue.", "quantifier": "All models, trajectories, truncations, tolerances, decompositions of the lag-zero correlations, starting states and call sequences.", "why_tests_cant": "Tests run one fixed order of calls with one tolerance on one basis; compute_gram_kernel is never called together with the projection.", "anchors": ["VolterraBasis/gle_estimation.py:206-215", "VolterraBasis/gle_estimation.py:254-288", "VolterraBasis/models.py:95-119", "VolterraBasis/models.py:138-169"]}
{"id": "C72", "title": "Position-dependent coloured noise", "statement": "PosColoredNoiseGenerator stores for every basis function and component the transform of the symmetrised kernel without loss; generate(E_noise, ind) returns, for values of the basis and any step of a run, the sample at that step of a noise whose kernel is the combination of the kernels with the values of the basis, and noises at different steps are correlated as the kernel says.", "quantifier": "All kernels, time grids, values of the basis, steps and draws of white noise; all expectations for which the draws are white.", "why_tests_cant": "No test builds this generator; covariances cannot be observed exactly by sampling.", "anchors": ["VolterraBasis/gle_integrate.py:5-18", "VolterraBasis/gle_integrate.py:121-179"]}
{"id": "C73", "title": "Correlations with the noise over several trajectories", "statement": "compute_projected_corrs(left_op) returns the times of the kernel and, at every lag, the average over all windows of all trajectories of left_op at the start of the window times the noise at that lag, for left_op absent, a function or variable of the trajectory, or an array.", "quantifier": "All models, projections, kernels, methods with a noise, trajectories (numbers, lengths, steps), left_op.", "why_tests_cant": "Needs several trajectories of different lengths; the tests use the output of one call without an independent average.", "anchors": ["VolterraBasis/gle_estimation.py:165-176", "VolterraBasis/gle_estimation.py:373-377", "VolterraBasis/gle_estimation.py:497-501", "VolterraBasis/models.py:171-207"]}
{"id": "C74", "title": "Files written by estimators", "statement": "With saveall every estimator writes the correlations and the kernel it computes under its own prefix; at any time the files of an estimator hold what the estimator holds, every computation that works without saveall works with it, and saving changes no result.", "quantifier": "All numbers of estimators in one directory, data, saveall flags, prefixes, and sequences of calls to any of them, failing or not.", "why_tests_cant": "The tests switch saveall off or use one estimator; overwritten files show only with several estimators and by comparing contents.", "anchors": ["VolterraBasis/gle_estimation.py:26-58", "VolterraBasis/gle_estimation.py:286-288", "VolterraBasis/gle_estimation.py:345-348", "VolterraBasis/gle_estimation.py:491-494"]}
{"id": "C75", "title": "Prony series fitted and evaluated", "statement": "A fitted Prony series evaluated at the sampling times gives back the fitted series; terms that diverge are removed and leave the other terms unchanged; the series can be evaluated at any times.", "quantifier": "All series, ranks, Jacobi matrices, complete sets of eigenvectors, time steps, flags and evaluation times; any exponential with a principal logarithm.", "why_tests_cant": "The tests fit one decaying kernel whose eigenvalues are positive; negative, zero, diverging eigenvalues and single times do not occur in them.", "anchors": ["VolterraBasis/fit_prony.py:91-118", "VolterraBasis/fit_prony.py:152-175", "VolterraBasis/fit_prony.py:178-197"]}
{"id": "C76", "title": "Prony series of a whole kernel", "statement": "Fitting Prony series on every component of a kernel and evaluating them at the times of the kernel gives the kernel back, each component at its place; every kernel can be fitted, and every fitted kernel can be evaluated.", "quantifier": "All kernels, numbers of components, times, truncation options, and results of the decompositions meeting their contracts.", "why_tests_cant": "The tests compare shapes for one kernel starting at time zero; places of components are invisible for symmetric kernels, and shifted, zero or growing components do not occur.", "anchors": ["VolterraBasis/fit_prony.py:200-225", "VolterraBasis/fit_prony.py:228-248", "VolterraBasis/fit_memory.py:138-160"]}
{"id": "C77", "title": "Estimators sharing trajectories", "statement": "What an estimator computes does not depend on other estimators built on the same trajectories. Switching to the Fokker-Planck observable changes only the named variable of the estimator's own trajectories, gives every trajectory the derivative of the basis on its own data, can be repeated without effect, and changes nothing when it fails.", "quantifier": "All states of the trajectories, estimators, interleaved sequences of calls on any number of estimators, names and models.", "why_tests_cant": "The tests build one estimator per data set and call the switch once, with the default name.", "anchors": ["VolterraBasis/gle_estimation.py:105-117", "VolterraBasis/gle_estimation.py:152-163", "VolterraBasis/gle_estimation.py:240-249"]}
{"id": "C78", "title": "B-splines built on knots", "statement": "The B-spline basis has one function per knot; the functions sum to one everywhere, represent every polynomial up to their degree, lie between zero and one in the range of the knots, vanish away from their knot, and single out the end knots. Splines declared periodic take the same values at both ends of the period and sum to one.", "quantifier": "All increasing knots, degrees, points (also outside the range), plain and periodic splines.", "why_tests_cant": "The tests check the shape of the arrays for one number of knots and degree three; sums, polynomials and the periodic option are never checked.", "anchors": ["VolterraBasis/basis/_local_features.py:12-23", "VolterraBasis/basis/_local_features.py:48-68"]}
{"id": "C79", "title": "Convergence of the inversion", "statement": "On correlations that are samples of a Volterra equation in continuous time, the kernel computed converges to the kernel of that equation as the time step vanishes, with an error bounded by a constant times the time step (rectangles, first and second kind) or its square (trapezoids of the second kind), the constant being the same for every step, number of samples and position. Midpoints converge likewise.", "quantifier": "All dimensions, bounded Lipschitz real functions, with derivatives where stated, time steps, numbers of samples.", "why_tests_cant": "Tests compare the methods with each other at one step, with loose tolerances; none knows the exact kernel or varies the step.", "anchors": ["VolterraBasis/fkernel.f90:34-46", "VolterraBasis/fkernel.f90:65-77", "VolterraBasis/fkernel.f90:108-130", "VolterraBasis/fkernel.f90:132-154", "VolterraBasis/fkernel.f90:211-265", "VolterraBasis/gle_estimation.py:290-348"]}
{"id": "C80", "title": "Integrals of the kernel", "statement": "The Markovian friction is, component by component, the integral of the kernel over its times, exactly so for kernels quadratic in time on any increasing times (cubic on an odd number of equally spaced ones); the fit of the running integral by a + b/t returns a and b when that is its form. The result names its type like the other fits, and the Laplace transform of an estimated kernel can be computed.", "quantifier": "All increasing times, numbers of samples (odd and even), dimensions, polynomials; all arguments of the Laplace transform.", "why_tests_cant": "No test calls any of these functions.", "anchors": ["VolterraBasis/fit_memory.py:15-40", "VolterraBasis/models.py:348-363", "VolterraBasis/gle_estimation.py:345"]}
{"id": "C81", "title": "Errors of the correlations", "statement": "The kernel depends stably on the correlations: perturbing them by at most epsilon moves the kernel by at most a constant times epsilon, the constant depending on the size of the correlations and the total time but not on the time step or the number of samples.", "quantifier": "All correlations for which the inversion runs, all perturbations of the force correlation, of the basis correlation at time zero and of its derivative, all time steps, numbers of samples and dimensions.", "why_tests_cant": "The tests invert one set of correlations; none compares two, and the amplification is a bound over all perturbations.", "anchors": ["VolterraBasis/fkernel.f90:108-130", "VolterraBasis/fkernel.f90:211-262", "VolterraBasis/gle_estimation.py:290-371"]}
{"id": "C82", "title": "Convergence of the evolution", "statement": "The correlations evolved by evolve_volterra converge to the solution of the integro-differential equation in continuous time: with rectangles or trapezoids, every sample is within a constant times the time step of the exact solution, the constant not depending on the step, on the number of samples or on the sampling of the kernel.", "quantifier": "All dimensions, all Lipschitz kernels of finite length, all forces, all solutions with a Lipschitz derivative, all small enough time steps, all numbers of samples within the total time; the kernel being exact, known within epsilon, or computed from correlations by the inversions of the second kind.", "why_tests_cant": "Tests run one step on one kernel; an error bound uniform in the step quantifies over all of them and over a continuum of kernels.", "anchors": ["VolterraBasis/models.py:712-757", "VolterraBasis/fkernel.f90:395-454", "VolterraBasis/gle_estimation.py:290-371"]}
