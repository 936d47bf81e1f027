# VolterraBasis: formal model and proofs in Rocq (Coq 8.16.1)

## 1. What is being verified

`/repo` (HadrienNU/VolterraBasis) estimates generalised Langevin equations:
trajectories -> basis evaluation -> correlations -> inversion of a Volterra
integral equation (Fortran kernels) -> noise, time evolution, simulation, Prony
fits, free energies.  `properties.jsonl` lists what a user relies on (C01, C02, ...).
This document says for each of them what is modelled, how it is proved, and where
the code violates it.  `MANIFEST.json` gives the exact theorem names.

Build: in `rocq/`, `coq_makefile -f _CoqProject -o Makefile && make -j4`.

## 2. Trusted base

* Coq's kernel (8.16.1) and `coqchk`.
* The axioms listed by `Print Assumptions` for each theorem (section 8).  The
  linear-algebra half is written over an arbitrary `realFieldType` (or `rcfType`)
  of mathcomp and is closed under the global context.  The calculus half uses the
  reals of the Coq standard library and inherits the axioms of `Coq.Reals` and
  `Coq.Logic`.  No axiom is ours; there is no `Admitted`, no functor, no plugin.
* The reading of the source: the model is a transcription of `/repo`, function
  by function, every definition citing file and lines.  The code was not run.
* **Exact arithmetic instead of IEEE doubles.**  Every theorem about numbers is
  about the real-arithmetic semantics of the code.  Rounding, overflow and
  conditioning are not modelled.  Infinities and nan are modelled only where the
  code produces or tests them (`Mesh.v`, `Frames.v`, and `Err ZeroDivision` elsewhere).
* Library behaviour used by the code is modelled by its documented contract:
  LAPACK `DGETRF/DGETRI` = exact inverse or stop on a singular matrix; numpy
  indexing, slicing and broadcasting; `np.linalg.solve`, `lstsq`, `inv`; FFT = DFT;
  `svd`/`eig` = any output meeting the contract (quantified over); xarray `shift`,
  `dropna`, `dot`; joblib = every task is executed once, results returned in task
  order; `scipy.spatial.cKDTree.query` = any five nearest; skfem shape functions,
  `curve_fit`, random generators = arbitrary parameters.

## 3. Modelling conventions

* Failures are values: `res A := Ok a | Err e`.  Every Fortran array access is
  bounds-checked (`rd`, `wr`, `slice`): an out-of-bounds access is
  `Err OutOfBounds`, although the compiled routine would silently read memory.
* A Fortran array with a time axis is a `seq` of matrices (one per time, 0-based).
  `do` loops are monadic folds over `iota`.  Every model function is total;
  `while` loops take fuel and the theorems show which fuel is enough.
* `intent(out)` arrays start zero-filled (what f2py does); C05 treats the
  initial content as an arbitrary parameter.
* Python objects with state are records; a sequence of calls is a fold of a step
  function (`Workflow.v`), concurrent tasks are a transition relation (`Parallel.v`).
* Model files contain no proofs; specification files (`*Spec.v`, `Quadrature.v`,
  `Calculus.v`) state the mathematics with `\sum`, `is_derive`, ... and do not use
  the model's helpers; `Prop*.v` contain only the theorems, their
  `Print Assumptions`, and beside each theorem an `Example` of a non-trivial input
  meeting its hypotheses.
* A property that is false of the code is kept in `properties.jsonl` with its full
  statement.  It gets a theorem `..._refuted` (a concrete witness, or better: the
  exact set of inputs on which it fails) and theorems stating what is true.  If the
  true part is a weakening of the property its name ends in `_partial`.


## 4. Properties

One entry per property: model, method of proof, outcome.  "Partial" means that the property as stated
is false of the code: the theorems named `..._refuted` prove that, the others what is true instead.

### C01. Rectangular inversion solves the discretised Volterra equation

After compute_kernel(method='rectangular') the returned kernel K satisfies, for every i with i+1 < trunc_ind, dt*sum_{j=0..i} bkbk[(i+1-j)dt] K[j] = -bkdx[(i+1)dt], and it is the only sequence that does so on those indices. The call succeeds exactly when there are at least two correlation samples and dt*bkbk[dt] is invertible.

* Model: `FKernel.v`; spec `FKernelSpec.v`; proofs `FKernelProofs*.v`.
* Method: loop invariant of the forward substitution; uniqueness by strong induction on the lag.
* Outcome (proved): Exact success condition, equation at every lag, uniqueness.
* Theorems: `C01_rectangular_inversion_solves`, `C01_rectangular_inversion_unique`.

### C02. Trapezoidal inversion solves the discretised Volterra equation

The trapezoidal first-kind inversion started at K[0]=k0 returns, for every i>=1, the unique K with dt*(1/2 bkbk[i]K[0] + sum_{0<j<i} bkbk[i-j]K[j] + 1/2 bkbk[0]K[i]) = -bkdx[i]; it succeeds exactly when dt/2*bkbk[0] is invertible.

* Model: `FKernel.v`; spec `FKernelSpec.v`; proofs `FKernelProofs*.v`.
* Method: loop invariant of the forward substitution; uniqueness by strong induction on the lag.
* Outcome (proved): Iff characterisation gives success condition, equation and uniqueness.
* Theorems: `C02_trapezoidal_inversion_solves`.

### C03. Second-kind inversion solves the discretised second-kind equation

compute_kernel(method='second_kind_rect') returns the unique K with K[0]=k0 and bkbk[0]K[i] = dt*sum_{j<i} dotbkbk[i-j]K[j] + dotbkdx[i] for i>=1; 'second_kind_trapz' the unique K with bkbk[0]K[i] = dt*(1/2 dotbkbk[i]K[0]+sum_{0<j<i} dotbkbk[i-j]K[j]+1/2 dotbkbk[0]K[i]) + dotbkdx[i].

* Model: `FKernel.v`; spec `FKernelSpec.v`; proofs `FKernelProofs*.v`.
* Method: loop invariant of the forward substitution; uniqueness by strong induction on the lag.
* Outcome (proved): Both second-kind routines, iff characterisation.
* Theorems: `C03_second_kind_rect_solves`, `C03_second_kind_trapz_solves`.

### C04. Midpoint inversion solves the midpoint-rule Volterra equation

The kernel returned by compute_kernel(method='midpoint'), whose sample j is labelled time 2*j*dt, satisfies the midpoint rule with step 2dt: 2dt*sum_{j<=i} bkbk[(2(i-j)+1)dt] K[j] = -bkdx[(2i+1)dt], i.e. every correlation factor is taken at the odd lag t-s that belongs to its kernel sample.

* Model: `FKernel.v`; spec `FKernelSpec.v`.
* Method: invariant for the rule the code does solve; witness against the intended one.
* Outcome (partial): False of the code: correlations are read at even lags (refuted by witness). Partial theorems: the equation it does solve, and the full rule when B(2k)=B(2k+1).
* Theorems: `C04_midpoint_refuted`, `C04_midpoint_coded_partial`, `C04_midpoint_locally_constant_partial`.

### C05. Every kernel sample returned is determined by the data

For each method of compute_kernel, every sample of the returned kernel is computed from the correlations (none is an untouched buffer value), so changing what the output buffer held beforehand never changes the result.

* Model: `FKernel.v`, `_buf` variants with the initial buffer as parameter.
* Method: two runs on different buffers compared; witnesses.
* Outcome (partial): False for rectangular (last sample) and midpoint with an even number of samples (witnesses); proved for trapz, second-kind, rectangular prefix and odd midpoint.
* Theorems: `C05_rectangular_buffer_refuted`, `C05_midpoint_buffer_refuted`, `C05_trapz_buffer_independent`, `C05_second_rect_buffer_independent`, `C05_second_trapz_buffer_independent`, `C05_rectangular_prefix_partial`, `C05_midpoint_odd_partial`, `C05_rectangular_last_is_zero`.

### C06. Inversion is causal: a longer truncation never changes earlier kernel samples

If two runs see correlations that agree up to lag i then the kernels returned by the same inversion routine agree on every sample computed from lags <= i; in particular enlarging trunc only appends samples (up to the never-assigned tail of the rectangular and midpoint routines).

* Model: `FKernel.v`; `FKernelLaws*.v`.
* Method: consequences of existence and uniqueness of the discrete solution.
* Outcome (proved): All five routines used by compute_kernel.
* Theorems: `C06_rectangular_causal`, `C06_midpoint_causal`, `C06_trapezoidal_causal`, `C06_second_rect_causal`, `C06_second_trapz_causal`.

### C07. The memory kernel depends on the span of the basis, not on the basis

Replacing the kernel basis E by P.E for any invertible P (so bkbk -> P bkbk P^T, bkdx -> P bkdx, and likewise for the dotted correlations) multiplies the kernel coefficients by the inverse transpose of P, so the memory force sum_k E_k(t-s)K_k(s) and the evaluated kernel are unchanged, for all inversion methods.

* Model: `FKernel.v`; `FKernelLaws*.v`.
* Method: consequences of existence and uniqueness of the discrete solution.
* Outcome (proved): Kernel coefficients, memory force and evaluated kernel.
* Theorems: `C07_rectangular_basis_change`, `C07_midpoint_basis_change`, `C07_trapezoidal_basis_change`, `C07_second_rect_basis_change`, `C07_second_trapz_basis_change`, `C07_memory_rect_invariant`, `C07_memory_trapz_invariant`, `C07_kernel_value_invariant`.

### C08. The inversion is linear in the force correlations

For fixed bkbk the kernel returned for a*bkdx1 + b*bkdx2 (and the same combination of k0) is the same combination of the kernels; in particular zero force correlation gives a zero kernel.

* Model: `FKernel.v`; `FKernelLaws*.v`.
* Method: consequences of existence and uniqueness of the discrete solution.
* Outcome (proved): All five routines.
* Theorems: `C08_rectangular_linear`, `C08_midpoint_linear`, `C08_trapezoidal_linear`, `C08_second_rect_linear`, `C08_second_trapz_linear`, `C08_zero_force_rectangular`, `C08_zero_force_trapezoidal`.

### C09. Kernel samples and time stamps always match

For every method and every trunc_ind >= 4, compute_kernel produces exactly as many kernel samples as time stamps (so building the labelled kernel never fails), and stamp i is i*dt for rectangular, trapezoidal and second-kind, 2*i*dt for midpoint and 6*i*dt for midpoint with Richardson; the shapes combined by the Richardson step always agree.

* Model: `Estimator.v` (compute_kernel, slices).
* Method: arithmetic of the slice lengths for every number of lags.
* Outcome (proved): Every method, N>=4; the only other outcome is a singular matrix. Bound 4 sharp for Richardson.
* Theorems: `C09_kernel_lengths`, `C09_richardson_short`.

### C10. Simpson inversion solves the Simpson-rule Volterra equation

The first-kind Simpson routine solves, at every lag i>=2, the composite Simpson rule (with one trapezoid on the first interval when i is odd), and the second-kind Simpson routine solves the corresponding second-kind equation.

* Model: `FKernel.v` (Simpson).
* Method: invariant; witness for the sign error.
* Outcome (partial): First kind proved (iff); second-kind Simpson refuted (wrong sign), proved when Bdot(0)=0.
* Theorems: `C10_simpson_inversion_solves`, `C10_simpson_second_kind_refuted`, `C10_simpson_second_kind_partial`.

### C11. check_volterra_inversion reports zero residual for a trapezoidal kernel

After compute_kernel(method='trapz'), check_volterra_inversion(return_diff=True) is zero at every lag n>=1 covered by the kernel.

* Model: `Estimator.v` (check_volterra_inversion).
* Method: closed form of the reported residual; witness.
* Outcome (partial): False: the kernel is smoothed after inversion (witness). Exact reported residual proved; zero proved for kernels affine in time.
* Theorems: `C11_check_inversion_refuted`, `C11_check_inversion_partial`, `C11_affine_partial`.

### C12. The inversion recovers the kernel that generated the data

If the force correlations are exactly the discretised convolution (rectangular, trapezoidal or second-kind rule) of bkbk with some kernel K*, then the corresponding compute_kernel routine returns K* (given k0=K*[0] where one is needed) on every sample it computes.

* Model: `FKernel.v`; `FKernelLaws*.v`.
* Method: consequences of existence and uniqueness of the discrete solution.
* Outcome (proved): Four routines.
* Theorems: `C12_rectangular_recovers`, `C12_trapezoidal_recovers`, `C12_second_rect_recovers`, `C12_second_trapz_recovers`.

### C13. Rectangular memory force is the rectangle-rule convolution

For a model whose method is rectangular, the memory term returned by compute_noise is 0 at the first time and -dt*sum_{j=0..min(i,L)} E(i-j) K(j) at every later time i, where L+1 is the number of kernel samples used.

* Model: `FKernel.v` (memory routines); `MemoryProofs.v`.
* Method: loop invariants against `\sum`; witness.
* Outcome (proved): proved as stated.
* Theorems: `C13_memory_rect`.

### C14. Trapezoidal memory force is the trapezoid-rule convolution truncated at the kernel length

For a trapezoidal model the memory term at every time i>=1 is minus the composite trapezoid rule of E(i-s)K(s) over s in [0, min(i,L)*dt] (half weight on both ends), also once the trajectory is longer than the kernel.

* Model: `FKernel.v` (memory routines); `MemoryProofs.v`.
* Method: loop invariants against `\sum`; witness.
* Outcome (partial): False once the trajectory is longer than the kernel (last weight 3/2 instead of 1/2): witness; exact value proved for every i.
* Theorems: `C14_memory_trapz_refuted`, `C14_memory_trapz_partial`.

### C15. compute_noise splits the observable exactly into force, memory and noise

For every trajectory and window [start_point,end_point), the arrays returned by compute_noise satisfy observable = noise + force + memory at every time, where force is, component by component, the fitted mean force (what force_eval returns) and memory starts from zero at the window start; kernels from midpoint methods are rejected.

* Model: `Estimator.v` (compute_noise).
* Method: algebra per sample; witness.
* Outcome (partial): False from two components on: the force is summed over components (witness). Exact split proved for every window; the full property proved for one component; midpoint methods rejected.
* Theorems: `C15_noise_refuted`, `C15_noise_partial`, `C15_one_component_partial`, `C15_midpoint_rejected`, `C15_times`.

### C16. Noise correlations average over all window starts

For a trapezoidal model compute_corrs_w_noise at lag n equals the mean over every start time t of left_op(t) times the noise compute_noise(start_point=t) would report n steps later (trapezoid convolution restarted at t); for rectangular models the same with the rectangle rule.

* Model: `FKernel.v` (corrs), `Estimator.v` (compute_corrs_w_noise), `MemorySpec.v`; `NoiseCorr.v`.
* Method: invariant over the shrinking window; restarted windows compared term by term; witness.
* Outcome (partial): Values and times of compute_corrs_w_noise proved for every method. Agreement with compute_noise restarted at every start: proved for trapezoidal methods and one component; false for rectangular methods (compute_noise adds the term dt E_t K_n): witness and exact difference.
* Theorems: `C16_corrs_trapz`, `C16_corrs_rect`, `C16_model_trapz`, `C16_model_rect`, `C16_trapz_restart_partial`, `C16_rect_restart_partial`, `C16_rect_restart_refuted`.

### C17. evolve_volterra advances the discretised linear GLE

For each step i>=1 the result of evolve_volterra satisfies (G(i)-G(i-1))/dt = G(i-1).F - M(i), where M(i) is the trapezoid ('trapz') or rectangle ('rect') rule for the convolution of G(i-s) with the kernel over the full memory window of min(i, L) steps.

* Model: `FKernel.v` (solve_ide); `EvolveProofs.v`.
* Method: loop invariant, uniqueness, bounds; witnesses.
* Outcome (partial): False: far end of the window dropped (witnesses); the exact equation satisfied is proved with uniqueness.
* Theorems: `C17_model_trapz_partial`, `C17_model_rect_partial`, `C17_evolve_trapz_refuted`, `C17_evolve_rect_refuted`, `C17_evolve_trapz_partial`, `C17_evolve_rect_partial`.

### C18. Stabilised evolution stays in bounds and on the simplex

evolve_volterra(method='trapz_stab') reads only elements of its arrays, and after every step all entries are nonnegative and sum to one (when some entry was positive before normalising).

* Model: `FKernel.v` (solve_ide); `EvolveProofs.v`.
* Method: loop invariant, uniqueness, bounds; witnesses.
* Outcome (partial): In-bounds part false for every kernel with two samples; simplex part proved.
* Theorems: `C18_stab_reads_out_of_bounds_refuted`, `C18_stab_simplex`, `C18_stab_succeeds_only`.

### C19. flux_from_volterra returns the memory term of the evolution equation

For the solution G of the discretised evolution, flux_from_volterra at step n returns the memory convolution at time n: minus the quadrature of G(n-j)K(j).

* Model: `Flux.v`.
* Method: closed form; witnesses.
* Outcome (partial): False (shifted one step, last term missing): witnesses; exact value proved.
* Theorems: `C19_flux_trapz_refuted`, `C19_flux_rect_refuted`, `C19_flux_rect_partial`, `C19_flux_trapz_partial`, `C19_flux_simpson_out_of_bounds`.

### C20. The mean force is the least-squares projection

compute_mean_force returns coefficients such that the residual observable - force is orthogonal (pooled time average over all trajectories) to every force basis function, and no other coefficients give a smaller pooled squared residual; if the observable is exactly a combination of the basis functions those coefficients are returned.

* Model: `Estimator.v`; spec `EstimatorSpec.v`.
* Method: bilinear algebra, normal equations, sums over concatenation.
* Outcome (proved): Orthogonality, optimality, uniqueness, recovery, exact success condition.
* Theorems: `C20_mean_force_least_squares`, `C20_mean_force_recovers`, `C20_mean_force_success`.

### C21. Averages over several trajectories are pooled averages

Gram matrices, basis means, squared velocities and force projections computed from a list of trajectories equal the average over all samples of all trajectories taken together, so they do not depend on how the samples are cut into trajectories nor on the order of the trajectories.

* Model: `Estimator.v`; spec `EstimatorSpec.v`.
* Method: bilinear algebra, normal equations, sums over concatenation.
* Outcome (proved): proved as stated.
* Theorems: `C21_pooled_products`, `C21_pooled_mean`, `C21_cut_and_order`, `C21_degenerate_fails`, `C21_gram_kernel`, `C21_gram_kernel_empty`.

### C22. Parallel evaluation gives the serial result

With n_jobs>1 every averaged quantity equals the n_jobs=1 result, whatever order the worker tasks are executed and completed in.

* Model: `Parallel.v` (joblib pool as a transition system).
* Method: invariant over every execution.
* Outcome (proved): joblib pool as a state machine; every reachable terminal state, no deadlock, bounded length.
* Theorems: `C22_parallel_is_serial`, `C22_no_deadlock`, `C22_bounded`, `C22_workers`.

### C23. Force correlation vanishes at lag zero when the kernel basis is part of the force basis

For the overdamped, position-only and with-friction models, after compute_mean_force the correlation bkdx computed by compute_corrs is zero at lag zero for every basis function and component.

* Model: `CorrsLoop.v`, `Model.v`.
* Method: normal equations at lag zero.
* Outcome (proved): All routines (FFT/direct, vectorised or not), with or without projection.
* Theorems: `C23_pooled_correlations`, `C23_lag_zero`, `C23_overdamped`, `C23_position_only`, `C23_with_friction`, `C23_after_projection`.

### C24. FFT and direct correlations are the same function

For any two real series of equal length, the FFT based estimator returns at every lag below the truncation exactly the direct estimate (1/(T-n)) sum_t a(t) b(t+n); the zero padding prevents any wrap-around.

* Model: `Correlation.v`; spec `CorrelationSpec.v`.
* Method: discrete Fourier transform over any primitive root of unity in `R[i]`.
* Outcome (proved): Over every real closed field and every primitive root of unity; trunc=0 is the only truncation where the two differ (direct raises).
* Theorems: `C24_fft_1D`, `C24_fft_1D_auto`, `C24_direct_1D`, `C24_fft_ND`, `C24_direct_ND`, `C24_direct_trunc_zero`.

### C25. Single-argument correlation_fft and correlation_direct agree

Calling correlation_fft(a) and correlation_direct(a) with one multi-component array returns the same array of cross-correlations <a_i(t) a_j(t+n)>.

* Model: `Correlation.v`; spec `CorrelationSpec.v`.
* Method: discrete Fourier transform over any primitive root of unity in `R[i]`.
* Outcome (partial): False for two components: direct broadcasts the autocorrelations, FFT returns the transposed matrix (witnesses). Exact value of each proved, agreement proved for one component.
* Theorems: `C25_single_argument_refuted`, `C25_single_argument_transposed_refuted`, `C25_fft_single_partial`, `C25_direct_single_partial`, `C25_one_component_partial`.

### C26. Estimation steps out of order fail cleanly and never leave a half result

In any sequence of calls on an estimator, compute_corrs fails with the documented exception unless a mean force is set, compute_kernel fails with the documented exception unless correlations exist, noise evaluation fails unless a force (and kernel) exist, and a failing call changes nothing.

* Model: `Workflow.v` (estimator as a state machine).
* Method: invariants over all sequences of calls; witnesses.
* Outcome (partial): Documented exceptions proved in every sequence of calls; false for compute_kernel (AttributeError) and for "a failing call changes nothing" (the method is stored before the failure): witnesses. What a failing call preserves is proved.
* Theorems: `C26_out_of_order_partial`, `C26_failure_frame_partial`, `C26_wrong_exception_refuted`, `C26_failing_call_refuted`.

### C27. The stored kernel always belongs to the stored force and correlations

After any sequence of successful calls, if the model has a kernel then that kernel was computed from correlations of the residual of the force coefficients currently stored in the model.

* Model: `Workflow.v` (estimator as a state machine).
* Method: invariants over all sequences of calls; witnesses.
* Outcome (partial): False when the force is recomputed after the kernel (witness); proved when no call changes the force between the correlations and the end.
* Theorems: `C27_fresh_partial`, `C27_stale_refuted`.

### C28. The truncation index never exceeds a trajectory

trunc_ind computed from trunc is at most the number of samples of every trajectory, so all correlations have the same length trunc_ind and can be averaged.

* Model: `Estimator.v` (compute_trunc_ind).
* Method: monotone counting; witness.
* Outcome (partial): False when trajectories have different time origins (witness); proved for trajectories on a common grid.
* Theorems: `C28_trunc_ind_refuted`, `C28_trunc_ind_partial`, `C28_trunc_ind_total`.

### C29. Merged data description equals the description of the pooled data

describe_data over several trajectories reports the number of observations, minimum, maximum, mean and variance of all samples pooled, independent of the order of trajectories.

* Model: `Describe.v`.
* Method: induction over the list of trajectories; witness.
* Outcome (partial): Count, minimum, maximum and mean of the pooled samples, in any order of the trajectories, proved; false for the variance, which stays that of the first trajectory (witness).
* Theorems: `C29_pooled_partial`, `C29_order_partial`, `C29_single_partial`, `C29_variance_refuted`.

### C30. Range projection removes exactly the null directions

When the basis is rank deficient and rank projection is on, the projected correlation matrix at lag zero is invertible, nothing is lost (the lag-zero matrix is recovered from its projection), and a basis of rank zero is rejected.

* Model: `RangeProj.v`.
* Method: spectral decomposition given by contract; rank argument.
* Outcome (partial): Projection, default tolerance, correlations and rejection proved; false when the numerical rank is zero (witness).
* Theorems: `C30_projection_partial`, `C30_default_tolerance`, `C30_correlations_partial`, `C30_rejected_partial`, `C30_rank_zero_refuted`.

### C31. Saving and loading a model preserves its behaviour

load_model(basis, save_model(m)) behaves as m: same force, kernel, noise decomposition, free energy.

* Model: `Workflow.v` (estimator as a state machine).
* Method: invariants over all sequences of calls; witnesses.
* Outcome (partial): False: method, effective mass, inverse mass and kernel Gram matrix are not restored (witnesses). Force, kernel, range projection, Gram matrix of the force, and the noise of rectangular methods proved preserved; exact list of restored fields in C31_fields_partial.
* Theorems: `C31_unfitted_basis_refuted`, `C31_fields_partial`, `C31_restored_partial`, `C31_pmf_partial`, `C31_noise_refuted`, `C31_pmf_refuted`.

### C32. Kernel basis and its derivative are time derivatives along the trajectory

For the underdamped model, along any twice differentiable trajectory x(t) with velocity v and acceleration a the kernel basis E is the time derivative of the basis functions b(x(t)) and dE is the time derivative of E; in the position-only models dE is the time derivative of E=b(x(t)).

* Model: `BasisVector.v`; `Model.v` with spec `Smooth.v`.
* Method: chain rule (Coquelicot `is_derive`) along any trajectory; for the estimator's model, sum, product and chain rules proved over any ordered field.
* Outcome (proved): Every class, twice differentiable basis, dimension and trajectory; the linear, polynomial and Fourier bases meet the hypotheses.
* Theorems: `C32_underdamped`, `C32_others`, `C32_position_only`, `C32_model_position_velocity`, `C32_model_const_kernel`, `C32_model_position_only`, `C32_model_hybrid`.

### C33. deriv, hessian and antiderivative of the global bases are what they say

For the linear, polynomial and Fourier bases, deriv is the gradient of basis, hessian the gradient of deriv, and the derivative of antiderivative is basis, column by column (with the constant columns dropped when the constant is removed), at every point.

* Model: `Basis.v`.
* Method: `is_derive` of every column; witnesses.
* Outcome (partial): Values, gradients and Hessians proved for every degree, order, dimension and point; antiderivatives proved for the uncentred linear, the polynomial and the Fourier basis of non-zero frequency; false for the centred linear basis and for a zero frequency (witnesses).
* Theorems: `C33_linear`, `C33_linear_antiderivative_partial`, `C33_centered_refuted`, `C33_polynomial_values`, `C33_monomials`, `C33_polynomial`, `C33_polynomial_constant`, `C33_polynomial_antiderivative`, `C33_fourier_values`, `C33_fourier`, `C33_fourier_constant`, `C33_fourier_antiderivative_partial`, `C33_zero_frequency_refuted`, `C33_gradient_unique`.

### C34. Smooth indicators form a partition of unity

For ordered non-overlapping state boundaries the smooth indicator features are between 0 and 1 and sum to 1 at every point, for every number of states, each boundary type, periodic or not.

* Model: `Indicator.v`.
* Method: case analysis on the regions, derivatives at the joints by squeezing; witness.
* Outcome (partial): Range and sum proved for every ordered list of boundaries except the periodic case with one state, which is false (witness).
* Theorems: `C34_unity_partial`, `C34_named`, `C34_states_partial`, `C34_one_periodic_refuted`.

### C35. Smooth indicator derivatives are the derivatives

deriv of the smooth indicator features is the derivative of basis at every point including the boundaries of the transition regions, the derivatives sum to zero, and hessian is the derivative of deriv away from region boundaries.

* Model: `Indicator.v`.
* Method: case analysis on the regions, derivatives at the joints by squeezing; witness.
* Outcome (partial): Derivatives proved at every point, Hessians away from region boundaries; false for one periodic state (witness).
* Theorems: `C35_derivative_partial`, `C35_named`, `C35_hessian`, `C35_hessian_tricube`, `C35_one_periodic_refuted`.

### C36. Tensor basis indexing and derivatives

For the 2D tensor basis column comb_indices(i,j) of basis is b1_i(x)*b2_j(y), comb_indices and split_index are inverse bijections, deriv is its gradient, hessian its symmetric Hessian, and each factor is fitted on its own coordinate.

* Model: `Basis.v`, `BasisVector.v` (tensor).
* Method: index arithmetic, product rule.
* Outcome (partial): Indices, columns, gradient and symmetric Hessian proved for every pair of bases; own-coordinate fit proved for two distinct factors, false when the second is left out (witness).
* Theorems: `C36_indices`, `C36_indices_total`, `C36_columns`, `C36_gradient`, `C36_hessian`, `C36_fit_partial`, `C36_fit_refuted`.

### C37. Combined bases concatenate values and derivatives consistently

For a combination of any number of bases, deriv has one column for the derivative of every non-constant column of basis, in the same order.

* Model: `BasisVector.v` (combiner).
* Method: list induction; witnesses.
* Outcome (partial): Values proved for any number of bases, derivatives for two; false for one (exception) and for three or more, where only the first and last are differentiated (witnesses).
* Theorems: `C37_values`, `C37_two_partial`, `C37_ends`, `C37_three_refuted`, `C37_one_refuted`.

### C38. Declared basis sizes match the arrays actually produced

For every model class and basis, N_basis_elt_force and N_basis_elt_kernel equal the widths of the force and kernel basis arrays produced by basis_vector.

* Model: `Sizes.v`.
* Method: widths of the produced arrays against declared attributes.
* Outcome (partial): Force widths proved for every class, kernel widths for all but two, for every basis family; false for the hybrid class in two dimensions, the constant kernel with an observable of another dimension, and combinations of bases without constant (witnesses).
* Theorems: `C38_force`, `C38_kernel_partial`, `C38_const_kernel`, `C38_hybrid`, `C38_bases`, `C38_tensor`, `C38_indicator`, `C38_combiner_partial`, `C38_combiner_obj`, `C38_hybrid_refuted`, `C38_const_kernel_refuted`, `C38_combiner_refuted`, `C38_no_vel_refuted`.

### C39. Free energy has zero minimum and minus the force as gradient

pmf_eval(set_zero=True) is nonnegative with minimum exactly zero over the evaluation points, its differences do not depend on set_zero, and its derivative with respect to position is -force*mass/kT at every point.

* Model: `Pmf.v`.
* Method: minimum over entries; gradient of the antiderivative; witnesses.
* Outcome (partial): Zero minimum and differences proved for every input; derivative proved in one dimension and for separable forces with diagonal mass in any; false for coupled forces in two dimensions and for the centred linear basis (witnesses).
* Theorems: `C39_zero`, `C39_zero_overdamped`, `C39_differences`, `C39_pointwise`, `C39_overdamped`, `C39_derivative_partial`, `C39_separable_partial`, `C39_2d_refuted`, `C39_centered_refuted`.

### C40. Finite differences are exact on parabolas and keep interior samples

compute_va keeps exactly the samples whose two neighbours exist and are valid, leaves x and time unchanged there, and returns velocity and acceleration exactly equal to the derivatives when x is a quadratic polynomial of time (default weights).

* Model: `Frames.v`.
* Method: missing values as `None`; polynomial identities; counting.
* Outcome (proved): Kept samples for every pattern of missing values; exact on quadratics for compute_va, compute_a, compute_a_from_vel; the gjf variant is exact half a step earlier.
* Theorems: `C40_kept_samples`, `C40_exact_va`, `C40_exact_a`, `C40_exact_a_from_vel`, `C40_gjf_half_step`.

### C41. Jump correction recovers the unwrapped trajectory

If the data are a periodic wrapping of a trajectory whose steps are small compared with the threshold, compute_va(correct_jumps=True) returns exactly the velocity and acceleration of the unwrapped trajectory.

* Model: `Frames.v`.
* Method: missing values as `None`; polynomial identities; counting.
* Outcome (proved): compute_va and compute_va_gjf; steps below the threshold and below period minus threshold.
* Theorems: `C41_unwraps`, `C41_unwraps_gjf`.

### C42. xframe time axis

With fix_time the times are exactly i*dt with dt a multiple of round_time within half of round_time of the first step (or the given dt), otherwise times are unchanged and dt is the first step; passing a requires nothing else of the caller.

* Model: `Frames.v`.
* Method: missing values as `None`; polynomial identities; counting.
* Outcome (partial): Times proved for every successful call and success characterised; false that an acceleration may come without a velocity (witness).
* Theorems: `C42_fixed_partial`, `C42_plain_partial`, `C42_accepted_partial`, `C42_acceleration_alone_refuted`.

### C43. Integrator memory equals the truncated trapezoid and matches the noise extraction

The memory used by the integrator at step m is the trapezoid rule of E(m-s)K(s) over the last min(m,L) steps, and equals minus the memory reported by compute_noise for a trapezoidal model.

* Model: `Integrator.v`.
* Method: loop invariants; closed form of the ballistic run; witnesses.
* Outcome (partial): The running memory integral and every step of a run proved to be the truncated trapezoid rule; false at the first step of a run with one initial sample, and false that the noise extraction uses the same memory once the trajectory is longer than the kernel (witnesses).
* Theorems: `C43_memory_partial`, `C43_run_partial`, `C43_noise_partial`, `C43_noise_refuted`, `C43_first_step_refuted`.

### C44. Integrator reproduces ballistic motion exactly and respects initial data

run keeps the given initial samples, returns n_steps samples, is deterministic without noise, and with a constant force, no memory and no noise reproduces x0+v0 t+F t^2/2 exactly at every step.

* Model: `Integrator.v`.
* Method: loop invariants; closed form of the ballistic run; witnesses.
* Outcome (partial): Length, initial samples, determinism without noise and ballistic motion proved; false for one-lag kernels, which are rejected (always).
* Theorems: `C44_run_partial`, `C44_deterministic`, `C44_ballistic`, `C44_one_lag_kernel_refuted`.

### C45. Generated noise has the prescribed covariance

The covariance matrix built from a stationary kernel is symmetric Toeplitz with entry kernel[|i-j|], and noise generated from it by the Karhunen-Loeve generator has covariance dt times that matrix; asking for more samples than available is refused.

* Model: `Noise.v`, `Colored.v`.
* Method: matrix algebra, DFT; expectation of a white noise as a linear form; witnesses.
* Outcome (partial): Toeplitz matrix, refusal of long requests and covariance dt*C proved for every orthonormal decomposition with nonnegative eigenvalues and every white noise; false for indefinite kernels (nan), for non-orthogonal unit eigenvectors, which np.linalg.eig allows, and for the coloured noise generator (witnesses). Exact covariance of the coloured noise proved.
* Theorems: `C45_colored_partial`, `C45_colored_refuted`, `C45_covariance_matrix`, `C45_backward`, `C45_noise_partial`, `C45_too_long`, `C45_indefinite`, `C45_nan_refuted`, `C45_eig_refuted`.

### C46. Fourier helpers are inverse and colored noise filter squares to the kernel

ift(ft(f)) = f for every sampled function, and the filter used by the colored noise generator convolved with itself gives back the symmetrised kernel.

* Model: `Noise.v`, `Colored.v`.
* Method: matrix algebra, DFT; expectation of a white noise as a linear form; witnesses.
* Outcome (partial): Inversion proved for three or more samples, false for two (sign flipped) and one (rejected). The filter squares to the kernel on the circle when the spectrum is nonnegative, in general to its positive part; false on the line, where the generator convolves (witness).
* Theorems: `C46_inverse_partial`, `C46_short_refuted`, `C46_filter_partial`, `C46_linear_refuted`.

### C47. Hankel round trip

Reconstructing a time series from its unfiltered Hankel matrix gives back the series, for every length.

* Model: `Prony.v`.
* Method: Hankel algebra, indefinite Gram-Schmidt invariant, three-term recurrence; witnesses.
* Outcome (partial): Proved for every odd length; false for every even length (the last sample is lost). The normalised, filtered series of prony_inspect_data is exact when the dropped singular values are zero.
* Theorems: `C47_round_trip_partial`, `C47_even_refuted`, `C47_inspect_partial`.

### C48. Prony orthogonalisation

The vectors returned by the Hankel factorisation are orthonormal up to sign for the (indefinite) Hankel form, their number is at most the number kept, and the routine fails exactly when none passes the threshold.

* Model: `Prony.v`.
* Method: Hankel algebra, indefinite Gram-Schmidt invariant, three-term recurrence; witnesses.
* Outcome (partial): Orthonormality, count and exact failure condition proved for every positive threshold; false when N_keep is the number of singular values (IndexError) or the rank (zero threshold, division by zero): witnesses.
* Theorems: `C48_factorisation_partial`, `C48_number`, `C48_index_refuted`, `C48_threshold_refuted`.

### C49. Prony reproduces the data it was given

When the Hankel matrix has rank N and the orthogonalisation is not degenerate, the [0,0] entry of the k-th power of the Jacobi matrix is data[k]/data[0] for every sample, so the fitted series passes through the data at the sample times.

* Model: `Prony.v`.
* Method: Hankel algebra, indefinite Gram-Schmidt invariant, three-term recurrence; witnesses.
* Outcome (partial): Powers of the Jacobi matrix proved equal to every sample of an odd-length series under the rank condition; false for the last sample of an even-length one (witness). The matrix logarithm and exponential giving the fitted series are not modelled.
* Theorems: `C49_powers_partial`, `C49_even_refuted`.

### C50. Fit and evaluation accept the same kernels

Every type name accepted by memory_fit is accepted by memory_fit_eval with the parameters produced, kernel-wide fits are evaluated component by component in the same place, and unknown names are rejected by both.

* Model: `FitMemory.v`.
* Method: case analysis on the names; witnesses.
* Outcome (partial): Same function, parameters and place proved; unknown names rejected by both; false for kernels with times given as a column, fitted but never evaluated.
* Theorems: `C50_unknown`, `C50_fit_total`, `C50_fit_then_eval`, `C50_kernel_partial`, `C50_column_refuted`.

### C51. Mesh helpers

get_intersect returns a point lying on both lines whenever they are not parallel, the graded line starts and ends at the given end points with constant ratio of consecutive elements, and hull simplification terminates removing one vertex per round.

* Model: `Mesh.v`.
* Method: algebra; measure = number of vertices; infinities modelled.
* Outcome (partial): Intersection, termination, one vertex per round, smallest edge and new vertex proved for all inputs; the graded line for every ratio whose power is not one, false for ratio one; false: finite vertices (thin rectangle), the closing edge is never considered, limits above one end in an error (witnesses).
* Theorems: `C51_intersect`, `C51_parallel`, `C51_graded_partial`, `C51_graded_refuted`, `C51_uniform`, `C51_round`, `C51_vertex`, `C51_stop`, `C51_terminates`, `C51_no_error`, `C51_hull`, `C51_rectangle_refuted`, `C51_closing_refuted`, `C51_error_refuted`.

### C52. Finite element derivative layout

The dense array returned by the finite element deriv has at [sample, dof, direction] the derivative of that dof's shape function in that direction.

* Model: `FemLayout.v`.
* Method: index arithmetic of ravel/tile/repeat, for every size.
* Outcome (partial): Basis array proved in every dimension; derivative array proved in one dimension and for one function at one sample, and proved wrong on every mesh in all other cases.
* Theorems: `C52_basis`, `C52_deriv_1d_partial`, `C52_deriv_single_partial`, `C52_deriv_refuted`.

### C53. Evaluating a basis does not modify the data

Calling basis() or deriv() of any basis leaves the trajectory array passed in unchanged.

* Model: `Finder.v`.
* Method: order and convex combinations; counting for the five candidates.
* Outcome (partial): The array is unchanged exactly when no sample is at the last mesh point; false otherwise (witness). The other bases are modelled as functions and have nothing to write to.
* Theorems: `C53_unchanged_partial`, `C53_changed`, `C53_twice`, `C53_refuted`.

### C54. Free-energy histogram accounts for every sample

compute_1d_fe(hist=True) returns probabilities that are nonnegative and sum to one and count every sample between the smallest and largest value.

* Model: `Frames.v`.
* Method: missing values as `None`; polynomial identities; counting.
* Outcome (partial): Probability vector, samples above the minimum counted once and success condition proved; false that every sample is counted (the minimum is not) and that non-empty data are accepted (witnesses). The free-energy branch (splines) is not modelled.
* Theorems: `C54_histogram_partial`, `C54_success_partial`, `C54_minimum_refuted`, `C54_resting_trajectory_refuted`.

### C55. A restarted run keeps the time axis of its history

The times returned by run for the given initial samples are the times those samples had, and consecutive samples are dt apart; initial_conditions returns n_mem+1 consecutive samples of the data with times 0, dt, ..., that run accepts.

* Model: `Integrator.v`.
* Method: loop invariants; closed form of the ballistic run; witnesses.
* Outcome (partial): False for two or more initial samples: the times are shifted by the length of the history (proved always); exact times and restart points proved.
* Theorems: `C55_times_partial`, `C55_restart_points`, `C55_times_refuted`.

### C56. BGLE integrator memory is the truncated trapezoid

The memory used by the one-dimensional BGLE integrator after m steps is the trapezoid rule of K(s)v(m-s) over the last min(m, L) steps.

* Model: `Integrator.v`.
* Method: loop invariants; closed form of the ballistic run; witnesses.
* Outcome (partial): False while the history is shorter than the kernel (full weight on the first velocity): witness; exact value proved for every history.
* Theorems: `C56_memory_partial`, `C56_memory_refuted`.

### C57. Spline bases: derivatives, antiderivatives and the dropped column

For the B-spline and single-spline bases, column n*dim+i of basis is spline n at coordinate i, deriv and hessian are its gradient and second derivatives, antiderivative integrates it, and when the constant is removed the column left out is a combination of those kept (the splines summing to one).

* Model: `LocalBasis.v`.
* Method: derivatives given for each spline, columns and widths.
* Outcome (partial): Proved for every family of splines given the derivatives of each; false for the Hessian of a single spline of degree one, which is refused.
* Theorems: `C57_values`, `C57_gradient`, `C57_hessian`, `C57_antiderivative`, `C57_dropped`, `C57_single`, `C57_single_hessian_partial`, `C57_linear_refuted`.

### C58. Numerically integrated free energy is exact on exponential densities

pmf_num_int_eval on a uniform grid, with an affine inverse mass and the mean force it implies for an exponential density, returns the free energy differences exactly in units of kT, at every temperature and for any number of grid points.

* Model: `Pmf.v` (pmf_num_int).
* Method: closed form of the cumulative trapezoid.
* Outcome (partial): Proved at kT = 1 or for a constant mass; false at another temperature and for one point (witnesses).
* Theorems: `C58_exact_partial`, `C58_temperature_refuted`, `C58_one_refuted`.

### C59. The element finder returns an element containing the point

For every point of the meshed domain the element index returned by ElementFinder.find is that of an element which contains the point, ends of the domain included.

* Model: `Finder.v`.
* Method: order and convex combinations; counting for the five candidates.
* Outcome (partial): One dimension proved for increasing meshes, false for reordered ones; two dimensions proved when an element around the point is among the five candidates, in particular on five elements; false on fewer than five and on a mesh with a long element (witnesses).
* Theorems: `C59_1d_partial`, `C59_outside`, `C59_unsorted_refuted`, `C59_2d_partial`, `C59_five_partial`, `C59_few_refuted`, `C59_long_refuted`.

### C60. The Fokker-Planck workflow conserves constant combinations of the basis

After to_gfpe, every combination of basis functions whose derivative is zero (their sum, for a partition of unity) annihilates the force coefficients and every kernel sample, whatever the correlation routine and the inversion method, and evolve_volterra with the rectangular or trapezoidal method keeps the corresponding combination of the coefficients equal to its initial value at every step.

* Model: Gfpe.v, Model.v, Estimator.v, CorrsLoop.v, FKernel.v.
* Method: The observable is annihilated sample by sample; pooled means, correlations and each inversion recursion are right-linear, so zero right-hand sides give zero (induction over steps); evolution by induction on the coded equation..
* Outcome (proved): Rectangular and trapezoidal evolution; the stabilised variant rescales and is not covered.
* Theorems: `C60_generator_conserves`, `C60_evolution_conserves`, `C60_kernel`.

### C61. The kernel returned by compute_kernel solves the equation of the chosen method

For every method, the samples returned by compute_kernel satisfy that method's discrete Volterra equation between the stored correlations: the basis correlations and the orthogonal-observable correlations for the first-kind methods, their derivative versions for the second-kind ones; the sample at time zero is the given k0 or the solution of <bk,bk>(0) K = <dot bk,dx>(0); the trapezoidal kernel is the 1/4, 1/2, 1/4 average of the solution; the Richardson combination cancels any error quadratic in the time step.

* Model: Estimator.v (compute_kernel), FKernel.v; spec KernelSpec.v.
* Method: Case analysis over the methods on top of the characterisations C01-C04; uniqueness of the coded midpoint solution for the Richardson claim..
* Outcome (proved): The midpoint equation is the coded one; that it differs from the midpoint rule is C04.
* Theorems: `C61_kernel_values`, `C61_richardson_exact`.

### C62. Evaluating the kernel gives the memory term back

At every point and kernel time, the array of kernel_eval contracted with the velocity (position-velocity, friction and constant kernel classes), or as it stands (overdamped), equals the kernel basis E times the stored kernel coefficients, with or without range projection; for the hybrid class the constant part times the velocity plus the position dependent part does.

* Model: `Evaluate.v`; `EvaluateProofs.v`.
* Method: block matrix algebra; witness.
* Outcome (partial): Proved for all classes but the hybrid one, which is right in dimension one and raises ValueError in every other dimension (witness).
* Theorems: `C62_position_velocity_partial`, `C62_position_only_partial`, `C62_const_kernel_partial`, `C62_hybrid_partial`, `C62_hybrid_dimension_partial`, `C62_hybrid_refuted`, `C62_wrong_rows`.

### C63. Force and friction evaluations add up to the fitted mean force

For the model with friction, at every sample the fitted mean force E c equals force_eval at the position plus friction_force_eval contracted with the velocity.

* Model: `Evaluate.v`; `EvaluateProofs.v`.
* Method: block matrix algebra.
* Outcome (proved): proved as stated.
* Theorems: `C63_friction_split`.

### C64. Force term of the flux decomposition

The first array returned by flux_from_volterra is, at every time, the force term of the evolution equation that evolve_volterra solves: the correlation matrix of that time multiplied by the force coefficients, C(t) F.

* Model: Flux.v, EvolveProofs.v, PropMemory.v.
* Method: the matrix product numpy performs over the last two axes is written entry by entry and compared with the product of the evolution equation.
* Outcome (partial): False: numpy computes C(t) F^T (C64_flux_force_refuted, finding F55). The value and length for all inputs, and the equality for symmetric coefficients, are proved in C64_flux_force_partial. Different lengths or mismatched shapes, which numpy refuses, are excluded by the types.
* Theorems: `C64_flux_force_partial`, `C64_flux_force_refuted`.

### C65. Position-dependent inverse mass

compute_pos_effective_mass followed by inv_mass_eval gives at every point a matrix indexed by two components: the least-squares projection of the products of velocities v_j v_k on the functions of the force basis; pmf_num_int_eval can use it.

* Model: PosMass.v, PosMassProofs.v, PropPosMass.v.
* Method: the fit is reduced to ordinary least squares over pairs (sample, component) and compared with the evaluated array.
* Outcome (partial): What the fitted coefficients minimise, and when they exist, is proved for every class and dimension; the full property only for position-only classes in one dimension. False from two dimensions on (one row per point), for Pos_gle (fitted on gradients, evaluated on values; ValueError or a singular matrix when the basis has a constant), and always for pmf_num_int_eval, which indexes a third axis: witnesses, finding F56. Pos_gle_with_friction is not modelled here (its evaluation needs a velocity column that is never supplied).
* Theorems: `C65_least_squares_partial`, `C65_success`, `C65_one_dimension_partial`, `C65_recovers_partial`, `C65_two_dimensions_refuted`, `C65_pos_gle_refuted`, `C65_pos_gle_constant_removed`, `C65_pos_gle_constant_kept`, `C65_pmf_num_int_refuted`.

### C66. Every estimated model can be saved, and loading leaves the saved data alone

save_model returns a Dataset holding every stored array for whatever model the estimator produced, and load_model does not modify the Dataset it is given.

* Model: ['SaveLoad', 'SaveLoadProofs', 'PropSaveLoad'].
* Method: Datasets as association lists with the xarray rule that arrays sharing an axis name must share its size; the result of save_model computed for every combination of present arrays..
* Outcome (partial): False (F57): saving raises ValueError exactly when the stored arrays have different basis widths (proved both ways, witnesses for the hybrid class and range projection); keyword arguments of load_model are written in the saved data.
* Theorems: `C66_save_condition`, `C66_unprojected_partial`, `C66_contents`, `C66_hybrid_refuted`, `C66_projected_refuted`, `C66_load_refuted`.

### C67. The estimator constructor accepts exactly usable data

Estimator_gle accepts a Dataset or a collection of Datasets iff every trajectory has a time dimension, a time step and the columns of the model class, all with the same time step and dimension; otherwise it raises its documented exception. The recorded weights, dimensions, time step and truncation index are those of the data.

* Model: ['Construct', 'ConstructProofs', 'PropConstruct'].
* Method: Datasets as dimensions, attributes and column shapes; the constructor transcribed in the order of its reads; both directions proved for every list of trajectories..
* Outcome (partial): False (F58): witnesses for a missing observable (KeyError), iterators (TypeError), mixed time steps and mixed dimensions. Proved: what is accepted has all that the class needs and is described correctly; well-formed data are accepted; missing time, time step, or columns give the documented exception when the first trajectory has the observable.
* Theorems: `C67_accepted`, `C67_trunc`, `C67_accepts`, `C67_documented_time`, `C67_documented_column_partial`, `C67_observable_refuted`, `C67_iterator_refuted`, `C67_time_step_refuted`, `C67_dimension_refuted`.

### C68. Models sharing a basis object do not interfere

After any sequence of constructions, every model built has recorded sizes and rank projection flag that are those of the arrays its basis object produces.

* Model: ['Construct', 'ConstructProofs', 'PropConstruct'].
* Method: Basis objects in a store, models hold a location; invariant by induction over the sequence of constructions..
* Outcome (partial): False (F59): witness of a Pos_gle model broken by a later overdamped model on the same basis, and of a basis reused on data of another dimension. Proved: a new model is consistent, and stays so through any sequence of constructions by classes that leave the flag alone, on other objects, or on bases whose flag is cleared.
* Theorems: `C68_fresh`, `C68_step_partial`, `C68_build_partial`, `C68_shared_refuted`, `C68_refit_refuted`.

### C69. Runs of the BGLE integrator

BGLEIntegrator.integrate returns trajectories of n_steps samples starting at x0, v0, each sample obtained from the previous one by one Runge-Kutta step of dv/dt = force + noise - memory, the memory being interpolated between the start and the end of the step; times are multiples of dt, accelerations are velocity increments over dt; a run continued from its history is the uninterrupted run.

* Model: Bgle.v, BgleProofs.v, PropBgle.v.
* Method: induction over the steps with the invariant that the carried memory is the convolution with the past velocities.
* Outcome (partial): Lengths, times, initial data, the kept history, the Runge-Kutta step of every sample and the accelerations are proved. False: the memory at the start of the second step is the memory of the past (only lag zero is counted); a continued run equals the uninterrupted one; the default float position is accepted.
* Theorems: `C69_run_partial`, `C69_ballistic`, `C69_float_position`, `C69_restart_refuted`, `C69_restart_repeats`, `C69_memory_refuted`.

### C70. Building an integrator from a model

An integrator built from a model holds the force, the kernel and the time step of the model and one noise filter per component, whose circular square is the noise kernel (noise coefficients times kernel) when its spectrum is nowhere negative. It can be built from any fitted model with default coefficients, with a shorter kernel by trunc_kernel, or without a model from keyword arguments, and its noise has the time step of the integrator.

* Model: ['Build.v', 'BuildProofs.v', 'PropBuild.v'].
* Method: Arrays over the reals with shapes; the einsum with its repetition of extents of one; the filters are those of C46. Success by construction, necessity by inversion of every step..
* Outcome (partial): Proved: what a built integrator holds, and the shapes every built integrator needs. Refuted: trunc_kernel below the kernel length always fails; no model always fails; missing inverse mass coefficients fail; a kernel on every second time step is accepted with a noise of the wrong step.
* Theorems: `C70_build_partial`, `C70_needs`, `C70_truncation_refuted`, `C70_no_model_refuted`, `C70_default_coeffs_refuted`, `C70_midpoint_refuted`.

### C71. Estimator with projection on the range of the basis

With rank_projection set, in any sequence of estimator calls the kernel in store is that of the correlations of the present force projected on the stored range, the noise is that of the whole basis with the kernel lifted back, the Gram matrix of the kernel basis is projected, and a call that raises leaves no half-made result behind from which later calls continue.

* Model: ['Projected.v', 'ProjectedProofs.v', 'PropProjected.v'].
* Method: State machine whose stored arrays carry their width; the singular value decomposition is an argument of the call (eigh_spec for the witnesses). Invariant over quiet calls; lifting of the kernel through the memory loops..
* Outcome (partial): Proved: kernel and noise after correlations and a kernel with any kernel, Gram and noise calls (failing or not) in between and after. Refuted: compute_gram_kernel always fails; recomputed correlations leave a kernel of another width; a failing compute_corrs leaves unprojected correlations from which a kernel is computed.
* Theorems: `C71_fresh_partial`, `C71_gram_refuted`, `C71_width_refuted`, `C71_failing_refuted`.

### C72. Position-dependent coloured noise

PosColoredNoiseGenerator stores for every basis function and component the transform of the symmetrised kernel without loss; generate(E_noise, ind) returns, for values of the basis and any step of a run, the sample at that step of a noise whose kernel is the combination of the kernels with the values of the basis, and noises at different steps are correlated as the kernel says.

* Model: ['PosColored.v', 'PosColoredProofs.v', 'PropPosColored.v'].
* Method: Over the reals as C46, with the element type of the argument as a field; linearity of the cosine spectrum; covariance of linear forms in disjoint parts of the white noise..
* Outcome (partial): Proved: stored spectra; the value generated from complex-typed values of the basis. Refuted: real values always raise TypeError; steps from 2N-1 on always fail; noises of two calls are uncorrelated for every kernel.
* Theorems: `C72_spectra_partial`, `C72_real_refuted`, `C72_complex_partial`, `C72_past_end_refuted`, `C72_uncorrelated_refuted`.

### C73. Correlations with the noise over several trajectories

compute_projected_corrs(left_op) returns the times of the kernel and, at every lag, the average over all windows of all trajectories of left_op at the start of the window times the noise at that lag, for left_op absent, a function or variable of the trajectory, or an array.

* Model: ['ProjCorrs.v', 'ProjCorrsProofs.v', 'PropProjCorrs.v'].
* Method: Fold of the two components over the trajectories, per-trajectory correlation from C15/C16 (noise rules of MemorySpec)..
* Outcome (partial): Proved: times unchanged and the average of the window averages weighted by the number of samples; for trajectories of one length this is the average over all windows; an array serves only trajectories of its own length. Refuted: with different lengths it is not the average over all windows.
* Theorems: `C73_weighted_partial`, `C73_same_length_partial`, `C73_array_partial`, `C73_all_windows_refuted`.

### C74. Files written by estimators

With saveall every estimator writes the correlations and the kernel it computes under its own prefix; at any time the files of an estimator hold what the estimator holds, every computation that works without saveall works with it, and saving changes no result.

* Model: ['SavedFiles.v', 'SavedFilesProofs.v', 'PropSavedFiles.v'].
* Method: State machine of C26 with a disk, several estimators; invariant over runs by induction on the calls; concrete run for the prefix..
* Outcome (partial): Proved: results held by estimators do not depend on saveall, prefix or the disk; with one saving estimator the two files hold what it holds, as long as the second-order correlations are computed. Refuted: correlations without the second-order ones always fail to be saved, after being stored; the prefix is ignored, so two estimators overwrite each other's files.
* Theorems: `C74_memory_partial`, `C74_one_saver_partial`, `C74_first_order_refuted`, `C74_prefix_refuted`.

### C75. Prony series fitted and evaluated

A fitted Prony series evaluated at the sampling times gives back the fitted series; terms that diverge are removed and leave the other terms unchanged; the series can be evaluated at any times.

* Model: ['PronyEval.v', 'PronyEvalSpec.v', 'PronyEvalProofs.v', 'PronyEvalProofs2.v', 'PronyEvalProofs3.v', 'PronyEvalWitness.v', 'RealsMC.v', 'RealsExp.v', 'PropPronyEval.v'].
* Method: Complex matrices over a real closed field; the enlarged eigenvector matrix is inverted by blocks and the real part is shown to lose nothing by conjugation; contracts for exp/log met by Coq's reals made a mathcomp real closed field..
* Outcome (partial): Proved: evaluation gives the powers of the Jacobi matrix, hence the fitted series, when no eigenvalue is zero, none is removed, and a negative eigenvalue comes with one that is not real. Refuted: with real eigenvalues only, a negative one makes the fit fail (series 1 0 1 0 1); removing an eigenvalue changes the amplitude of the others, and removing all leaves a fit that cannot be evaluated; a single time is refused. eig, svd, expm and log are parameters with contracts, instantiated over the reals in the examples.
* Theorems: `C75_powers_partial`, `C75_fit_partial`, `C75_real_negative`, `C75_fit_refuted`, `C75_zero`, `C75_removal_refuted`, `C75_all_removed`, `C75_one_time_refuted`.

### C76. Prony series of a whole kernel

Fitting Prony series on every component of a kernel and evaluating them at the times of the kernel gives the kernel back, each component at its place; every kernel can be fitted, and every fitted kernel can be evaluated.

* Model: ['PronyKernel.v', 'PronyKernelProofs.v', 'PronyKernelProofs2.v', 'PropPronyKernel.v'].
* Method: Nested loops shown equal to nested maps; component results of C75..
* Outcome (partial): Proved: the fit and the evaluation act on each component separately, with the round trip on times starting at zero for components meeting the hypotheses of C75 (the last of an even number of samples is not used), and memory_fit_kernel with type prony is the same fit. Refuted: the first time is ignored, so a kernel starting later comes back shifted; a component starting at zero makes the whole fit fail; a growing component is fitted and cannot be evaluated.
* Theorems: `C76_components`, `C76_eval`, `C76_round_trip_partial`, `C76_shift`, `C76_zero_component`, `C76_fit_total_refuted`, `C76_memory_fit`, `C76_shift_refuted`, `C76_removed_refuted`.

### C77. Estimators sharing trajectories

What an estimator computes does not depend on other estimators built on the same trajectories. Switching to the Fokker-Planck observable changes only the named variable of the estimator's own trajectories, gives every trajectory the derivative of the basis on its own data, can be repeated without effect, and changes nothing when it fails.

* Model: ['SharedData.v', 'SharedDataProofs.v', 'PropSharedData.v'].
* Method: Induction over the calls with two heaps agreeing on the variables used; frame lemma for the loop..
* Outcome (partial): Proved: the frame, the exact condition of success, the written values, idempotence, what a failure keeps, and isolation for estimators with disjoint trajectories or names. Refuted: two estimators on one data set using the default name disturb each other; the name may be that of the velocities, which are lost; a failing call leaves the projection off and the first trajectories changed; a force computed before the switch stays.
* Theorems: `C77_frame`, `C77_success`, `C77_observable`, `C77_idempotent`, `C77_failure`, `C77_isolated_partial`, `C77_disjoint`, `C77_isolated_refuted`, `C77_data_refuted`, `C77_atomic_refuted`, `C77_force_refuted`.

### C78. B-splines built on knots

The B-spline basis has one function per knot; the functions sum to one everywhere, represent every polynomial up to their degree, lie between zero and one in the range of the knots, vanish away from their knot, and single out the end knots. Splines declared periodic take the same values at both ends of the period and sum to one.

* Model: ['BSpline.v', 'BSplineProofs.v', 'BSplineProofs2.v', 'PropBSpline.v'].
* Method: de Boor recursion in a module of polynomials gives Marsden's identity by induction on the degree..
* Outcome (partial): Proved for plain splines with the knot placement, interval search and recursion of FITPACK modelled; justifies the hypothesis of C57_dropped. The default knots are increasing for any non-degenerate range. Refuted for periodic splines: every unit coefficient vector is used alone, so no function is periodic (proved for all degrees and knots), and the last degree - 1 functions are missing, so the sum is below one at the right end; it is one left of the knot number n - degree - 1.
* Theorems: `C78_fit`, `C78_unity`, `C78_polynomials`, `C78_bounds`, `C78_local`, `C78_support`, `C78_ends`, `C78_default`, `C78_periodic_partial`, `C78_not_periodic`, `C78_periodic_sum`, `C78_periodic_refuted`, `C78_periodic_unity_refuted`, `C78_knots`.

### C79. Convergence of the inversion

On correlations that are samples of a Volterra equation in continuous time, the kernel computed converges to the kernel of that equation as the time step vanishes, with an error bounded by a constant times the time step (rectangles, first and second kind) or its square (trapezoids of the second kind), the constant being the same for every step, number of samples and position. Midpoints converge likewise.

* Model: ['Convergence.v', 'ConvergenceProofs.v', 'ConvergenceInt.v', 'ConvergenceMain.v', 'ConvergenceMain2.v', 'ConvergenceMain3.v', 'ConvergenceWit.v', 'PropConvergence.v'].
* Method: Riemann integrals (Coquelicot); panel estimates from the Lipschitz bounds give the residual of the exact kernel in the discrete equations; a discrete Gronwall inequality bounds the error. For the first kind the discrete equations are differenced first..
* Outcome (partial): Proved for the whole of compute_kernel with exact real numbers (no rounding, no statistical error of the correlations): first order for rectangles of both kinds, second order for trapezoids of the second kind, and the quadratures themselves. Refuted for midpoints: the first sample converges to half of the kernel at time zero, whatever the equation (C79_midpoint_half). Not covered: trapezoids and Simpson's rule of the first kind.
* Theorems: `C79_second_rect`, `C79_second_trapz`, `C79_first_rect`, `C79_midpoint_half`, `C79_rect_integral`, `C79_trapz_integral`, `C79_midpoint_refuted`.

### C80. Integrals of the kernel

The Markovian friction is, component by component, the integral of the kernel over its times, exactly so for kernels quadratic in time on any increasing times (cubic on an odd number of equally spaced ones); the fit of the running integral by a + b/t returns a and b when that is its form. The result names its type like the other fits, and the Laplace transform of an estimated kernel can be computed.

* Model: ['Friction.v', 'FrictionProofs.v', 'PropFriction.v'].
* Method: Each pair of intervals, and the correction of the last one, is an identity of rational functions; pairs telescope..
* Outcome (partial): Proved: quadrature, layout and asymptotic value (curve_fit: any least-squares solution). Refuted: markovian_friction returns the builtin type as its first value; the Laplace transform of a kernel stored by the estimator raises KeyError for every positive number of points, since it reads the coordinate time and the kernel has time_kernel.
* Theorems: `C80_simpson`, `C80_simpson_uniform`, `C80_friction`, `C80_friction_mismatch`, `C80_friction_label_refuted`, `C80_asymptotic`, `C80_laplace_fails`, `C80_laplace_refuted`.

### C81. Errors of the correlations

The kernel depends stably on the correlations: perturbing them by at most epsilon moves the kernel by at most a constant times epsilon, the constant depending on the size of the correlations and the total time but not on the time step or the number of samples.

* Model: ['StabilityProofs.v', 'PropStability.v', 'CorrNoiseProofs.v', 'PropCorrNoise.v'].
* Method: One kernel leaves a small residual in the equations of the other; a discrete Gronwall inequality propagates it..
* Outcome (partial): Proved for the two inversions of the second kind, with an explicit constant; combined with C79, samples known within epsilon give the kernel of the continuous equation within C (dt + epsilon), or C (dt^2 + epsilon) with trapezoids. For the first kind with rectangles the proved bound carries epsilon over the time step, and the uniform statement is refuted: one perturbed sample moves the kernel by epsilon over the time step.
* Theorems: `C81_noisy_rect`, `C81_noisy_trapz`, `C81_noisy_first`, `C81_second_rect`, `C81_second_trapz`, `C81_first_rect`, `C81_first_refuted`.

### C82. Convergence of the evolution

The correlations evolved by evolve_volterra converge to the solution of the integro-differential equation in continuous time: with rectangles or trapezoids, every sample is within a constant times the time step of the exact solution, the constant not depending on the step, on the number of samples or on the sampling of the kernel.

* Model: ['EvolveConv.v', 'PropEvolveConv.v', 'EvolveNoise.v', 'PropEvolveNoise.v', 'PropEvolvePipe.v'].
* Method: The exact solution leaves a residual of second order in each step; local errors accumulate through an inequality with one implicit term..
* Outcome (proved): Methods rect and trapz. A kernel known within epsilon gives errors of C (dt + epsilon) (C82_noisy_kernel), and the kernel computed by compute_kernel can be handed over as it is (C82_inverted_kernel), also when the correlations are themselves known within epsilon (C82_pipeline_rect, C82_pipeline_trapz). Second order is refuted for both, trapezoids included: the force is taken at the previous sample, and a nilpotent force gives an error of exactly half the step times the time (C82_second_order_refuted).
* Theorems: `C82_evolve_converges`, `C82_second_order_refuted`, `C82_noisy_kernel`, `C82_inverted_kernel`, `C82_pipeline_rect`, `C82_pipeline_trapz`.

## 5. Findings

Each is proved from the model (theorem of the property in brackets).

Volterra kernels, `fkernel.f90`
* F1 (132-154) the midpoint method reads correlations at even lags only where the rule needs odd ones [C04].
* F2 (108-130, 132-154) the rectangular routine never writes its last sample; the midpoint one never writes it for an even number of samples [C05].
* F3 (265-290) the second-kind Simpson routine has the wrong sign in front of the kernel term [C10].
* F4 (316-336) `memory_trapz` weights the far end of the window by 3/2 instead of 1/2 [C14].
* F5 (395-454) `solve_ide_rect`/`solve_ide_trapz` drop the far end of the memory window [C17].
* F6 (457-489) `solve_ide_trapz_stab` reads beyond its arrays for every kernel of two or more samples [C18].

Correlations and estimation
* F7 (`models.py` 335-345) the flux decomposition is shifted by one step and lacks its last term [C19].
* F8 (`correlation.py` 22-38, 57-73) with one argument of several components the direct method returns broadcast autocorrelations and the FFT method the transposed matrix [C25].
* F9 (`gle_estimation.py` 290-348) the kernel is smoothed after inversion, so the checked residual is not zero [C11].
* F10 (`models.py` 162) the force is summed over components in `compute_noise` [C15].  F53 (164, `fkernel.f90` 294-314 and 338-362) the rectangular memory of `compute_noise` keeps both ends of the window, that of `compute_corrs_w_noise` only one, so the two noises differ by dt E(t) K(n) [C16].
* F11 (`gle_estimation.py` 127-138) `trunc_ind` is wrong for trajectories with different time origins [C28].
* F12, F13 `compute_kernel` before the correlations raises AttributeError, not the documented exception, and stores the method before failing [C26].
* F14 recomputing the force leaves a stale kernel [C27].
* F15, F16 (`models.py` 365-402) the method and the effective mass are not restored by `load_model` [C31].
* F17 (`_data_describe.py` 30) the variance of merged descriptions is that of the first trajectory [C29].
* F18 (`models.py` 95-119) a kernel basis of numerical rank zero is accepted [C30].

Frames and simulation
* F19 (`__init__.py` 27-79) `xframe` with accelerations but no velocities raises KeyError [C42].
* F20 (`__init__.py`) the histogram of `compute_1d_fe` never counts the minimum [C54].
* F21 (`gle_integrate.py` 182-) a one-sample kernel cannot be integrated [C44].
* F22 the first step of a run from one sample uses dt/2 E0 K0 [C43].  F23 returned times are shifted by the history length [C55].  F24 (389-) BGLE memory puts full weight on the first velocity [C56].

Prony and fits
* F25, F27 `N_keep` = number of singular values raises IndexError; `N_keep` = rank divides by zero [C48].
* F26 the last sample of an even-length series is ignored [C47, C49].
* F28 times given as a column are accepted by the fit and refused by the evaluation [C50].

Noise
* F29, F30 Karhunen-Loeve noise: nan for indefinite kernels; `eig` instead of `eigh` can give the wrong covariance [C45].
* F31 `ift(ft(.))` flips the sign of two samples and raises IndexError for one [C46].
* F32 the coloured noise filter is a square root on the circle, but is convolved on the line [C45, C46].

Bases
* F33 one periodic smooth indicator state is not constant [C34, C35].
* F34 the antiderivative of centred linear features ignores the centring [C33, C39].  F35 a zero Fourier frequency divides by zero [C33].
* F36 the combiner's derivative keeps only the first and last basis; one basis raises UnboundLocalError [C37].
* F37 the tensor basis with the second factor left out fits both coordinates with one object [C36].
* F38 declared sizes disagree with the arrays (hybrid kernels, constant kernels, combinations without constant) [C38].
* F39 the free energy of a coupled two-dimensional force is not an antiderivative [C39].  F40 the Hessian of a single spline of degree one is refused [C57].  F41 `pmf_num_int` divides the mass gradient, but not the force, by kT; one point raises IndexError [C58].

Meshes and finite elements
* F42 (`_mesh_utils.py` 32) a graded line of ratio one divides by zero [C51].  F43 (85-106) parallel neighbours put a hull vertex at infinity.  F44 (94) the closing edge is never considered.  F45 limits above one end in ValueError.
* F46 (`_fem_features.py` 118-127) the layout of the derivative array is wrong in two or more dimensions [C52].
* F47 (43-44) `find_element_1D` writes into the caller's data [C53].  F48 (24-26) unsorted meshes give a wrong element; F49 points out of range get element 0; F50 (51) fewer than five elements raise IndexError; F51 a long element is missed by the five-nearest search; F52 (66) the three-dimensional test lacks `self` [C59].

Evaluation
* F54 (`models.py` 639-656) the hybrid class drops one row of the kernel whatever the dimension: from dimension two on `kernel_eval` raises ValueError and `get_const_kernel_part` returns one component's row only [C62].
* F55 (`models.py` 335) the force term of `flux_from_volterra` is `np.matmul(force_coeff, corrs_force)` with time as last axis: numpy multiplies, row by row, by the transposed coefficients, so the term is C(t) Fᵀ where the evolution equation has C(t) F. The caller in `examples/plot_gfpe.py` 57 also unpacks the pair (force term, memory term) as `time, flux` [C64].
* F56 (`gle_estimation.py` 417-425, `models.py` 248-270) the position-dependent inverse mass loses one axis: `xr.dot` also sums the component shared by the basis and the velocity. `inv_mass_eval` then returns one row per point, `pmf_num_int_eval` always raises IndexError on `[:, 0, 0]`, and `Pos_gle` evaluates with the values of the basis what was fitted with its gradients (ValueError when the constant is removed, singular matrix when it is kept) [C65].
* F57 (`models.py` 365-402) `save_model` stores the kernel, its Gram matrix, the inverse mass and the projection under the one axis name `dim_basis` (only the force is renamed). As soon as their widths differ — hybrid class with a Gram matrix, or range projection with a Gram matrix — `Dataset.update` raises ValueError and the model cannot be saved. `load_model` takes `coeffs.attrs` by reference, so its keyword arguments are written in the caller's Dataset [C66].
* F58 (`gle_estimation.py` 84-125) the constructor reads the observable of the first trajectory before checking that it is there (KeyError instead of the exception of `_do_check_obs`), consumes iterators in its first check (TypeError afterwards although an "iterable collection" is announced), and accepts trajectories with different time steps or different dimensions, using the first one's [C67].
* F59 (`models.py` 84-92, 554, 615, 671) models keep a reference to the caller's basis: the position-only and hybrid classes clear `const_removed` on it, so building one of them on the basis of an existing `Pos_gle` changes the arrays of that model without its recorded sizes; a basis already fitted is silently reused on data of another dimension [C68].
* F60 (gle_integrate.py:395-397, 416) the default initial position of `BGLEIntegrator.integrate` is the Python float 0.0, and `dU` calls `x.reshape`: a run of two samples or more fails with AttributeError unless a numpy value is passed [C69].
* F61 (gle_integrate.py:430-446) continuing a BGLE run: the assertion asks the initial data to be the sample before index `_n_0`, which is then written again at `_n_0`; every continued run has its last sample twice and differs from the uninterrupted run.  The given history arrays are modified in place [C69].
* F62 (gle_integrate.py:450-460) at the start of the second step (and of the first step of a continued run) the memory of the past is taken as zero apart from the term of lag zero, since `last_rmi` is the initial 0.0 [C69].
* F63 (fkernel/basis, models.py:383-402) a model loaded with an unfitted centred linear basis evaluates without the mean of the training data [C31].
* F64 (gle_integrate.py:226, 240) `trunc_kernel` cuts the kernel but not the kernel times given to the noise generator: any value below the kernel length raises ValueError [C70].
* F65 (gle_integrate.py:206-226) the documented use without a model reads `gle_model.kernel` of `None`: AttributeError always [C70].
* F66 (gle_integrate.py:203-205) with default noise coefficients a model without `inv_mass_coeff` (loaded, or effective mass not computed) fails inside einsum instead of with a message [C70].
* F67 (gle_integrate.py:226, 241) a kernel of a midpoint method (spacing 2 dt) is accepted; the filter then has spacing 2 dt and the integrator uses dt for memory and noise alike [C70].
* F68 (gle_estimation.py:213-214) with `rank_projection` set `compute_gram_kernel` reads `self.gram_kernel`, which no estimator has: AttributeError always, with the unprojected Gram matrix left stored in the model [C71].
* F69 (gle_estimation.py:254-288, models.py:156-157) computing the correlations again with another tolerance replaces the projection and keeps the kernel of the old one: `compute_noise` then fails for a mismatch of widths, although every call succeeded [C71].
* F70 (gle_estimation.py:271-277, models.py:110-111) when the rank is null `compute_corrs` raises its exception after storing the unprojected correlations; `compute_kernel` then succeeds on them and `compute_noise` fails with a TypeError on the missing projection [C71].
* F71 (gle_integrate.py:12-13, 174-176) `PosColoredNoiseGenerator.generate` takes the square root of a real array and `ift` multiplies it in place by complex numbers: numpy refuses, so every call with real values of the basis raises TypeError [C72].
* F72 (gle_integrate.py:173-179) the buffer of `PosColoredNoiseGenerator.generate` has 2N-1 samples: `ind` = 2N-1 raises IndexError, larger values ValueError, so a run longer than that is impossible (with complex values of the basis) [C72].
* F73 (gle_integrate.py:177) `PosColoredNoiseGenerator.generate` draws a new white noise at every call: values at two different times are uncorrelated whatever the kernel (with complex values of the basis); `prepare` has no effect on it [C72].
* F74 (gle_estimation.py:171-175 with models.py:171-207): `compute_projected_corrs` weights the window averages of the trajectories by their numbers of samples N, although at lag n the average is over N-n windows; with trajectories of different lengths the result is not the average over all windows, and the error grows with the lag [C73].
* F75 (gle_estimation.py:286-287, 491-494) with `saveall=True` (the default) `compute_corrs(second_order_method=False)` always raises ValueError: the fourth array is a bare numpy array without dimension names. The correlations are already stored by then, the file on disk is the previous one [C74].
* F76 (gle_estimation.py:44, 51, 56-58) the documented `prefix` is stored and never used: all estimators write `corrs.nc` and `kernel.nc`, and overwrite each other [C74].
* F77 (fit_prony.py:99-118) when all eigenvalues of the Jacobi matrix are real numpy returns real arrays: the logarithm of a negative eigenvalue is nan, `np.sign(np.imag(...))` is 0, the enlarged eigenvector matrix is singular and `np.linalg.inv` raises LinAlgError; the duplication written for negative eigenvalues works only next to a complex pair. Happens on the series 1, 0, 1, 0, 1 [C75].
* F78 (fit_prony.py:100-102) removing diverging terms truncates the eigenvector matrix to its first rows, which changes the amplitudes of the terms that are left: 2^k/2 + 2^-k/2 becomes 2^-k instead of 2^-k/2 [C75].
* F79 (fit_prony.py:100-102, 194-196) when all terms are removed the fit returns an empty matrix and the evaluation raises IndexError [C75].
* F80 (fit_prony.py:192-193) `times.squeeze()` makes a single time 0-dimensional and `times.shape[0]` raises IndexError [C75].
* F81 (fit_prony.py:107) a zero eigenvalue has logarithm -inf, and the product with `np.diag` turns it into nan [C75].
* F82 (fit_prony.py:220, 246-247; fit_memory.py:101) only the step of the times enters the fit: a kernel given at times c, c+dt, ... is fitted as if it started at 0, and evaluating the fit at the same times returns values shifted by c [C76].
* F83 (fit_prony.py:173) the data are divided by their first value: a component starting at zero (or identically zero) makes the fit of the whole kernel fail [C76].
* F84 (fit_prony.py:100-102, 247) memory_fit_kernel with type prony accepts a growing component, removes all its terms, and memory_kernel_eval raises IndexError [C76, see F79].
* F85 (gle_estimation.py:161) to_gfpe writes into the data sets of the caller: two estimators on the same trajectories both using the default name "dE" overwrite each other's observable, and the mean force of the first is silently that of the other basis [C77].
* F86 (gle_estimation.py:161) new_obs_name is not checked: with "v" or "x" the trajectory itself is overwritten [C77].
* F87 (gle_estimation.py:158-161) a failing to_gfpe (a model argument needing a missing variable) leaves rank_projection off and some trajectories changed [C77].
* F88 (gle_estimation.py:162) to_gfpe keeps a force computed for the former observable [C77].
* F89 (_local_features.py:20-22) with periodic=True the basis functions are not periodic: the coefficients of a periodic spline repeat after one period, but unit vectors are used; the first function is positive at the first knot and zero at the last one, for every degree and all knots [C78].
* F90 (_local_features.py:20) with periodic=True and degree k > 1 the last k - 1 splines are missing (the loop runs over the knots, not over the coefficients): the functions do not sum to one near the right end, so the column removed with remove_const is not a combination of the others [C78, C57].
* F91 (fkernel.f90:132-154, gle_estimation.py:290-348) the first sample of the midpoint method converges, as the time step vanishes, to half of the kernel at time zero: the first equation covers one step dt but is divided by 2 dt; its error does not vanish with the step [C79].
* F92 (models.py:362) laplace_transform_kernel reads the coordinate "time" (and its first column) of the kernel, which the estimator stores as the one-dimensional "time_kernel": every call with a positive number of points raises KeyError [C80].
* F93 (fit_memory.py:40) markovian_friction returns the builtin type in place of a type name [C80].
* F94 (fkernel.f90:108-130) the first-kind inversion divides an error of the force correlation by the time step: with one perturbed sample the kernel moves by the error over the step, so refining the step of noisy data makes it worse; the second-kind inversions do not [C81].
* F95 (fkernel.f90:395-454) the evolution of correlations is first order in the step whichever method is chosen: the force is taken at the previous sample, so trapezoids bring no gain in order; with a nilpotent force the error is exactly half the step times the time [C82].


## 6. Not modelled

* Floating point (section 2), plotting, logging, examples, documentation, packaging.
* `pos_gle_fem.py`, `gfpe_instance.py`: entirely commented out in the source.
* `fit_prony.py` 179-248: matrix logarithm and exponential of the fitted series; only the
  Jacobi matrix they are applied to is characterised (C49).
* `fit_memory.py`: the numerical least-squares search itself (a parameter).
* `gle_integrate.py` 121-180: position-dependent coloured noise.
* KMeans, convex hull and Delaunay triangulation (`_mesh_utils.py` 65, 121-131), cKDTree beyond its contract.
* Splines: values and derivatives of single scipy B-splines are parameters.
* The free-energy branch of `compute_1d_fe` (histogram modelled, spline not).

## 7. Theorems against wrong programs

`seeded/LOG.jsonl` has one line per seeded bug: the definition edited in a scratch copy, the edit,
the claim it breaks, the theorems that stopped being provable and the theorems tightened as a result.
A theorem counts as failed when its proof, or a lemma it depends on, no longer checks.


## 8. Axioms, theorem by theorem

Output of `Print Assumptions`, which stands after each group of theorems in the `Prop*.v` files.

Abbreviations: F = `FunctionalExtensionality.functional_extensionality_dep`, N = `ClassicalDedekindReals.sig_not_dec`,
D = `ClassicalDedekindReals.sig_forall_dec`, C = `Classical_Prop.classic`; all from the Coq standard library.

* **CClassicalEpsilon.constructive_indefinite_descriptionDEpsilon.epsilon_statementFN**: `C75_fit_example`, `C75_powers_example`, `C76_round_trip_example`

* **CDEpsilon.epsilon_statementFN**: `C79_first_rect`, `C79_second_rect`, `C79_second_trapz`, `C79_trapz_integral`, `C81_noisy_first`, `C81_noisy_rect`, `C81_noisy_trapz`, `C82_evolve_converges`, `C82_inverted_kernel`, `C82_noisy_kernel`, `C82_pipeline_rect`, `C82_pipeline_trapz`

* **CDFN**: `C33_centered_refuted`, `C33_fourier`, `C33_fourier_antiderivative_partial`, `C33_linear`, `C33_linear_antiderivative_partial`, `C34_named`, `C35_derivative_partial`, `C35_hessian`, `C35_hessian_tricube`, `C35_named`, `C39_2d_refuted`, `C39_centered_refuted`

* **D**: `C32_position_only`, `C33_polynomial_values`, `C36_columns`, `C37_one_refuted`, `C37_three_refuted`, `C38_combiner_refuted`, `C38_const_kernel`, `C38_const_kernel_refuted`, `C38_force`, `C38_hybrid`, `C38_hybrid_refuted`, `C38_kernel_partial`, `C38_no_vel_refuted`, `C57_values`

* **DEpsilon.epsilon_statementFN**: `C79_midpoint_half`, `C79_midpoint_refuted`, `C79_rect_integral`, `C82_second_order_refuted`

* **DF**: `C32_others`, `C33_monomials`, `C34_one_periodic_refuted`, `C34_states_partial`, `C34_unity_partial`, `C35_one_periodic_refuted`, `C36_gradient`, `C36_hessian`, `C37_two_partial`, `C38_indicator`, `C38_tensor`, `C39_derivative_partial`, `C39_differences`, `C39_overdamped`, `C39_pointwise`, `C39_separable_partial`, `C39_zero`, `C39_zero_overdamped`, `C51_closing_refuted`, `C51_error_refuted`, `C51_graded_partial`, `C51_graded_refuted`, `C51_hull`, `C51_intersect`, `C51_no_error`, `C51_parallel`, `C51_rectangle_refuted`, `C51_round`, `C51_stop`, `C51_terminates`, `C51_uniform`, `C51_vertex`, `C53_changed`, `C53_refuted`, `C53_twice`, `C53_unchanged_partial`, `C57_antiderivative`, `C57_gradient`, `C57_hessian`, `C57_linear_refuted`, `C57_single`, `C57_single_hessian_partial`, `C58_exact_partial`, `C58_one_refuted`, `C58_temperature_refuted`, `C59_1d_partial`, `C59_2d_partial`, `C59_few_refuted`, `C59_five_partial`, `C59_long_refuted`, `C59_outside`, `C59_unsorted_refuted`

* **DFN**: `C32_underdamped`, `C33_fourier_constant`, `C33_fourier_values`, `C33_gradient_unique`, `C33_polynomial`, `C33_polynomial_antiderivative`, `C33_polynomial_constant`, `C33_zero_frequency_refuted`, `C38_bases`, `C45_colored_partial`, `C45_colored_refuted`, `C46_filter_partial`, `C46_inverse_partial`, `C46_linear_refuted`, `C46_short_refuted`, `C57_dropped`, `C70_build_partial`, `C70_default_coeffs_refuted`, `C70_midpoint_refuted`, `C70_needs`, `C70_no_model_refuted`, `C70_truncation_refuted`, `C72_complex_partial`, `C72_past_end_refuted`, `C72_real_refuted`, `C72_spectra_partial`, `C72_uncorrelated_refuted`

* **none (closed under the global context)**: `C01_rectangular_inversion_solves`, `C01_rectangular_inversion_unique`, `C02_trapezoidal_inversion_solves`, `C03_second_kind_rect_solves`, `C03_second_kind_trapz_solves`, `C04_midpoint_coded_partial`, `C04_midpoint_locally_constant_partial`, `C04_midpoint_refuted`, `C05_midpoint_buffer_refuted`, `C05_midpoint_odd_partial`, `C05_rectangular_buffer_refuted`, `C05_rectangular_last_is_zero`, `C05_rectangular_prefix_partial`, `C05_second_rect_buffer_independent`, `C05_second_trapz_buffer_independent`, `C05_trapz_buffer_independent`, `C06_midpoint_causal`, `C06_rectangular_causal`, `C06_second_rect_causal`, `C06_second_trapz_causal`, `C06_trapezoidal_causal`, `C07_kernel_value_invariant`, `C07_memory_rect_invariant`, `C07_memory_trapz_invariant`, `C07_midpoint_basis_change`, `C07_rectangular_basis_change`, `C07_second_rect_basis_change`, `C07_second_trapz_basis_change`, `C07_trapezoidal_basis_change`, `C08_midpoint_linear`, `C08_rectangular_linear`, `C08_second_rect_linear`, `C08_second_trapz_linear`, `C08_trapezoidal_linear`, `C08_zero_force_rectangular`, `C08_zero_force_trapezoidal`, `C09_kernel_lengths`, `C09_richardson_short`, `C10_simpson_inversion_solves`, `C10_simpson_second_kind_partial`, `C10_simpson_second_kind_refuted`, `C11_affine_partial`, `C11_check_inversion_partial`, `C11_check_inversion_refuted`, `C12_rectangular_recovers`, `C12_second_rect_recovers`, `C12_second_trapz_recovers`, `C12_trapezoidal_recovers`, `C13_memory_rect`, `C14_memory_trapz_partial`, `C14_memory_trapz_refuted`, `C15_midpoint_rejected`, `C15_noise_partial`, `C15_noise_refuted`, `C15_one_component_partial`, `C15_times`, `C16_corrs_rect`, `C16_corrs_trapz`, `C16_model_rect`, `C16_model_trapz`, `C16_rect_restart_partial`, `C16_rect_restart_refuted`, `C16_trapz_restart_partial`, `C17_evolve_rect_partial`, `C17_evolve_rect_refuted`, `C17_evolve_trapz_partial`, `C17_evolve_trapz_refuted`, `C17_model_rect_partial`, `C17_model_trapz_partial`, `C18_stab_reads_out_of_bounds_refuted`, `C18_stab_simplex`, `C18_stab_succeeds_only`, `C19_flux_rect_partial`, `C19_flux_rect_refuted`, `C19_flux_simpson_out_of_bounds`, `C19_flux_trapz_partial`, `C19_flux_trapz_refuted`, `C20_mean_force_least_squares`, `C20_mean_force_recovers`, `C20_mean_force_success`, `C21_cut_and_order`, `C21_degenerate_fails`, `C21_gram_kernel`, `C21_gram_kernel_empty`, `C21_pooled_mean`, `C21_pooled_products`, `C22_bounded`, `C22_no_deadlock`, `C22_parallel_is_serial`, `C22_workers`, `C23_after_projection`, `C23_lag_zero`, `C23_overdamped`, `C23_pooled_correlations`, `C23_position_only`, `C23_with_friction`, `C24_direct_1D`, `C24_direct_ND`, `C24_direct_trunc_zero`, `C24_fft_1D`, `C24_fft_1D_auto`, `C24_fft_ND`, `C25_direct_single_partial`, `C25_fft_single_partial`, `C25_one_component_partial`, `C25_single_argument_refuted`, `C25_single_argument_transposed_refuted`, `C26_failing_call_refuted`, `C26_failure_frame_partial`, `C26_out_of_order_partial`, `C26_wrong_exception_refuted`, `C27_fresh_partial`, `C27_stale_refuted`, `C28_trunc_ind_partial`, `C28_trunc_ind_refuted`, `C28_trunc_ind_total`, `C29_order_partial`, `C29_pooled_partial`, `C29_single_partial`, `C29_variance_refuted`, `C30_correlations_partial`, `C30_default_tolerance`, `C30_projection_partial`, `C30_rank_zero_refuted`, `C30_rejected_partial`, `C31_fields_partial`, `C31_noise_refuted`, `C31_pmf_partial`, `C31_pmf_refuted`, `C31_restored_partial`, `C32_model_const_kernel`, `C32_model_hybrid`, `C32_model_position_only`, `C32_model_position_velocity`, `C36_fit_partial`, `C36_fit_refuted`, `C36_indices`, `C36_indices_total`, `C37_ends`, `C37_values`, `C38_combiner_obj`, `C38_combiner_partial`, `C40_exact_a`, `C40_exact_a_from_vel`, `C40_exact_va`, `C40_gjf_half_step`, `C40_kept_samples`, `C41_unwraps`, `C41_unwraps_gjf`, `C42_acceleration_alone_refuted`, `C42_accepted_partial`, `C42_fixed_partial`, `C42_plain_partial`, `C43_first_step_refuted`, `C43_memory_partial`, `C43_noise_partial`, `C43_noise_refuted`, `C43_run_partial`, `C44_ballistic`, `C44_deterministic`, `C44_one_lag_kernel_refuted`, `C44_run_partial`, `C45_backward`, `C45_covariance_matrix`, `C45_eig_refuted`, `C45_indefinite`, `C45_nan_refuted`, `C45_noise_partial`, `C45_too_long`, `C47_even_refuted`, `C47_inspect_partial`, `C47_round_trip_partial`, `C48_factorisation_partial`, `C48_index_refuted`, `C48_number`, `C48_threshold_refuted`, `C49_even_refuted`, `C49_powers_partial`, `C50_column_refuted`, `C50_fit_then_eval`, `C50_fit_total`, `C50_kernel_partial`, `C50_unknown`, `C52_basis`, `C52_deriv_1d_partial`, `C52_deriv_refuted`, `C52_deriv_single_partial`, `C54_histogram_partial`, `C54_minimum_refuted`, `C54_resting_trajectory_refuted`, `C54_success_partial`, `C55_restart_points`, `C55_times_partial`, `C55_times_refuted`, `C56_memory_partial`, `C56_memory_refuted`, `C60_evolution_conserves`, `C60_generator_conserves`, `C60_kernel`, `C61_kernel_values`, `C61_richardson_exact`, `C62_const_kernel_partial`, `C62_hybrid_dimension_partial`, `C62_hybrid_partial`, `C62_hybrid_refuted`, `C62_position_only_partial`, `C62_position_velocity_partial`, `C62_wrong_rows`, `C63_friction_split`, `C64_flux_force_partial`, `C64_flux_force_refuted`, `C65_least_squares_partial`, `C65_one_dimension_partial`, `C65_pmf_num_int_refuted`, `C65_pos_gle_constant_kept`, `C65_pos_gle_constant_removed`, `C65_pos_gle_refuted`, `C65_recovers_partial`, `C65_success`, `C65_two_dimensions_refuted`, `C66_contents`, `C66_hybrid_refuted`, `C66_load_refuted`, `C66_projected_refuted`, `C66_save_condition`, `C66_unprojected_partial`, `C67_accepted`, `C67_accepts`, `C67_dimension_refuted`, `C67_documented_column_partial`, `C67_documented_time`, `C67_iterator_refuted`, `C67_observable_refuted`, `C67_time_step_refuted`, `C67_trunc`, `C68_build_partial`, `C68_fresh`, `C68_refit_refuted`, `C68_shared_refuted`, `C68_step_partial`, `C69_ballistic`, `C69_float_position`, `C69_memory_refuted`, `C69_restart_refuted`, `C69_restart_repeats`, `C69_run_partial`, `C71_failing_refuted`, `C71_fresh_partial`, `C71_gram_refuted`, `C71_width_refuted`, `C73_all_windows_refuted`, `C73_array_partial`, `C73_same_length_partial`, `C73_weighted_partial`, `C74_first_order_refuted`, `C74_memory_partial`, `C74_one_saver_partial`, `C74_prefix_refuted`, `C75_all_removed`, `C75_fit_partial`, `C75_fit_refuted`, `C75_one_time_refuted`, `C75_powers_partial`, `C75_real_negative`, `C75_removal_refuted`, `C75_zero`, `C76_components`, `C76_eval`, `C76_fit_total_refuted`, `C76_memory_fit`, `C76_removed_refuted`, `C76_round_trip_partial`, `C76_shift`, `C76_shift_refuted`, `C76_zero_component`, `C77_atomic_refuted`, `C77_data_refuted`, `C77_disjoint`, `C77_failure`, `C77_force_refuted`, `C77_frame`, `C77_idempotent`, `C77_isolated_partial`, `C77_isolated_refuted`, `C77_observable`, `C77_success`, `C78_bounds`, `C78_default`, `C78_ends`, `C78_fit`, `C78_knots`, `C78_local`, `C78_not_periodic`, `C78_periodic_partial`, `C78_periodic_refuted`, `C78_periodic_sum`, `C78_periodic_unity_refuted`, `C78_polynomials`, `C78_support`, `C78_unity`, `C80_asymptotic`, `C80_friction`, `C80_friction_label_refuted`, `C80_friction_mismatch`, `C80_laplace_fails`, `C80_laplace_refuted`, `C80_simpson`, `C80_simpson_uniform`, `C81_first_rect`, `C81_first_refuted`, `C81_second_rect`, `C81_second_trapz`
