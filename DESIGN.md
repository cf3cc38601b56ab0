# Formal model of ergodicio/adept in Rocq (Coq 8.16.1)

Everything under `rocq/theories/`.  Three kinds of file per area:

* `<Area>.v`       – the model: computable Gallina definitions (or definitions over `R`), each citing
  the lines of `/repo` it mirrors and stating its simplifications;
* `<Area>Proofs.v` – lemmas;
* `<Area>Props.v`  – small independent specification (where one is needed), the property theorems
  (`exact lemma`), a non-vacuity `Example` beside each, and `Print Assumptions`.

## Trusted base

1. Coq 8.16.1's kernel (and `vm_compute`, which is part of it).
2. Axioms.  No axioms of our own.  Discrete areas (deck, stream, runner, io, utils, mlflow, base)
   are closed under the global context.  Areas over the real numbers (`R` of the standard library)
   use the standard library's axioms for `R`:
   `ClassicalDedekindReals.sig_forall_dec`, `ClassicalDedekindReals.sig_not_dec`,
   `FunctionalExtensionality.functional_extensionality_dep`
   (and `Classical_Prop.classic` where noted by `Print Assumptions`).
   Print Assumptions below every theorem shows the exact list; the per-theorem table is in the section "Assumptions per theorem" at the end.
3. The reading of the code: the model is hand-written; the sandbox cannot run the code.  Each
   definition cites its source.
4. Python/NumPy/JAX semantics as encoded in the model:
   * `int` = `Z`; `float` arithmetic in the *numerical* areas = exact real arithmetic (rounding, overflow,
     NaN are NOT modelled unless said so); in the *deck* area a float is its exact decimal literal, handled by an abstract printer/reader
     pair whose contract is an explicit hypothesis of the theorem (with an instance);
   * `str` = list of 8-bit characters (`list ascii`), ASCII semantics of `strip`, `lower`, `isalnum`;
   * `dict` = association list in insertion order, assignment keeps the position of an existing key;
   * exceptions = values of a result type;
   * filesystem = finite map from paths to contents; each library call (copy, rename, unlink, NetCDF append)
     is one or more atomic steps, the granularity being stated where it matters (crash properties).

## Properties: what is modelled and how proved

| id | model | proof plan |
|---|---|---|
| C01 | `deck.py`: tokenizer of values, `parse_deck`, `render_deck` on `list ascii` | lexical lemmas for each atom kind, then induction on params/sections |
| C02 | same | `_refuted` by witness texts; conditional version as corollary of C01 |
| C03/C04 | `merge_overrides`, `_merge_params`, `_find_param_key` | induction over overrides with a frame invariant; exact error characterisation |
| C05 | `_sanitize_key` | character-class induction |
| C06 | `deck_to_flat_dict` | `_refuted` + conditional count/lookup theorem |
| C07 | `_strip_comment` | induction with the quote state |
| C08/C09 | `StreamWriter` as a state machine (disk, buffer, last_iter) | refinement to "list of appended rows"; crash = forget the buffer |
| C10–C13 | `StreamConverter` for one diagnostic: scratch dir, persist dir, writer, spill flag; ops = produce / scan / finalize | invariant over histories; micro-step file operations for crash points |
| C14/C15 | the error path of `_scan_once`/`finalize` and `save_run_datasets`' choice | `_refuted` by witness history; conditional positive theorem |
| C16–C19 | `run_osiris` classification, tails, `discover_binary` | case analysis, list induction |
| C20 | `_sync_tree` over file maps | induction on the file list |
| C21–C23 | `io.py` series grouping, sorting, index normalisation | permutation/sortedness |
| C24 | `density.py` over decks with real values | algebra over `R` + list frame lemmas |
| C25–C28 | `utils.py` | arithmetic on batches; induction over trees/lists |
| C29 | `mlflow_logging.MLRunId` | bytes arithmetic |
| C30/C31 | `_base_.ergoExo` lifecycle as a state machine with arbitrary hooks | trace theorem |
| C32–C35 | `driftdiffusion.py` tridiagonal operators over `R` | telescoping sums, M-matrix argument, analysis of `1/w - 1/(e^w-1)` |
| C36–C41 | `_pic1d` shapes, deposit/gather, pushers over `R` | finite sums, floor function; involution/palindrome argument |
| C42 | `_vlasov1d/grid.py` | real arithmetic with floor |
| C43 | cubic interpolation in `_vlasov1d` pushers | polynomial identities |
| C44 | `functions.py` envelope | monotonicity of tanh |
| C45 | `list_diagnostics`, `_resolve_series` | key injectivity + series partition; `_refuted` for a name clash |
| C46 | autoscale bookkeeping of `load_series`, `series_to_dataset`, streamed NetCDF | case analysis over bound lists |
| C47 | `_parse_hist_table` | induction over lines; `_refuted` for a truncated line |
| C48 | `utils.filter_scalars` | tree induction |
| C49–C52 | `driftdiffusion.py` log-mean scheme and kernel models, `_vlasov1d` Dougherty / dougherty_nodrag / Krook steps over `R` | bilinear symmetry of the kernels, summation by parts, moment identities |
| C53 | spectral Poisson solver of `_pic1d` (same formula as `_vlasov1d`) over `R` | discrete orthogonality of sines and cosines, antisymmetry |
| C54 | profile functions of `functions.py` over `R` | derivatives; `_refuted` for the linear profile |
| C55 | `run_osiris` command line and staging | case analysis on the run; invariants of the file tree |
| C56–C58 | `SpaceExponential`, `VelocityExponential`, `HouLiFilter` over `R` (FFT as sums, shortest wave as irfft treats it) | a spectral-multiplier calculus (`Dft.v`: inversion, Parseval, mirror symmetry) |
| C59 | field solvers and ponderomotive term of `_vlasov1d` | the same calculus; Gauss's law of C53 |
| C60 | `HampereSolver` inside `LeapfrogIntegrator`, any number of steps | per-mode identity of the field update and the push; induction over steps |
| C61 | `LeapfrogIntegrator`, `SixthOrderHamIntegrator` | induction over stages and steps |
| C63 | `WaveSolver` (second differences, absorbing boundaries, time-step override) | algebra per cell, trigonometric identities, induction over steps |
| C64 | `Driver`, `EMDriver`, `AKWDriver`/laser parameters, `StochasticDriver` (random draws as parameters) | algebra and finite Fourier sums |
| C67 | `PlasmaNormalization` constructors, `normalize` | algebra with positive constants |
| C62 | `_initialize_distribution_`, `_initialize_total_distribution_`, `init_state_and_args` (noise draws as parameters) | sums over the velocity grid, induction over species |
| C66 | `discrete_temperature`, `find_self_consistent_beta` (as its root equation), super-Gaussian collision model | strict monotonicity of the weighted mean; algebra per edge |
| C65 | `VlasovPoissonFokkerPlanck`, `VlasovMaxwell.__call__`, `Collisions` (all operator types), filter, diagnostics, drivers, wave, as a step relation | induction over steps; composition of the per-operator theorems |
| C68 | PIC particle loaders: counts, weights, positions, neutralising background | PicLoad, PicLoadProps: list induction on counts, monotone interpolation of cumulative tables, deposit conservation; five refutations |
| C69 | complete PIC step, saved moments and save section | PicStep, PicStepProps: induction over the run on top of C36-C41; list induction over the save section; three refutations |
| C70 | Rk.v (explicit Runge-Kutta, any tableau), Vfp.v (grid, staggered differences, streaming, acceleration, FLM collisions, field solve, step) | linear functionals and subspaces through Runge-Kutta stages; telescoping; induction over runs (VfpProps.v) |
| C71 | VfpInit.v (super-Gaussian species, local f10, clip, ions, configuration) on top of Vfp.v and DriftDiff.v | summation by parts for the energy; sign of the driven current; invariants of the species loop; concrete density step for the refutations (VfpInitProps.v) |
| C72 | heat_flux.py SH and SNB fluxes, storage.py moments and table | M-matrix existence, uniqueness and maximum principle for the SNB systems, telescoping sums, mean-value theorem for the spectral weights |
| C73 | _hermite_poisson_1d linear operators | eigen-decomposition contract, derivative of the exact flow, Hermite recurrence, Parseval-type energy identities |
| C74 | force coupling and exponential force substep, Poisson solver | nilpotent series = Taylor shift of Hermite polynomials, discrete Fourier inversion, Parseval bilinear form |
| C75 | whole step of both integrators, initial state, time grid, drivers | per-step invariants lifted by induction over the number of steps |
| C76 | HarmonicLayout | list of pairs, induction |
| C77 | streaming, electric and magnetic operators at one cell and speed | Legendre ladder identities by induction on l, double sums shifted by one mode, derivative along curves on the sphere |
| C78 | Harm2d.v: density2, current2, cartesian_l2, streaming, electric, magnetic at one cell; moments as finite sums over the speed grid | summation by parts over the speed cells; the degree-2 tensor against the Legendre expansion (Legendre.v) |
| C79 | Vfp2d.v: halo exchange as a padded block per device, the 2nd/4th-order stencils, the binomial filter, the Hou-Li kernel | padded block = cyclic shift; shift theorem of the DFT; Parseval |
| C80 | Vfp2d.v: derivatives as one-axis operators, curl, Maxwell right-hand side, split step with arbitrary collisions and drivers, spectral Poisson | every derivative is an antisymmetric matrix with zero column sums (spectral: Fourier kernel; finite differences: cyclic shifts); x and y derivatives commute; summation by parts; induction on steps; 2-D DFT inversion |
| C81 | VfpOhm.v: Ohm's law terms, projection, positivity, the gates, the whole KineticOhmStep with arbitrary collisions and filter | response is linear in the degree-1 harmonics; the projection commutes with everything else; div of curl is zero, and mode-by-mode real operators commute with the derivatives (DFT), induction on steps; OhmBalance*.v: moments commute with the derivative matrices, C78 moment identities; OhmRk.v: the stages are those of the generic Runge-Kutta definition of Rk.v |
| C82 | VFP-2D grid, time, sharding, profiles, initial state, collision cell, solver choice (VfpSetup2.v) | acceptance conditions by case analysis; bounds from sin/cos/tanh; neutrality from the discrete normalisation; density by the flux form of the isotropic operator (C32); damping per harmonic (C71) |
| C83 | Vlasov-2D pushers, rotation, collisions, filter, initial distribution, sharding (Vlasov2.v) | DFT shift theorem per axis; zero mode for the number; rotation matrix orthogonality; flux form of the Dougherty row; discrete normalisation of each axis |
| C84 | Vlasov-2D grid, Maxwell step, whole step, run, saved quantities (Vlasov2.v) | summation by parts for the energy; commuting spectral derivatives for the divergence; exact 2x2 map per mode for vacuum waves; induction on the run |
| C85 | Tf1d.v: grid, frequency table, all pushers, right-hand side, save functions of _tf1d | Tf1dProps.v, Tf1dLin.v, Tf1dSave.v: integration by parts for the spectral gradient, Gauss law from PicFourier, expansion to second order with a uniform constant, single-mode closure giving the damped oscillator, interpolation lemmas |
| C86 | Spectrax.v: shifts, ladder factors, Lorentz and streaming terms, collisions, filter, mask, current, both vector fields of _spectrax1d | SpxProps.v, SpxLaws.v, SpxMore.v: independent multiply/differentiate rules of the Hermite basis, linear functionals commuting with the three-dimensional transforms, Parseval, derivative along a solution; example solution: nonlinear uniform plasma oscillation |
| C87 | SpxExp.v: eigenvector streaming exponential, closed-form Maxwell exponential, diagonal damping, combined operator | SpxExpProps.v, SpxStream.v, SpxEig.v: derivative of the closed form, ladder form of the streaming matrix, Parseval with orthonormal eigenvectors, derivative at 0 of a failed commutation; example: explicit eigenvectors of the 4 x 4 matrix (roots of H_4) |
| C88 | SpxStep.v: state arithmetic, Lawson-RK4 step with embedded error, linear interpolation for saves, sponge and filter split step | SpxStepProps.v, SpxStepMore.v, SpxStepRef.v: equality of states on the entries the arrays have as a setoid, linearity and group law of the linear operator, transforms inverse to each other, exact defect for a one-mode drifting species |
| C89 | SpxInit.v: derived times, mode counts, dtmax, fft_index and index updates, initial fields and species, sponge profile, units, filter defaults | SpxInitProps.v, SpxInitMore.v, SpxInitRef.v: inverse transform of single entries, distinct indices of resolved modes, exact residual of Gauss's law at the mode, steady state through the modelled right-hand side |
| C90 | SpxStore.v: moment save functions, default scalars, flattened Hermite index, fftshift, coordinates, optional axes | SpxStoreProps.v: against the moment functionals of SpxProps, Parseval, index bijections, exact differences for the refuted claims |
| C91 | SpxMetrics.v: argument, unwrap, gradient, frequency, mask and line fit, final window, absorption ratio | SpxMetricsProps.v: phase differences below pi are recovered, telescoping sums, unique minimiser of the squared error |
| C92 | HermLeg.v: basis tables, matrices, moment matrix, saved scalars; HLBasis.v, GaussInt.v: specification and lemmas | three-term recurrences by induction; Legendre ODE and Bonnet recurrences for orthogonality; the Gaussian integral by differentiating under the integral sign; ladder argument for the moments |
| C93 | HermLeg.v: force terms, G_C, G_B, Cayley updates (recursion, Woodbury, eigenvectors), backward Euler, gamma_vec | row identities, forward substitution, Woodbury by elimination, skew quadratic forms vanish, unitary expansion; witnesses for the refutations |
| C94 | HLColl.v: frozen moments, Maxwellian recurrence, restoration, BGK, exact Hermite flow, Legendre diffusion and drift, Poisson solve | integration by parts against the Gaussian, 3x3 triangular solve, generating-function derivative, spectral expansion, forward substitution |
| C95 | HLStep.v: linear exponential, nonlinear rhs, Lawson RK4, force step, conservation correction, split step with its corrector loop, implicit substep, diagnostics, __call__, runs | Cauchy-Binet for the Gram determinant, orthogonality for minimality, induction over steps, extensionality of the corrector map, k = 0 algebra |
| C96 | HLInit.v: initial conditions, projection, seeded state, times and save axes, configuration parsing, driver, drift, snapshots, reconstruction, stored coefficients | evaluation of the basis functions, cosine sums, orthogonality for the best approximation, an increasing antiderivative for the beam deficit, rounding, induction over the pulse list |
| C97 | Lpse.v: SpectralEPWSolver and SplitStep over 2-d complex arrays, arbitrary pump and noise; LpseFft.v: the 2-d transform | inverse and Parseval of the 2-d transform; shift theorem for a conjugated product with a plane wave; induction over steps |
| C98 | LpseLaser.v: laser_update over an abstract list of colours with 1-d or 2-d argument arrays, the drivers, the low-pass filter and the shifted band | index shift of the spectrum, orthogonality of characters, bounds on the snapped mode number |
| C99 | LpseSetup.v: next_smooth_fft_size as the loop of the code, write_units, get_derived_quantities, axes, absorbing boundary, density profiles | loop invariant of the smooth-number merge (sorted, complete, candidates minimal); floor bounds and linspace algebra for the grid; real algebra for the units |
| C100 | LpseSave.v: save times and axes, save_func with its interpolation, make_field_xarrays with fftshift and the complex view as a word count, max_phi | closed form of the shifted frequencies, searchsorted on increasing axes, triangle inequality for the transforms |
| C101 | LpseSpeckle.v: phase plates, SSD parameters, Gaussian time series, beamlet amplitudes, focal pattern, normalisation, reserved ky band | zero-padded 2-d Parseval identity after splitting off the lens phase; variance identity for the normalisation; ceiling bounds for the series lengths |
| C102 | Cyl.v: ring grid, diffusion tensor with the erf coefficients, moments, implicit parallel and perpendicular sweeps, explicit cross terms, moment restoration, one point in x | monotonicity of psi by derivatives (CylErf.v), sweeps as M-matrix systems of DriftDiff, weighted telescoping, strict Cauchy-Schwarz for the Gram determinant |
| C103 | VStep2v.v, VInit2v.v: the 1D2V step on functions of (x, v_par, v_perp), reusing the 1D pieces of VStep.v and the cylindrical operator of Cyl.v; the initialiser | every piece is linear in f or reads only the marginal, so summing over v_perp with the ring weights gives the 1D step (same linear solve, by weighting the slice equations); backwards, a product solution solves each slice; shells by the conservation of each pusher; number from C102; telescoping accumulators; a 4-cell wave with a filter for the refutation |
| C104 | VSave.v: the save functions as sums over the grid, the two interpolations, the sample axes, the expansion of the save section as a loop over named entries | moments by expanding the powers under the sum, Cauchy-Schwarz and the bound (vmax - v)(v - vmin) >= 0; run constants from C100 and C103; interpolation weights from the bin found; the loop by induction with an invariant on what each name was last assigned; the split with trigonometric identities and Taylor bounds |
| C105 | IAW.v: the saved spectrum as the rfft of the PIC model, the window as a filter on the saved times, the axis and the panel slice | Parseval and the mirror symmetry of the transform, one-wave transform, shift theorem and injectivity of the half transform; the run constant from C104; counting the multiples of the panel stride by induction |
| C106 | OsMetrics.v: listings of names and dump contents, folds of the energies, the plots' split, units and derived quantities of the deck | folds as sums over the found directories, file names through the characterization of C21; sums over components by a partition; the laser average by an explicit antiderivative (Coquelicot) |
| C107 | Recon.v: the spectral potential of one frame (vpot) on the transforms and derivatives of Vfp2d.v | Hermitian symmetry of the transform makes the inverse real, so derivatives act mode by mode; k x B_k = 0 from the divergence; witnesses by explicit small grids |
| C108 | Recon.v: np.gradient, centre cell, upstream cells by first argmax over filtered lists, sheet window, quadrupole mask, gate, rate, flux, summary, panels | characterization of the first argmax on sorted lists, list maxima and sums, a concrete 3 x 3 frame whose Hessian follows from C107; half-even rounding for the panels |
| C109 | OsPlots.v: the derived arrays of plots.py on lists of rows, the deck walk for ion species | lists zipped row by row (slices commute with zips), d'Alembert samples, weighted moments of a column by induction, exact set of overlay lines by induction over the species |
| C110 | OsSelect.v: block means by index, strided index list, searchsorted as counts, colour limits, windows | natural-number arithmetic for the counts, filters of sorted lists for the crop, fold extrema |
| C111 | OsSelect.v: keyword arguments as dictionaries, a disk as two functions of paths, regen.py | dictionary laws, case analysis on the keys, a concrete disk for the refutation |
| C112 | HPStore.v: saved scalars as sums and folds, cfg["save"] as a dictionary, the time grid, fftshift of the coefficients | fold extrema, the DFT at wavenumber zero for the mean, dictionary laws, the inverse DFT reindexed by fftshift |

Not expressible: wall-clock behaviour, GPU/JAX compilation, float rounding error, NetCDF/HDF5 byte formats, MLflow
server behaviour.  They are listed per property in MANIFEST notes when they limit it.

## Assumptions per theorem

What `Print Assumptions` lists for each theorem of MANIFEST.json, collected by a script from the compiled theories. All of them are axioms of the
standard library; nothing else is ever listed:

- F: `ClassicalDedekindReals.sig_forall_dec`
- N: `ClassicalDedekindReals.sig_not_dec`
- E: `FunctionalExtensionality.functional_extensionality_dep`
- C: `Classical_Prop.classic`
- `-`: Closed under the global context

| Property | axioms | theorems |
|---|---|---|
| C01 | - | C01_render_parse_roundtrip, C01_parser_terminates |
| C02 | - | C02_reparse_invariant_refuted, C02_reparse_quote_refuted, C02_reparse_inf_refuted, C02_reparse_when_plain |
| C03 | - | C03_overrides_exact, C03_overrides_key_order, C03_overrides_values |
| C04 | - | C04_override_errors_justified, C04_unresolvable_overrides_rejected |
| C05 | - | C05_sanitized_safe, C05_sanitize_idempotent, C05_sanitize_keeps_safe_names, C05_sanitize_keeps_safe_characters |
| C06 | - | C06_flat_loses_parameters_refuted, C06_flat_complete, C06_flat_sound |
| C07 | - | C07_comments_inert, C07_strip_comment_exact |
| C08 | - | C08_batching_invisible, C08_bad_shape_rejected, C08_default_chunk |
| C09 | - | C09_restart_exact, C09_crash_inside_landing_refuted |
| C10 | - | C10_streaming_exact, C10_equals_batch, C10_restart_staged_refuted, C10_misclassified_refuted |
| C11 | - | C11_newest_untouched, C11_peek_refuted |
| C12 | - | C12_never_lost_mirroring, C12_discard_between_scans, C12_discard_mode_refuted, C12_discard_failed_landing_refuted |
| C13 | - | C13_mirror_atomic, C13_retry_completes, C13_stale_destination_refuted |
| C14 | - | C14_partial_nc_saved_refuted, C14_saved_exact_without_faults, C14_saved_exact_when_absent |
| C15 | - | C15_completed_exact, C15_failed_sweep_refuted, C15_fill_rows_refuted |
| C16 | - | C16_raises_iff, C16_otherwise_returns, C16_missing_binary |
| C17 | - | C17_capture_exact, C17_lines_exact |
| C18 | - | C18_recent_error_detected, C18_old_error_refuted, C18_uppercase_error_refuted |
| C19 | - | C19_discovery, C19_bad_configured_path_refuted |
| C20 | - | C20_sync_exact, C20_sync_safe, C20_staged_run_keeps_files, C20_failed_sync_refuted |
| C21 | - | C21_series_partition, C21_sort_dumps |
| C22 | - | C22_selection_exact, C22_errors_exact |
| C23 | - | C23_kept, C23_concat |
| C45 | - | C45_every_dump_listed, C45_every_entry_loads, C45_streamed_listed, C45_clash_refuted |
| C46 | - | C46_autoscaled_agree, C46_physical_axis |
| C47 | - | C47_hist_exact, C47_hist_none, C47_truncated_table_refuted |
| C25 | - | C25_logged_exactly, C25_complete_iff, C25_entries_lost_refuted |
| C26 | - | C26_flatten_exact, C26_dotted_keys_refuted |
| C27 | FE | C27_average_exact, C27_too_few_gradients |
| C27 | - | C27_one_device_refuted |
| C28 | - | C28_retries_exact, C28_bounded |
| C29 | - | C29_run_id_roundtrip, C29_ascii_length |
| C30 | - | C30_user_config_untouched, C30_setup_exact, C30_refused_before_setup, C30_one_run, C30_run_uses_latest_setup, C30_half_set_up_refuted |
| C31 | - | C31_selection |
| C48 | - | C48_filter_scalars_exact |
| C32 | FNEC | C32_density_conserved, C32_weighted_density_conserved, C32_spherical_density_conserved |
| C32 | FNE | C32_velocity_dependent_refuted |
| C33 | FNEC | C33_positivity |
| C33 | FE | C33_central_refuted |
| C34 | FNEC | C34_equilibrium_preserved, C34_maxwellian_preserved, C34_fast_vfp_preserved, C34_super_gaussian_preserved, C34_series_residual |
| C35 | FNEC | C35_weight |
| C49 | FNEC | C49_log_mean_edges, C49_kernel_energy, C49_kernel_maxwellian |
| C50 | FNEC | C50_dougherty_momentum, C50_dougherty_momentum_bound, C50_dougherty_energy |
| C51 | FNE | C51_nodrag_density, C51_nodrag_fixed_point, C51_nodrag_moments |
| C51 | FNEC | C51_nodrag_maxwellian_refuted |
| C52 | FNEC | C52_krook, C52_krook_composes |
| C36 | FE | C36_deposit_conserves_weight, C36_deposit_nonneg, C36_deposit_periodic, C36_deposit_local, C36_total_charge |
| C37 | FE | C37_gather_constant, C37_gather_adjoint, C37_gather_bounds, C37_gather_periodic, C37_gather_linear |
| C38 | FE | C38_drift_particle, C38_drift_state |
| C39 | FE | C39_leapfrog_reversible, C39_outside_refuted |
| C39 | FNEC | C39_yoshida_reversible, C39_run_reversible |
| C40 | FNEC | C40_substeps_sum, C40_substeps_cubes, C40_substeps_contiguous, C40_substeps_symmetric |
| C41 | FNEC | C41_weights_constant, C41_momentum_conserved |
| C41 | FE | C41_kick_momentum, C41_drift_momentum |
| C41 | FNE | C41_background_refuted |
| C53 | FNE | C53_zero_mean, C53_no_self_force, C53_gauss, C53_single_wave, C53_linear, C53_mean_ignored, C53_nyquist_dropped |
| C24 | FE | C24_inactive, C24_active, C24_only_lengths_change, C24_scale_factor, C24_ramp_length, C24_cells, C24_half_given, C24_checks_are_pure, C24_local_length_refuted, C24_positive_cells_refuted, C24_atomic_refuted |
| C42 | FE | C42_cfl, C42_covers_requested_time, C42_step_budget, C42_step_budget_refuted, C42_cell_centres, C42_time_axis |
| C43 | FE | C43_zero_shift, C43_whole_cells, C43_outside, C43_linear_exact, C43_quadratic_exact, C43_moments_exact, C43_push_moments, C43_positivity_refuted |
| C44 | FNEC | C44_bounds, C44_never_saturates, C44_monotone, C44_space_time |
| C44 | FNE | C44_complement, C44_symmetric, C44_peak, C44_get_envelope |
| C54 | FNE | C54_exponential, C54_sine |
| C54 | FE | C54_linear, C54_linear_scale_length, C54_linear_scale_length_refuted, C54_linear_positive_iff |
| C55 | - | C55_command_line, C55_unstaged_untouched, C55_staged_scratch_reclaimed |
| C56 | FNE | C56_number, C56_whole_cells, C56_wave, C56_energy, C56_compose, C56_reversible, C56_linear, C56_compose_refuted, C56_positivity_refuted |
| C56 | - | C56_shape |
| C57 | FNE | C57_number, C57_whole_cells, C57_no_force, C57_compose, C57_energy, C57_edge_refuted |
| C58 | FNE | C58_number, C58_wave, C58_alpha_zero, C58_commutes |
| C58 | FNEC | C58_energy, C58_unchecked_parameters_refuted |
| C59 | FE | C59_densities, C59_ampere, C59_ampere_no_current, C59_ponderomotive |
| C59 | FNE | C59_neutral_no_field, C59_boltzmann, C59_boltzmann_wave, C59_boltzmann_vs_poisson |
| C60 | FNE | C60_one_step, C60_run |
| C61 | FNE | C61_leapfrog_number, C61_sixth_number, C61_run_number, C61_leapfrog_field, C61_sixth_field, C61_refused |
| C61 | FE | C61_sixth_schedule, C61_sixth_kicks, C61_sixth_kicks_refuted |
| C63 | FE | C63_wave_equation, C63_mirror, C63_linear, C63_reversible, C63_override_stability_refuted, C63_override_limit, C63_absorbing, C63_pulses |
| C63 | FNE | C63_dispersion, C63_unstable, C63_point_source |
| C64 | FNE | C64_superposition, C64_travelling, C64_point_source, C64_laser, C64_stochastic_periodic, C64_stochastic_no_mean, C64_alias_refuted |
| C64 | - | C64_akw |
| C64 | F | C64_akw_inference_refuted |
| C64 | FE | C64_stochastic_times, C64_update_unchecked_refuted, C64_stochastic_interp |
| C64 | FNEC | C64_stochastic_rms |
| C67 | FNE | C67_debye, C67_skin_depth, C67_laser |
| C67 | FE | C67_normalize |
| C62 | FNEC | C62_density, C62_nonneg, C62_gaussian_noise_refuted, C62_symmetric, C62_single_species, C62_several_species, C62_single_ion_refuted, C62_repeated_name_refuted, C62_single_cell_refuted |
| C62 | FNE | C62_noise_band |
| C62 | F | C62_state, C62_species_name_refuted |
| C62 | - | C62_legacy |
| C66 | FE | C66_temperature |
| C66 | FNEC | C66_root_unique, C66_refined_maxwellian, C66_unrefined_refuted, C66_super_gaussian_energy, C66_super_gaussian_root, C66_closure |
| C65 | FNEC | C65_number, C65_reference_only, C65_collisions_density, C65_diagnostics, C65_wave, C65_no_electron, C65_driver_times, C65_no_potential, C65_field, C65_steady, C65_fp_types, C65_positive, C65_zero_frequency, C65_step_exists, C65_diag_fp_refuted |
| C68 | FE | C68_counts, C68_neutral, C68_neutral_total, C68_repeated_seed, C68_random_edge_refuted |
| C68 | FNEC | C68_size, C68_quiet, C68_quiet_weight, C68_quiet_uniform, C68_field_free, C68_random_weight, C68_random, C68_rejection, C68_small_last_refuted, C68_dropped_refuted, C68_quiet_drift_refuted, C68_quiet_components_refuted |
| C69 | FE | C69_mean_squares, C69_moments, C69_cell |
| C69 | FNEC | C69_schemes, C69_fields, C69_invariants, C69_saved_weight, C69_electrostatic, C69_wave, C69_no_electron, C69_momentum |
| C69 | - | C69_save_accepted, C69_saved, C69_own_default_refuted, C69_key_clash_refuted, C69_scalar_dir, C69_scalar_dir_refuted |
| C70 | FE | C70_streaming, C70_streaming_norm, C70_acceleration_rate, C70_acceleration_number, C70_mirror, C70_tail_refuted, C70_grid |
| C70 | FNE | C70_work, C70_current_first_order, C70_joule_refuted |
| C70 | FNEC | C70_number_balance, C70_number_no_field, C70_boundaries, C70_uniform, C70_current_step, C70_ampere_sign |
| C70 | - | C70_implicit_shapes |
| C71 | FNEC | C71_heating_energy, C71_ib_energy, C71_heating_exists, C71_cooling_ignored, C71_init_bound, C71_init_species, C71_init_current, C71_init_uniform, C71_zero_species_doubles, C71_maxwellian, C71_clip_periodic_refuted, C71_scaled_bound_refuted |
| C71 | FNE | C71_zstar_damping, C71_harmonics, C71_override |
| C71 | FE | C71_ions, C71_ib_ratio, C71_ib_ratio_refuted, C71_heating_off |
| C72 | FE | C72_table, C72_kappa, C72_ratio |
| C72 | FNEC | C72_downhill, C72_weights, C72_snb_solvable, C72_snb_balance, C72_closed, C72_uniform, C72_local_limit, C72_periodic_refuted |
| C72 | FNE | C72_moments, C72_mean_density, C72_mean_streaming, C72_mean_spherical_refuted |
| C73 | FNE | C73_streaming_exact, C73_ladder_is_velocity, C73_streaming_reversible, C73_mean_unchanged, C73_real, C73_moments_kept, C73_nyquist_refuted |
| C73 | FE | C73_collision_profiles |
| C73 | FNEC | C73_linear_dissipative, C73_houli, C73_knee_refuted |
| C74 | FNEC | C74_velocity_shift, C74_substep_group |
| C74 | FNE | C74_density_row, C74_number_kept, C74_density_refuted, C74_maxwellian_current, C74_momentum |
| C74 | - | C74_dealiased, C74_dealiased_refuted |
| C74 | FE | C74_ponderomotive_sign, C74_ponderomotive |
| C75 | FNEC | C75_number_conserved, C75_sponge, C75_equilibrium |
| C75 | FNE | C75_static_ions, C75_gauss, C75_linear_response, C75_lawson_ignores, C75_initial_density, C75_perturbation_refuted, C75_nyquist_perturbation_refuted, C75_integrators, C75_driver_calibration |
| C75 | FE | C75_clip, C75_time_grid, C75_user_dt_refuted |
| C76 | - | C76_index, C76_size, C76_accepted |
| C77 | FE | C77_streaming, C77_electric, C77_magnetic, C77_magnetic_x, C77_rotation_norm, C77_real |
| C77 | FNE | C77_lorentz_refuted |
| C78 | FE | C78_tensor |
| C78 | FNE | C78_continuity, C78_electric_number, C78_electric_power, C78_magnetic_no_work, C78_momentum_streaming, C78_momentum_magnetic |
| C79 | FE | C79_derivative_device_independent, C79_device_count_refuted, C79_filter_device_count_refuted |
| C79 | FNEC | C79_houli, C79_plane_filter |
| C79 | FNE | C79_partitioned_filter |
| C80 | FNE | C80_div_b, C80_poynting, C80_number, C80_gauss, C80_gauss_even_refuted, C80_poisson |
| C81 | FNE | C81_projection, C81_projection_limits, C81_positivity, C81_positivity_idempotent, C81_ohm, C81_ohm_balance, C81_runge_kutta, C81_gates, C81_step, C81_step_accepts |
| C81 | FNEC | C81_ohm_kinetic_refuted, C81_divB |
| C82 | FE | C82_grid, C82_time |
| C82 | - | C82_sharding, C82_build |
| C82 | FNEC | C82_profile_1d, C82_profile_2d, C82_init, C82_neutral, C82_neutral_refuted, C82_collisions |
| C83 | FE | C83_velocity_axes, C83_semi_lagrangian, C83_dougherty_exact_refuted |
| C83 | FNE | C83_pushers, C83_number, C83_rotation, C83_quarter_turn, C83_rotation_number_refuted, C83_filter_order_refuted, C83_profile, C83_uniform_refuted |
| C83 | FNEC | C83_krook, C83_init, C83_sharded_init, C83_velocity_sharding_refuted, C83_krook_mass_refuted, C83_dougherty_row, C83_collisions_density, C83_filter, C83_filter_number |
| C83 | - | C83_sharding_accepts |
| C83 | F | C83_species |
| C84 | FE | C84_grid, C84_time, C84_tmin_refuted, C84_budget_refuted, C84_moments, C84_scalars, C84_mean_energy, C84_saved_axis |
| C84 | FNE | C84_energy, C84_divergence, C84_vacuum, C84_growth, C84_mean_field, C84_driver, C84_polarization_refuted |
| C84 | FNEC | C84_dt_cap_refuted, C84_initial, C84_step, C84_run |
| C84 | - | C84_save_names, C84_save_fields_refuted |
| C85 | FE | C85_grid, C85_xmin_refuted, C85_time, C85_tmin_refuted, C85_save_x |
| C85 | FNEC | C85_accepted, C85_off, C85_number, C85_uniform, C85_driver_sign, C85_linear, C85_trap |
| C85 | FNE | C85_field, C85_drivers, C85_wave, C85_oscillator, C85_kinetic, C85_damped_frequency, C85_kinetic_frequency_refuted, C85_damping_species_refuted, C85_pressure, C85_adiabatic_refuted, C85_save_kx, C85_save_mean_refuted |
| C86 | FNE | C86_lorentz_force, C86_basis_rules, C86_streaming, C86_current_is_flux, C86_force_moments, C86_work, C86_only_E_works, C86_continuity, C86_gauss_rate, C86_momentum, C86_energy, C86_streaming_conserves, C86_magnetic_conserves, C86_filter_momentum_refuted, C86_paths_agree, C86_drive, C86_drive_plane_refuted, C86_noise, C86_noise_refuted |
| C86 | FNEC | C86_gauss, C86_particles, C86_energy_conserved, C86_filter, C86_filter_order_refuted |
| C86 | FE | C86_collisions |
| C87 | FNE | C87_maxwell, C87_streaming, C87_combined, C87_number |
| C87 | FNEC | C87_dissipative, C87_collisions_refuted, C87_filter_refuted |
| C88 | FNE | C88_integrating_factor, C88_linear, C88_amplification, C88_vacuum, C88_step_invariants, C88_saved, C88_gauss_defect, C88_gauss_refuted |
| C88 | FNEC | C88_number, C88_sponge, C88_saved_refuted, C88_sponge_gauss_refuted, C88_sponge_divB_refuted, C88_filter_refuted |
| C89 | FNE | C89_initial_density, C89_initial_field, C89_gauss, C89_equilibrium, C89_oblique_refuted, C89_negative_refuted, C89_magnetic_refuted, C89_nyquist_refuted, C89_anisotropic_refuted, C89_dtmax, C89_dtmax_refuted, C89_units |
| C89 | FNEC | C89_gauss_forever |
| C89 | FE | C89_uniform_refuted, C89_unresolved_refuted, C89_time, C89_time_again_refuted, C89_axis_refuted, C89_limit_refuted, C89_sponge, C89_filter_defaults_refuted |
| C89 | F | C89_filter_defaults |
| C89 | - | C89_modes |
| C90 | FNE | C90_moments, C90_temperature_refuted, C90_total_refuted, C90_energies |
| C90 | - | C90_hermite_index, C90_kx_axis, C90_ky_refuted |
| C90 | FE | C90_x_refuted, C90_axes |
| C91 | FNEC | C91_frequency, C91_travelling_wave, C91_alias_refuted, C91_standing_refuted, C91_damping, C91_em_frequency, C91_em_window_refuted, C91_em_short_refuted |
| C91 | FE | C91_least_squares, C91_final_energy, C91_absorption |
| C92 | FNEC | C92_hermite_functions, C92_moments, C92_closure |
| C92 | FNE | C92_legendre_functions, C92_saved_invariants, C92_legendre_projection, C92_coupling_gate, C92_coupling_value |
| C93 | FNE | C93_forces, C93_work, C93_penalty_leak, C93_skew, C93_hermite_midpoint, C93_hermite_reversible, C93_legendre_midpoint, C93_legendre_regular, C93_skew_path, C93_backward_euler, C93_backward_euler_refuted, C93_zero_field, C93_zero_field_refuted, C93_density_row, C93_grid_norm |
| C93 | F | C93_gamma_default |
| C94 | FNEC | C94_maxwellian, C94_roundoff_refuted, C94_hermite_equilibrium, C94_diffusion, C94_dougherty_equilibrium |
| C94 | FNE | C94_restore, C94_conservation, C94_bgk, C94_ou_operator, C94_hermite_exact, C94_legendre_weak, C94_drift, C94_field_unchanged |
| C95 | FNE | C95_correction, C95_split_conserves, C95_outputs, C95_gauss, C95_linear_means, C95_mass, C95_converged, C95_uniform, C95_diagnostics |
| C96 | FNE | C96_initial_distribution, C96_initial_mass, C96_mode_refuted, C96_initial_field, C96_driver, C96_reconstruction, C96_stored_coefficients, C96_seeded_diagnostics |
| C96 | FNEC | C96_initial_density, C96_projection, C96_neutral_refuted |
| C96 | FE | C96_times, C96_block_axis_refuted, C96_setup, C96_drift |
| C96 | - | C96_snapshots |
| C97 | FNE | C97_round_trip, C97_energy_series, C97_tpd, C97_tpd_pairs, C97_tpd_linear |
| C97 | FNEC | C97_band, C97_band_run, C97_landau, C97_energy, C97_dispersion, C97_quiet, C97_light, C97_light_memoryless, C97_light_off, C97_E2_refuted, C97_unused_terms_refuted |
| C98 | FNEC | C98_field, C98_single, C98_mean, C98_mean_refuted, C98_critical_refuted, C98_driver, C98_arbitrary, C98_arbitrary_refuted, C98_nominal, C98_plane |
| C98 | F | C98_one_color_refuted |
| C98 | FNE | C98_band, C98_alias_free, C98_isotropic_refuted |
| C99 | - | C99_smooth |
| C99 | FE | C99_grid, C99_requested_refuted, C99_times, C99_series_axis_refuted |
| C99 | FNEC | C99_absorb, C99_ok, C99_units, C99_collisions_refuted, C99_log_refuted |
| C99 | FNE | C99_linear, C99_density_refuted |
| C100 | FE | C100_times, C100_identity, C100_resample, C100_finer_refuted |
| C100 | FNE | C100_coarser_refuted, C100_spectra, C100_field_scale_refuted, C100_precision_refuted, C100_max_phi, C100_max_phi_refuted |
| C100 | - | C100_needs_y |
| C101 | FNEC | C101_beamlets, C101_energy, C101_peak, C101_norm_refuted, C101_plane_waves, C101_support_refuted, C101_bandwidth, C101_rms |
| C101 | FNE | C101_coverage |
| C102 | FNE | C102_grid, C102_temperature, C102_restoration, C102_conservation |
| C102 | FNEC | C102_tensor, C102_well_posed, C102_maxwellian, C102_sweeps, C102_sampled_maxwellian_refuted |
| C103 | FNEC | C103_requirements, C103_projection, C103_limit, C103_perpendicular, C103_number, C103_accumulators, C103_exists, C103_same_options_refuted, C103_initial_marginal, C103_initial_maxwellian |
| C104 | FE | C104_moments, C104_scalars, C104_energy, C104_pond, C104_split_quadratic |
| C104 | FNE | C104_perpendicular, C104_kinetic2, C104_samples, C104_samples2, C104_velocity_edges, C104_space_edges, C104_spectrum_refuted |
| C104 | FNEC | C104_run_constants, C104_split_wave, C104_split_refuted |
| C104 | - | C104_table_built, C104_table_holds, C104_fields_order_refuted, C104_dotted_names_refuted |
| C105 | FNE | C105_parseval, C105_wave, C105_shift, C105_complete, C105_axis, C105_screening |
| C105 | FNEC | C105_mean_mode |
| C105 | FE | C105_window, C105_window_refuted, C105_curve, C105_delta_f |
| C105 | - | C105_panels, C105_single_time_refuted |
| C106 | - | C106_component, C106_latest, C106_final_iter, C106_resolve, C106_laser_section, C106_elements_refuted, C106_lookup |
| C106 | FE | C106_field_energy, C106_total, C106_uniform, C106_averaged_refuted, C106_double_refuted, C106_streamed, C106_streamed_single_refuted, C106_split, C106_cadence_refuted, C106_derived, C106_courant_refuted, C106_steps |
| C106 | F | C106_last_iter |
| C106 | FNE | C106_reference, C106_box |
| C106 | FNEC | C106_laser |
| C107 | FNE | C107_vector_potential, C107_odd_grid, C107_uniform_refuted, C107_even_refuted |
| C108 | FNE | C108_gate, C108_rate, C108_ranges, C108_reversal, C108_extension, C108_extension_refuted, C108_shift_refuted, C108_summary |
| C108 | FE | C108_panels |
| C109 | FE | C109_split, C109_waves, C109_advect, C109_slabs, C109_disjoint_refuted, C109_density_found, C109_density_number, C109_density_charge, C109_density_sign_refuted, C109_temperature_uth, C109_temperature_trace, C109_column, C109_drift, C109_density_unit, C109_momentum_unit, C109_charge_sign, C109_local_refuted, C109_acoustic_formula, C109_electron_refuted |
| C109 | F | C109_slab_columns, C109_fallback_refuted |
| C109 | - | C109_deck_species |
| C109 | FNE | C109_speeds |
| C110 | - | C110_blocks, C110_every_cell_refuted, C110_times, C110_how_many, C110_from_path, C110_panel_number_refuted, C110_late_mean, C110_lineout_refuted |
| C110 | FE | C110_downsample, C110_axis, C110_untouched, C110_crop, C110_crop_whole, C110_crop_absent, C110_crop_refuted |
| C110 | FNEC | C110_limits |
| C110 | FNE | C110_zoom |
| C111 | FNE | C111_live, C111_precedence, C111_same_as_live, C111_run_or_binary, C111_parent_refuted |
| C111 | - | C111_cli |
| C112 | FNE | C112_diagnostics, C112_fields, C112_energy_refuted, C112_stored_coefficients |
| C112 | FE | C112_blocks, C112_default, C112_user_default_refuted, C112_times, C112_step_times_refuted |
| C112 | - | C112_all_stored |

Totals: FNE: 296, FNEC: 237, FE: 203, -: 145, F: 10.
