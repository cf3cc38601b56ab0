{"id": "C01", "title": "Rendered decks parse back to the same deck", "statement": "For every list of sections whose names are identifiers, whose keys are an identifier optionally followed by a parenthesised text free of ')', '!', quotes and line breaks and are unique inside a section, and whose values are booleans, integers, finite floats, strings free of double quotes and line breaks, None, or lists of at least two such atoms not ending in None, parse_deck(render_deck(sections)) returns exactly the same sections: same names in the same order, same keys in the same order, same values with the same types.", "quantifier": "all well-formed section lists (any number of sections, keys, list lengths, string contents)", "why_tests_cant": "the set of decks is infinite and the failure modes are combinations (quotes, commas, '=' inside strings, padding, adjacent keys) that examples sample only sparsely", "anchors": ["adept/osiris/deck.py:parse_deck", "adept/osiris/deck.py:render_deck", "adept/osiris/deck.py:_render_value", "adept/osiris/deck.py:_parse_value", "adept/osiris/deck.py:_split_top_commas", "adept/osiris/deck.py:_strip_comment"]}
{"id": "C02", "title": "parse(render(parse(text))) == parse(text)", "statement": "The module docstring's invariant: for every deck text that parses, rendering the parsed deck and parsing it again gives the same parsed deck. Expected outcome: false in general (three independent counterexamples: a value with a trailing empty list element, a float that overflows to inf, a single-quoted string holding a double quote), true whenever the parsed deck is well-formed in the sense of C01.", "quantifier": "all deck texts accepted by parse_deck", "why_tests_cant": "the invariant quantifies over all texts; the repository's tests check a handful of real decks, all of which satisfy it", "anchors": ["adept/osiris/deck.py:parse_deck", "adept/osiris/deck.py:render_deck"]}
{"id": "C03", "title": "Overrides change exactly the requested parameters", "statement": "After merge_overrides(sections, overrides) succeeds: the section names and their order are unchanged; a section whose name is not in overrides is unchanged; for an indexed override only the addressed occurrence changes; inside a touched section every key that no override key resolves to keeps its value and its position; every override key resolves to exactly one key, which holds the override value.", "quantifier": "all section lists and all override dictionaries", "why_tests_cant": "needs the frame condition (everything else unchanged) for every deck and override, not only the inspected keys", "anchors": ["adept/osiris/deck.py:merge_overrides", "adept/osiris/deck.py:_merge_params", "adept/osiris/deck.py:_find_param_key"]}
{"id": "C04", "title": "Overrides are rejected exactly when they do not resolve", "statement": "merge_overrides raises KeyError if some override names a section that does not occur, IndexError if an integer index is negative or not below the number of occurrences, ValueError if a base name matches two or more existing keys and is not itself a key; in every other case it succeeds.", "quantifier": "all section lists and all override dictionaries", "why_tests_cant": "exactness (raises if and only if) ranges over all inputs", "anchors": ["adept/osiris/deck.py:merge_overrides", "adept/osiris/deck.py:_find_param_key"]}
{"id": "C05", "title": "Flat deck parameter names are MLflow-safe", "statement": "Every name the sanitizer produces is non-empty, uses only letters, digits and '_ . / : - space', contains no '__', neither starts nor ends with '_' unless it is the single character '_', and sanitizing it again changes nothing.", "quantifier": "all strings", "why_tests_cant": "infinitely many keys; idempotence is a two-step property", "anchors": ["adept/osiris/deck.py:_sanitize_key", "adept/osiris/deck.py:deck_to_flat_dict"]}
{"id": "C06", "title": "No deck parameter disappears from the flat dictionary", "statement": "deck_to_flat_dict keeps one entry per scalar parameter and one per list element. Expected outcome: false in general (two keys that sanitize to the same name overwrite each other silently); true when the sanitized prefixed names are pairwise distinct.", "quantifier": "all section lists", "why_tests_cant": "collisions depend on pairs of keys over the whole deck", "anchors": ["adept/osiris/deck.py:deck_to_flat_dict", "adept/osiris/deck.py:_sanitize_key"]}
{"id": "C07", "title": "Comments never influence a parsed deck", "statement": "Appending '!' followed by arbitrary text (without line breaks) to a deck line whose quotes are balanced does not change what the parser sees; a '!' inside a quoted string is kept.", "quantifier": "all lines and all comment texts", "why_tests_cant": "arbitrary comment text, including quotes, braces, commas and '='", "anchors": ["adept/osiris/deck.py:_strip_comment", "adept/osiris/deck.py:parse_deck"]}
{"id": "C08", "title": "Batching in StreamWriter is invisible", "statement": "For every chunk size, every sequence of append / flush calls and a final close, the NetCDF time series on disk equals the appended dumps in append order: same rows, same times, same iterations, same per-dump bounds, each exactly once, whatever the batch boundaries were.", "quantifier": "all chunk sizes and all append/flush histories", "why_tests_cant": "depends on how flushes interleave with partial batches", "anchors": ["adept/osiris/stream.py:StreamWriter.append", "adept/osiris/stream.py:StreamWriter._write_batch", "adept/osiris/stream.py:StreamWriter.flush", "adept/osiris/stream.py:StreamWriter.close"]}
{"id": "C09", "title": "Restarting a writer neither repeats nor skips dumps", "statement": "If the process dies after any prefix of append/flush calls (losing the in-memory batch), reopening the file and feeding all dumps of the series in iteration order, skipping those at or below the recovered last iteration, ends with exactly the full series in order, once each. Expected outcome: true for crashes between two writer calls; false for a crash inside a batch landing (the enlarged but unfilled rows survive).", "quantifier": "all strictly increasing dump series, chunk sizes, histories and crash points", "why_tests_cant": "a crash may happen at any point of any history", "anchors": ["adept/osiris/stream.py:StreamWriter.__init__", "adept/osiris/stream.py:StreamWriter.last_iter", "adept/osiris/stream.py:StreamConverter._drain_grid"]}
{"id": "C10", "title": "Streaming equals batch conversion, whatever the schedule", "statement": "For every interleaving of OSIRIS writing dumps (increasing iterations) with watcher scans, in every mode (in place, staged with mirroring, staged with discard), with spilling triggered at any scan, followed by finalize: the NetCDF of a diagnostic holds exactly its readable dumps, in iteration order, once each. Expected outcome: true while no NetCDF write fails; false if a staged converter is restarted after a spill, or if a half-written first dump looks like a RAW dump.", "quantifier": "all dump sequences, all placements of scans, all spill decisions, all sets of unreadable dumps", "why_tests_cant": "schedules and spill points are unbounded", "anchors": ["adept/osiris/stream.py:StreamConverter._drain_grid", "adept/osiris/stream.py:StreamConverter._open_writer", "adept/osiris/stream.py:StreamConverter.finalize", "adept/osiris/stream.py:StreamConverter._scan_once"]}
{"id": "C11", "title": "The watcher never touches the dump OSIRIS is writing", "statement": "While the run is alive a scan never reads, mirrors, deletes or renames the highest-iteration dump of a diagnostic directory, and leaves its contents alone. Expected outcome: true except for the one-off classification peek, which opens the lowest dump even when it is the only one.", "quantifier": "all schedules of dumps and scans", "why_tests_cant": "a race: only a schedule-quantified statement covers it", "anchors": ["adept/osiris/stream.py:StreamConverter._drain_grid", "adept/osiris/stream.py:StreamConverter._drain_raw"]}
{"id": "C12", "title": "Staging never loses a dump", "statement": "In staging mode with mirroring, at every point between two file operations every complete dump produced so far exists in the scratch or (complete) in the persist tree. In discard mode the same with the NetCDF file counted as durable. Expected outcome: true with mirroring; false in discard mode, where rows are buffered in memory after their HDF5 was deleted.", "quantifier": "all schedules and all crash points", "why_tests_cant": "crash points inside a drain are not reachable by unit tests", "anchors": ["adept/osiris/stream.py:StreamConverter._reap", "adept/osiris/stream.py:StreamConverter._cleanup_consumed", "adept/osiris/stream.py:StreamWriter.append"]}
{"id": "C13", "title": "Mirrored dumps are published atomically", "statement": "If mirroring a dump stops after any of its file operations, the visible mirror copy is either absent or byte-identical to the scratch dump, and the scratch copy is still there unless the mirror copy is complete; retrying completes the mirror. Expected outcome: true unless the mirror already holds another file of that name, which is kept while the scratch dump is deleted.", "quantifier": "all crash points of a reap, all file contents, all prior states of the destination", "why_tests_cant": "crash-point quantification", "anchors": ["adept/osiris/stream.py:StreamConverter._reap"]}
{"id": "C14", "title": "A failed stream falls back to a complete conversion", "statement": "If streaming a diagnostic fails part-way, the saved NetCDF produced by post-processing still holds every readable dump. Expected outcome: false - the partial NetCDF left behind is copied as if it were complete.", "quantifier": "all failure points", "why_tests_cant": "needs the composition of the converter's error path with post-processing", "anchors": ["adept/osiris/stream.py:StreamConverter._scan_once", "adept/osiris/io.py:save_run_datasets"]}
{"id": "C15", "title": "finalize only reports diagnostics it fully converted", "statement": "Every relpath returned by finalize names a NetCDF that contains all readable dumps. Expected outcome: false when the final sweep itself raises - every open writer is reported complete.", "quantifier": "all states at finalize time", "why_tests_cant": "depends on the error path of the final sweep", "anchors": ["adept/osiris/stream.py:StreamConverter.finalize"]}
{"id": "C16", "title": "A run raises exactly when it failed and left nothing behind", "statement": "run_osiris raises RuntimeError iff (the exit code is non-zero, or it is zero and an error line is found in the captured tails) and neither MS/*.h5, binary/*.nc nor any HIST entry exists; otherwise it returns crashed = (that failure condition) with the exit code unchanged.", "quantifier": "all exit codes, output lines and output trees", "why_tests_cant": "full decision table over unbounded line lists", "anchors": ["adept/osiris/runner.py:run_osiris", "adept/osiris/runner.py:_run_produced_output", "adept/osiris/runner.py:_looks_like_osiris_error"]}
{"id": "C17", "title": "The log tail is the last lines of the stream", "statement": "After any stream of lines the log file holds all lines in order and the in-memory tail holds exactly the last min(n, 200) of them.", "quantifier": "all line sequences", "why_tests_cant": "unbounded streams", "anchors": ["adept/osiris/runner.py:_stream_to_file_and_buffer"]}
{"id": "C18", "title": "OSIRIS-reported errors are detected", "statement": "If OSIRIS prints an (*error*) line on stdout and exits 0, the run is classified as crashed. Expected outcome: false when 200 or more lines follow the error line, and false for an upper-case spelling on stdout; true when an (*error*) line is among the last 200.", "quantifier": "all output histories", "why_tests_cant": "long outputs", "anchors": ["adept/osiris/runner.py:run_osiris", "adept/osiris/runner.py:_stream_to_file_and_buffer"]}
{"id": "C19", "title": "Binary discovery follows its precedence", "statement": "discover_binary returns the first existing path among: configured path, OSIRIS_BIN_<dim>D, OSIRIS_BIN; it raises iff none exists. (In particular a configured path that does not exist is skipped silently.)", "quantifier": "all configurations, environments and file systems", "why_tests_cant": "all combinations", "anchors": ["adept/osiris/runner.py:discover_binary"]}
{"id": "C20", "title": "The final sync is complete and never overwrites", "statement": "After folding the scratch into the durable directory every scratch file exists in the durable directory; files that existed there keep their content; others have the scratch content; nothing else appears. When a copy fails nothing is overwritten, but the scratch is deleted all the same (data lost): expected false for 'a staged run keeps every file' unless no copy fails.", "quantifier": "all pairs of file trees", "why_tests_cant": "all trees", "anchors": ["adept/osiris/runner.py:_sync_tree"]}
{"id": "C21", "title": "Dump series partition the directory", "statement": "Grouping a directory's .h5 files by base name puts every .h5 file in exactly one series, no other file in any, and each series is sorted by iteration number.", "quantifier": "all directory listings", "why_tests_cant": "all names", "anchors": ["adept/osiris/io.py:_series_dumps", "adept/osiris/io.py:_dump_base", "adept/osiris/io.py:_iter_from_name", "adept/osiris/io.py:_sort_dumps"]}
{"id": "C22", "title": "Time-slice selection is exact", "statement": "Selecting time indices (negative allowed) returns exactly the requested slices in the requested order, and raises iff some index is out of range or the selection is empty.", "quantifier": "all index lists and series lengths", "why_tests_cant": "all integers", "anchors": ["adept/osiris/io.py:_normalize_t_indices", "adept/osiris/io.py:load_series"]}
{"id": "C23", "title": "Dropping the initial RAW dump never empties a series", "statement": "load_raw_series(drop_initial=True) removes only iteration-0 dumps, keeps the order of the others and never returns an empty selection for a non-empty directory.", "quantifier": "all dump lists", "why_tests_cant": "all lists", "anchors": ["adept/osiris/io.py:load_raw_series"]}
{"id": "C24", "title": "Box scaling realises the requested gradient scale length", "statement": "When adaptive box sizing succeeds, the rescaled ramp (straight between its second and last but one control points) has L(n_ref) equal to the requested length, up to the rounding to ten decimals; every length (box, profile abscissae of all profiles, phase-space windows) is multiplied by the same factor; the cell count is a positive multiple of the node count, at least the scaled cell count and less than one node count above its ceiling; no other section or key changes; and the feature does nothing when not requested. Expected outcome: false for ramps with a bend, for non-positive lengths (the cell count is then not positive), and a failure can leave the deck half changed.", "quantifier": "all decks and density blocks (positive length, increasing ramp)", "why_tests_cant": "real-valued inputs and arbitrary decks", "anchors": ["adept/osiris/density.py:apply_gradient_scale_length", "adept/osiris/density.py:_round_up_multiple", "adept/osiris/density.py:_scale_array"]}
{"id": "C25", "title": "Every configuration parameter is logged", "statement": "log_params sends every flattened entry to MLflow exactly once. Expected outcome: false for more than 100 entries - the number of batches is n mod 100, so e.g. 101 entries lose one and 200 entries log nothing; the exact condition is proved.", "quantifier": "all configurations", "why_tests_cant": "only certain sizes fail", "anchors": ["adept/utils.py:log_params"]}
{"id": "C26", "title": "Flattening a configuration is lossless", "statement": "flatten_dict has exactly one entry per leaf, named by its path, with the leaf's value, provided no key contains the delimiter or is empty; without that proviso entries can overwrite each other.", "quantifier": "all nested dictionaries", "why_tests_cant": "unbounded nesting", "anchors": ["adept/utils.py:flatten_dict"]}
{"id": "C27", "title": "Gradient averaging is the NaN-aware clipped mean", "statement": "For two or more devices each averaged leaf is the sum of the non-NaN contributions divided by the number of devices and clipped to [-1000, 1000]; a leaf that is NaN on every device stays NaN; a leaf missing everywhere stays missing. For one device the call fails (unassigned local), although one device is in its documented domain.", "quantifier": "all gradient lists and leaves", "why_tests_cant": "all NaN patterns", "anchors": ["adept/utils.py:all_reduce_gradients"]}
{"id": "C28", "title": "Artifact upload retries are bounded and stop at the first success", "statement": "robust_log_artifacts tries at most `retries` times, performs no upload after the first success, and never raises.", "quantifier": "all failure patterns and retry counts", "why_tests_cant": "all failure sequences", "anchors": ["adept/utils.py:robust_log_artifacts"]}
{"id": "C29", "title": "Run ids survive the int8 encoding", "statement": "Converting a run id to an array of signed bytes and back is the identity on every byte string.", "quantifier": "all byte strings", "why_tests_cant": "all bytes", "anchors": ["adept/mlflow_logging.py:MLRunId"]}
{"id": "C30", "title": "Simulation lifecycle order", "statement": "ergoExo refuses to run before setup; setup runs the module hooks in the documented order, works on a copy of the user's configuration, and the config.yaml artifact is the configuration as given even if the module mutates its copy.", "quantifier": "all modules (arbitrary hook effects) and call sequences", "why_tests_cant": "arbitrary user modules", "anchors": ["adept/_base_.py:ergoExo.setup", "adept/_base_.py:ergoExo._setup_", "adept/_base_.py:ergoExo.__call__"]}
{"id": "C31", "title": "Solver selection and precision guard", "statement": "A solver name selects exactly its documented module; any unknown name raises NotImplementedError; every solver except envelope-2d raises RuntimeError when float64 is off.", "quantifier": "all solver names and both precision settings", "why_tests_cant": "all strings", "anchors": ["adept/_base_.py:ergoExo._get_adept_module_"]}
{"id": "C32", "title": "Collision operators conserve density", "statement": "For a velocity-independent collision frequency, any solution of the implicit Chang-Cooper, log-mean or central-difference step has exactly the same total density as the old distribution, for every drift, diffusion, time step and distribution. Expected outcome for a velocity-dependent frequency (row scaling): false.", "quantifier": "all grid sizes, coefficients, time steps, distributions", "why_tests_cant": "real-valued inputs and every grid size", "anchors": ["adept/driftdiffusion.py:ChangCooper.get_operator", "adept/driftdiffusion.py:LogMeanFlux.get_operator", "adept/driftdiffusion.py:CentralDifferencing.get_operator"]}
{"id": "C33", "title": "Chang-Cooper keeps distributions non-negative", "statement": "With non-negative frequency and time step, the implicit Chang-Cooper step maps a non-negative distribution to a non-negative one, whatever the drift and diffusion; the implicit system has a unique solution.", "quantifier": "all grid sizes, coefficients, time steps and non-negative distributions", "why_tests_cant": "universal over reals", "anchors": ["adept/driftdiffusion.py:ChangCooper.get_operator", "adept/driftdiffusion.py:chang_cooper_delta"]}
{"id": "C34", "title": "Chang-Cooper preserves the discrete Maxwellian exactly", "statement": "With the beta-based drift C = 2 beta D (v_edge - vbar), f = exp(-beta (v - vbar)^2) on a uniform grid is a fixed point of the implicit step for every time step and frequency (whenever no edge Peclet number falls in the series branch).", "quantifier": "all beta, D, vbar, grids, time steps", "why_tests_cant": "real-valued", "anchors": ["adept/driftdiffusion.py:ChangCooper.get_operator", "adept/driftdiffusion.py:AbstractBetaBasedModel.compute_C_and_D"]}
{"id": "C35", "title": "Chang-Cooper weights are convex", "statement": "The weight delta(w) lies strictly between 0 and 1, delta(w) + delta(-w) = 1, and for w <> 0 it differs from 1/w - 1/(e^w - 1) by at most 1e-16.", "quantifier": "all real w", "why_tests_cant": "all reals", "anchors": ["adept/driftdiffusion.py:chang_cooper_delta"]}
{"id": "C36", "title": "Particle deposition conserves charge", "statement": "For each of the three shapes, dx times the sum of the deposited density equals the sum of particle weights, for every set of particles at any positions (inside or outside the box), any grid size; with non-negative weights the density is non-negative.", "quantifier": "all particle sets, grid sizes, positions", "why_tests_cant": "every position including cell boundaries and ties", "anchors": ["adept/_pic1d/solvers/pushers/shape.py:deposit", "adept/_pic1d/solvers/pushers/shape.py:_shape_indices_weights"]}
{"id": "C37", "title": "Gather reproduces constants and is adjoint to deposit", "statement": "Gathering a constant field gives that constant at every position; for every field and particle set, the weighted sum of gathered values equals dx times the grid inner product of field and deposited density; a gathered value lies between the extrema of the field.", "quantifier": "all fields, particle sets, shapes", "why_tests_cant": "universal", "anchors": ["adept/_pic1d/solvers/pushers/shape.py:gather", "adept/_pic1d/solvers/pushers/shape.py:deposit"]}
{"id": "C38", "title": "Drift keeps particles in the box and touches nothing else", "statement": "After a drift every position lies in [xmin, xmax), differs from x + dt v by an integer number of box lengths, and velocities and weights are unchanged.", "quantifier": "all particles, time steps of either sign, boxes", "why_tests_cant": "all reals", "anchors": ["adept/_pic1d/solvers/pushers/push.py:_drift"]}
{"id": "C39", "title": "The leapfrog step is time reversible", "statement": "Applying a leapfrog step with dt and then one with -dt returns every particle (started inside the box) to its initial position and velocity, for every time-dependent field obtained from positions; likewise for the 4th-order composition.", "quantifier": "all field functions, particle states, time steps", "why_tests_cant": "arbitrary fields", "anchors": ["adept/_pic1d/solvers/pushers/push.py:LeapfrogIntegrator", "adept/_pic1d/solvers/pushers/push.py:Yoshida4Integrator"]}
{"id": "C40", "title": "Yoshida substeps add up", "statement": "The three substeps of the 4th-order integrator sum to dt, the sum of their cubes is zero, and each substep starts where the previous one ended.", "quantifier": "all dt", "why_tests_cant": "real-valued algebra", "anchors": ["adept/_pic1d/solvers/pushers/push.py:Yoshida4Integrator"]}
{"id": "C41", "title": "Weights are constant and momentum balances", "statement": "No push changes particle weights; a kick changes total momentum by dt times the grid integral of charge density times field, so without driver and laser, and with no or a uniform static background, total momentum is exactly conserved over any number of steps of either integrator; a non-uniform background breaks this.", "quantifier": "all particle sets, fields and step counts", "why_tests_cant": "universal", "anchors": ["adept/_pic1d/solvers/pushers/push.py:_Kicker.apply", "adept/_pic1d/solvers/pushers/push.py:LeapfrogIntegrator"]}
{"id": "C42", "title": "Time grids respect CFL and cover the requested time", "statement": "With the EM override the time step never exceeds 0.95 dx / c nor the requested step; the number of steps times the step is greater than the requested end time by at most one step; the saved time axis is not spaced by dt (spacing dt*nt/(nt-1)).", "quantifier": "all grid configurations", "why_tests_cant": "real-valued", "anchors": ["adept/_vlasov1d/grid.py:Grid"]}
{"id": "C43", "title": "Cubic velocity advection is exact where it should be", "statement": "A zero shift returns f unchanged; a shift by a whole number of cells moves the values exactly, filling 1e-30 outside; constant and linear data are reproduced exactly inside the grid, quadratic data away from the end segments; every query outside the grid gets 1e-30; for data that vanish near the ends the density, momentum and energy of a row are exactly those of the shifted data (plus the 1e-30 fill). Positivity is not preserved.", "quantifier": "all grid sizes, shifts and rows", "why_tests_cant": "real-valued", "anchors": ["adept/_vlasov1d/solvers/pushers/vlasov.py:_uniform_cubic_interp"]}
{"id": "C44", "title": "Envelopes stay within their bounds", "statement": "A bump or trough envelope with positive rise and non-negative width and height stays between baseline and baseline + height; bump and trough add up to 2*baseline + height.", "quantifier": "all parameters and positions", "why_tests_cant": "all reals", "anchors": ["adept/functions.py:EnvelopeFunction"]}
{"id": "C45", "title": "Every dump on disk is listed and loads back", "statement": "list_diagnostics lists every .h5 dump under exactly one key, and loading that key's handle reads exactly the series the dump belongs to; every other entry is a streamed NetCDF whose key has no dumps. Expected outcome: false when a directory holding several series has a subdirectory named like one of them.", "quantifier": "all directory trees", "why_tests_cant": "all trees and names", "anchors": ["adept/osiris/io.py:list_diagnostics", "adept/osiris/io.py:_resolve_series", "adept/osiris/io.py:_sort_dumps"]}
{"id": "C46", "title": "Autoscaled axes are reported alike by all three storage paths", "statement": "Whether an axis is reported autoscaled is the same for the raw dumps, the batch NetCDF and the streamed NetCDF, and physical_axis returns the slice's own bounds whenever the axis moves (and bounds close to them otherwise).", "quantifier": "all sequences of per-dump bounds, all time indices", "why_tests_cant": "all series", "anchors": ["adept/osiris/io.py:load_series", "adept/osiris/io.py:physical_axis", "adept/osiris/io.py:_series_da_from_dataset", "adept/osiris/stream.py:StreamWriter"]}
{"id": "C47", "title": "HIST tables are read exactly", "statement": "A HIST table whose numeric rows all have the same width >= 2 is read exactly; comments, blank and header lines contribute nothing. Expected outcome: false when the last line is cut off below two columns - the whole table is dropped.", "quantifier": "all line lists", "why_tests_cant": "all tables", "anchors": ["adept/osiris/io.py:_parse_hist_table"]}
{"id": "C48", "title": "Scalar filtering keeps exactly the scalars", "statement": "filter_scalars keeps every scalar leaf at its path with its value, keeps nothing else, and leaves no empty dictionary behind.", "quantifier": "all nested dictionaries and any notion of scalar", "why_tests_cant": "unbounded nesting", "anchors": ["adept/utils.py:filter_scalars"]}
{"id": "C49", "title": "Kernel collision models conserve energy and keep Maxwellians", "statement": "With a kernel-based model (AsymptoticLocal or Coulombian) on a uniform positive speed grid: the edge value of the log-mean scheme is exactly the logarithmic mean used by the diffusion coefficient; the right-hand side of the log-mean scheme carries no energy (its fourth velocity moment is zero) for every distribution above the floors; and a Maxwellian is returned unchanged by the Chang-Cooper step and is a solution of the log-mean step.", "quantifier": "all grids, distributions above the floors, time steps, coefficients", "why_tests_cant": "energy conservation is a bilinear symmetry between two kernel sums that must hold for every distribution; a test sees one", "anchors": ["adept/driftdiffusion.py:LogMeanFlux.get_operator", "adept/driftdiffusion.py:AbstractKernelBasedModel", "adept/vfp1d/fokker_planck.py:CoulombianKernel", "adept/vfp1d/fokker_planck.py:AsymptoticLocal"]}
{"id": "C50", "title": "Dougherty central step: exact momentum and energy balance", "statement": "For the central-difference Dougherty step the change of total momentum is given exactly by the contents of the two boundary cells, and the change of energy by the same boundary terms plus 2 dt nu n (D - dv^2/4 - T): energy is conserved only if D = T + dv^2/4, not if D equals the temperature.", "quantifier": "all grids, distributions with non-zero density, temperatures, time steps", "why_tests_cant": "an identity over all distributions and steps; a test with a tolerance hides the dv^2/4 drift", "anchors": ["adept/_vlasov1d/solvers/pushers/fokker_planck.py:Dougherty", "adept/driftdiffusion.py:CentralDifferencing.get_operator", "adept/driftdiffusion.py:AbstractBetaBasedModel.compute_C_and_D"]}
{"id": "C51", "title": "dougherty_nodrag conserves density; its Maxwellian is not a fixed point", "statement": "The dougherty_nodrag step conserves density exactly, and momentum and energy up to the boundary cells of the deviation; the code comment that the Maxwellian is a discrete fixed point is false: it is returned unchanged only if it is constant.", "quantifier": "all grids, distributions, parameters, time steps", "why_tests_cant": "the deviation is second order in dt, below the tolerance of a test", "anchors": ["adept/_vlasov1d/solvers/pushers/fokker_planck.py:Collisions._apply_collisions"]}
{"id": "C52", "title": "Krook relaxation", "statement": "A Krook step conserves density exactly, keeps non-negative distributions non-negative, brings every cell closer to the Maxwellian of the same density by the factor exp(-nu dt), and two steps equal one step of the summed time.", "quantifier": "all grids, distributions, frequencies and time steps", "why_tests_cant": "quantifies over all distributions and step sizes", "anchors": ["adept/_vlasov1d/solvers/pushers/fokker_planck.py:Krook.__call__"]}
{"id": "C53", "title": "Spectral Poisson solve", "statement": "The field returned by the spectral Poisson solver has zero mean, exerts no net force on the total charge that produced it, satisfies Gauss's law for every resolved wave, solves every single resolved wave exactly and is linear; a uniform background changes nothing and, on an even grid, the shortest wave is dropped.", "quantifier": "all charge densities, grid sizes, static backgrounds, phases", "why_tests_cant": "quantifies over all charge densities and grid sizes", "anchors": ["adept/_pic1d/solvers/pushers/field.py:SpectralPoissonSolver", "adept/_vlasov1d/grid.py:Grid", "adept/_vlasov1d/solvers/pushers/field.py:SpectralPoissonSolver"]}
{"id": "C54", "title": "Density profiles realise their documented shape", "statement": "The exponential profile has gradient scale length L everywhere and the requested value at its centre; the sinusoidal profile stays within baseline (1 +- amplitude) and has the requested period; the linear profile has the requested value at its centre. Expected outcome: false that the linear profile has the requested gradient scale length - it has val * L, so the request is met only when the value at the centre is 1.", "quantifier": "all parameters and positions", "why_tests_cant": "real-valued", "anchors": ["adept/functions.py:LinearFunction", "adept/functions.py:ExponentialFunction", "adept/functions.py:SineFunction"]}
{"id": "C55", "title": "The launch command and the fate of the working directories", "statement": "With one rank (or fewer) OSIRIS is started as the bare binary; with more, as launcher -n ranks, every extra argument in order, and the binary last. A run that is not staged (no stage root, or streaming off) moves and deletes nothing; a staged run always leaves its scratch reclaimed, also when it raises.", "quantifier": "all arguments, outcomes and file trees", "why_tests_cant": "quantifies over all argument lists and outcomes", "anchors": ["adept/osiris/runner.py:run_osiris"]}
{"id": "C56", "title": "Spectral free streaming", "statement": "The exponential space pusher conserves the number of particles of every velocity class, moves a whole number of cells exactly, moves every resolved wave exactly, never increases the energy norm, is linear, and two steps (or a step and its reverse) compose for data without the shortest wave. Expected outcome: false in general for composition and positivity; with an odd cell count one cell is lost.", "quantifier": "all grids, distributions, time steps, waves", "why_tests_cant": "quantifies over all distributions and steps", "anchors": ["adept/_vlasov1d/solvers/pushers/vlasov.py:SpaceExponential"]}
{"id": "C57", "title": "Spectral acceleration", "statement": "The exponential velocity pusher conserves the density in every cell, moves a whole number of velocity cells exactly (periodically), does nothing without force, composes like the space pusher, and never increases the norm. Expected outcome: false that accelerated particles never get slower - the top class wraps round to the bottom.", "quantifier": "all distributions, fields, charges, masses, steps", "why_tests_cant": "quantifies over all distributions and fields", "anchors": ["adept/_vlasov1d/solvers/pushers/vlasov.py:VelocityExponential"]}
{"id": "C58", "title": "Hou-Li filter", "statement": "The filter conserves the mean, multiplies every wave by its documented factor exp(-alpha (k/kmax)^order), never increases the norm for alpha >= 0, is the identity for alpha = 0 and commutes with free streaming; order 0 and negative alpha are not rejected and break conservation and stability.", "quantifier": "all distributions, strengths and orders", "why_tests_cant": "quantifies over all distributions", "anchors": ["adept/_vlasov1d/solvers/pushers/vlasov.py:HouLiFilter"]}
{"id": "C59", "title": "Field solvers of the Vlasov solver", "statement": "Charge and current densities are charge-weighted sums over species in any order; a plasma of uniform total charge has no Poisson field; the Boltzmann-electron field is the screened response (1 + lambda^2 k^2) E_k = -ik (Te/rho0) rho_k without mean field or shortest wave; the Ampere step changes the field per unit time by minus the total current, so a velocity-symmetric plasma drives no Ampere field; the ponderomotive force is -1/2 d(a^2)/dx for quadratic a^2.", "quantifier": "all densities, grids and parameters", "why_tests_cant": "quantifies over all distributions", "anchors": ["adept/_vlasov1d/solvers/pushers/field.py:SpectralPoissonSolver", "adept/_vlasov1d/solvers/pushers/field.py:BoltzmannPoissonSolver", "adept/_vlasov1d/solvers/pushers/field.py:AmpereSolver", "adept/_vlasov1d/solvers/pushers/field.py:ElectricFieldSolver"]}
{"id": "C60", "title": "Hamiltonian Ampere keeps Gauss's law", "statement": "With the Hamiltonian Ampere solver the leapfrog scheme leaves the residual of Gauss's law unchanged for every resolved wave, step after step, for every distribution, step size, driver and initial field, and it never creates a mean field.", "quantifier": "all runs of any length, all drivers", "why_tests_cant": "an invariant over all histories", "anchors": ["adept/_vlasov1d/solvers/pushers/field.py:HampereSolver", "adept/_vlasov1d/solvers/vector_field.py:LeapfrogIntegrator"]}
{"id": "C61", "title": "Vlasov time steps", "statement": "Leapfrog and sixth-order steps conserve the number of particles of every species for every solver and driver, over any number of steps; with the Poisson solver the returned field is that of the returned distributions; exactly the unsupported solver combinations are refused; the sixth-order sub-steps start at 0, end at dt, advance by the drifts and are symmetric. Expected outcome: false that the kicks add up to one time step.", "quantifier": "all runs, species, drivers, fields", "why_tests_cant": "quantifies over all histories", "anchors": ["adept/_vlasov1d/solvers/vector_field.py:LeapfrogIntegrator", "adept/_vlasov1d/solvers/vector_field.py:SixthOrderHamIntegrator"]}
{"id": "C63", "title": "Laser envelope: explicit wave equation", "statement": "Inside the box every step of the vector-potential solver satisfies the centred second-difference wave equation with the plasma and source terms; it is linear in potential and source, unaffected by mirroring, reversible in the interior; a wave obeys the numerical dispersion relation and is unstable above the Courant limit; at courant number 1 the boundaries absorb arriving pulses exactly and a point source radiates in both directions. Expected outcome: false that the time step imposed by the code guarantees stability once the plasma term is included.", "quantifier": "all potentials, sources, densities, grids and steps", "why_tests_cant": "quantifies over all fields and step counts", "anchors": ["adept/_vlasov1d/solvers/pushers/field.py:WaveSolver", "adept/_vlasov1d/modules.py:BaseVlasov1D.get_derived_quantities"]}
{"id": "C64", "title": "Drivers: fields, wave parameters and stochastic modes", "statement": "Longitudinal drivers superpose in any order and travel at w0/k0 apart from their envelopes; a transverse driver is a point source at exactly one cell, the one nearest its position; intensity/wavelength drivers give the wave of the stated frequency and amplitude; the stochastic driver interpolates linearly between independently drawn amplitudes, is periodic in the box, has no mean field and its root-mean-square value is the requested one. Expected outcome: false that giving only one of k0 and w0 infers the other, false that modes above the grid limit are rejected, false that the update interval is validated.", "quantifier": "all drivers, times, positions, random draws", "why_tests_cant": "quantifies over all driver parameters and random draws", "anchors": ["adept/_vlasov1d/solvers/pushers/field.py:Driver", "adept/_vlasov1d/simulation.py:EMDriver", "adept/_vlasov1d/solvers/pushers/field.py:StochasticDriver"]}
{"id": "C67", "title": "Normalisations", "statement": "The Debye, skin-depth and laser normalisations are mutually consistent (velocity = length / time, the plasma frequency or laser frequency is one, lengths are the named physical lengths) and converting a physical quantity to normalised units is division by the corresponding unit.", "quantifier": "all positive densities, temperatures, wavelengths", "why_tests_cant": "real-valued", "anchors": ["adept/normalization.py:PlasmaNormalization", "adept/normalization.py:normalize"]}
{"id": "C62", "title": "Initial distributions and species", "statement": "Every species' initial distribution has, in every cell, the density of the profile plus the requested noise (within the uniform band), is non-negative where the density is, and is symmetric about its drift velocity; a single electron species gets a neutralising background and several species none; the initial state holds every species and the fields. Expected outcome: false that Gaussian noise keeps the density non-negative, that a single ion species is neutralised with the right sign, that two components of equal name are both counted, that a one-cell grid honours the profile, and that a species may carry any name.", "quantifier": "all profiles, grids, species lists, noise draws", "why_tests_cant": "quantifies over all configurations and random draws", "anchors": ["adept/_vlasov1d/helpers.py:_initialize_distribution_", "adept/_vlasov1d/helpers.py:_initialize_total_distribution_", "adept/_vlasov1d/modules.py:BaseVlasov1D.init_state_and_args"]}
{"id": "C66", "title": "Collision temperature and self-consistent beta", "statement": "The collision operator's inverse temperature is recovered from the distribution; the refined value is the unique one whose target has the discrete temperature of the distribution, and with it a sampled Maxwellian or super-Gaussian is exactly stationary and the energy of the super-Gaussian operator does not drift. Expected outcome: false that the default, unrefined value leaves a sampled Maxwellian unchanged.", "quantifier": "all distributions, grids, exponents and time steps", "why_tests_cant": "quantifies over all distributions", "anchors": ["adept/driftdiffusion.py:discrete_temperature", "adept/driftdiffusion.py:find_self_consistent_beta", "adept/_vlasov1d/solvers/pushers/fokker_planck.py:SuperGaussian"]}
{"id": "C65", "title": "The complete Vlasov-1D time step", "statement": "Over any number of steps, with any collision operator, Krook term, filter of order at least one, drivers and field solver, every species keeps its name, grid and number of particles; collisions act only on the species named electron (otherwise the first) and change no density, field or potential; new distribution = old + dt (diag-vlasov-dfdt + diag-fp-dfdt); with the Poisson solver the returned field is that of the returned distributions (unless the filter is on); an undriven uniform plasma does not change; without transverse drivers the potential stays zero; Chang-Cooper collisions have a unique non-negative result; unknown collision names are refused even when switched off. Expected outcome: false that diag-fp-dfdt is the collisional rate alone.", "quantifier": "all runs of any length, species, drivers, configurations", "why_tests_cant": "invariants over all histories", "anchors": ["adept/_vlasov1d/solvers/vector_field.py:VlasovPoissonFokkerPlanck", "adept/_vlasov1d/solvers/vector_field.py:VlasovMaxwell", "adept/_vlasov1d/solvers/pushers/fokker_planck.py:Collisions"]}
{"id": "C68", "title": "PIC loaders: particle numbers, weights, positions", "statement": "The loaders share the requested particles per cell among the components in proportion to density and never lose or add particles; the quiet loader's particles carry the requested density, are uniform in space for a flat profile, and positions follow the inverse cumulative density; random loading gives equal weights adding up to the profile's integral; rejection-sampled velocities lie inside the box; a neutralising background cancels the deposited charge so that a freshly loaded uniform plasma has no field; equal seeds give equal particles. Expected outcome: false that a very small last component is loaded, that components are never dropped, that a drifting quiet start carries its drift, that random positions reach the box edges, and that quiet weights are exact with several components.", "quantifier": "all densities, grids, seeds (arbitrary draws), component lists", "why_tests_cant": "quantifies over all profiles and random draws", "anchors": ["adept/_pic1d/helpers.py", "adept/_pic1d/modules.py:BasePIC1D"]}
{"id": "C69", "title": "The complete PIC-1D step and what a run saves", "statement": "Over any number of steps, with either integrator, any drivers and backgrounds, names, charges, masses, weights and particle numbers do not change; the saved field is the Poisson field of the saved particles and the saved driver field is the driver's at the same time; without a transverse driver the potential is neither advanced nor felt, with one it obeys the discrete wave equation loaded by the species called electron; undriven runs over a uniform background keep the total saved momentum; the saved n, j, P integrate to the saved scalars, with n, P >= 0 and j^2 <= n P in each cell; a save section is accepted exactly when its keys are species or start with fields, everything asked for is saved and nothing else. Expected outcome: false that a user may redefine the default section, that no two species share a saved key, and that a scalar plot always lands in its own species' directory.", "quantifier": "all runs of any length, species, drivers, save sections", "why_tests_cant": "invariants over all histories and configurations", "anchors": ["adept/_pic1d/solvers/vector_field.py:PIC1DVectorField", "adept/_pic1d/storage.py", "adept/_pic1d/helpers.py:post_process"]}
{"id": "C70", "title": "VFP-1D transport, field solve and step", "statement": "One VFP-1D step built by the vector field (streaming, isotropic collisions with heating, field solve, acceleration, anisotropic collisions): streaming keeps the number of electrons of every speed in the box, in slab and spherical geometry, for every explicit Runge-Kutta tableau, and its generator is skew (no norm growth); the acceleration changes the number of electrons only at the largest speeds and does work equal to field times current up to a stated dv^2 term; a complete step conserves the number of electrons except for the stated escape at the largest speed; boundary conditions hold at every step; a uniform collisional equilibrium without field is a fixed point; mirror images evolve into mirror images; the oshun field cancels the current to first order; the ampere field has the sign opposite to Ampere's law; the third solver cannot run on the staggered grid; grids are accepted exactly in the documented cases and the run length is as stated.", "quantifier": "all grids, boundary kinds, geometries, states, tableaux, collision models, schemes, heating settings, histories", "why_tests_cant": "the balances are identities over whole arrays and histories for any grid and state; tests run a few short cases with tolerances", "anchors": ["adept/vfp1d/vector_field.py:OSHUN1D", "adept/vfp1d/grid.py:Grid", "adept/vfp1d/fokker_planck.py:F0Collisions,FLMCollisions"]}
{"id": "C71", "title": "VFP-1D heating, anisotropic collisions, initial state", "statement": "The isotropic collision solve with the central scheme gives the electrons exactly the energy of the drift and diffusion of the collision model plus the Maxwellian-heating and inverse-bremsstrahlung terms; the Z* anisotropic solve damps every harmonic at l(l+1)/2 times the scaled electron-ion rate and keeps its sign; the initial f0 is nonnegative, |f10| is at most f0 at the edges (before density scaling), one species with Z* collisions starts without current where the clip is inactive, uniform profiles start with f10 = 0; the effective ion keeps quasineutrality and the collision rate. Refuted: negative D0 cools with Chang-Cooper; a zero-density species changes nothing; the clipped f10 is periodic; the bound survives the density scaling; the inverse-bremsstrahlung ratio equals nu_ei/omega_0 (it lacks units.Z squared); the nuee_coeff override reaches the anisotropic solver.", "quantifier": "all grids, distributions, collision models, heating settings, species lists, ion settings, configurations", "why_tests_cant": "energy and current balances are identities over arrays of any length and any distribution; tests check a few with tolerances", "anchors": ["adept/vfp1d/fokker_planck.py:F0Collisions,FLMCollisions,inverse_bremsstrahlung_resonance_ratio", "adept/vfp1d/helpers.py:_initialize_total_distribution_,_initialize_distribution_", "adept/vfp1d/base.py:BaseVFP1D.init_state_and_args", "adept/vfp1d/vector_field.py:OSHUN1D.__init__"]}
{"id": "C72", "title": "VFP-1D heat-flux diagnostics and saved moments", "statement": "The Epperlein-Haines coefficient equals the table ratio at its entries, is constant outside and lies in (3.2, 22.4) for every charge. The Spitzer-Haerm flux runs from hot to cold, vanishes exactly where neighbouring temperatures agree and at both ends. The SNB group weights are non-negative and sum to the spectral fraction below the largest group energy, at least that below beta_max and less than one. The banded SNB systems always have exactly one solution; the resulting flux obeys the discrete conservation law, no heat crosses the ends, each group's losses sum to zero, isothermal plasmas carry no heat, and the distance to Spitzer-Haerm is bounded by an explicit expression that vanishes with the mean free paths (local limit). Saved density, pressure and temperature are non-negative and bounded; the saved velocity is minus the current; box averages are averages of the profiles; the saved mean density is conserved in slabs but not in spherical geometry; the diagnostics ignore periodic boundaries.", "quantifier": "all positive profiles, grids, charges, energy groups and solutions of the banded systems; all distributions", "why_tests_cant": "profiles and group grids are continuous inputs; conservation, solvability and bounds must hold for all of them", "anchors": ["adept/vfp1d/heat_flux.py: _geometry_factors, spitzer_harm_heat_flux, snb_heat_flux, compare_heat_flux", "adept/vfp1d/storage.py: calc_EH, calc_kappa, get_field_save_func, get_default_save_func"]}
{"id": "C73", "title": "Hermite-Poisson linear flow: exact streaming, reversibility, dissipation", "statement": "For every number of Hermite modes, drift, thermal scale and wavenumber, free streaming by any time s solves the Hermite streaming ladder equations exactly; the ladder is multiplication by velocity on the Hermite coefficients of any particle ensemble; streaming conserves the energy of every Fourier mode, composes additively and is undone by streaming for -s; the mean (k=0) coefficients never change; reality of the fields is preserved away from the Nyquist mode and lost there for even grids. Collisions, diffusion and the mode absorber can only reduce each mode's energy; both collision profiles leave density, momentum and energy rows alone, unknown models are rejected; the Hou-Li absorber rises monotonically from 0 to 1, whereas the knee absorber damps the density row too.", "quantifier": "all sizes, eigen-decompositions, coefficient arrays, times, wavenumbers and damping parameters", "why_tests_cant": "the flow is an exact matrix exponential over continuous inputs; exactness, reversibility and dissipation cannot be sampled", "anchors": ["adept/_hermite_poisson_1d/vector_field.py: FreeStreamingExp1D, DiagonalExp1D, LinearExp1D", "adept/_hermite_poisson_1d/modules.py: _safe_col_1d, _collision_profile, init_diffeqsolve"]}
{"id": "C74", "title": "Hermite-Poisson force substep: exact velocity shift, number and momentum", "statement": "Without dealiasing the force substep shifts every particle's velocity by acceleration times time exactly (on all Hermite moments up to the series length), composes additively and is reversible; the density row is only dealiased, so the number of particles of each species never changes, although dealiasing drops short-wave density modes even without a force; a force on a Maxwellian drives exactly the current n0 F; the 2/3 mask removes every aliased product when the grid size is not a multiple of three and not otherwise; the self-consistent force exchanges momentum between electrons and ions without creating any; the ponderomotive force has the same sign for both charges, none from uniform potentials and no net push from confined ones.", "quantifier": "all coefficient arrays, accelerations, grid sizes, mode counts, time steps and particle ensembles", "why_tests_cant": "the shift and the momentum balance are identities over all states; aliasing depends on every triple of modes", "anchors": ["adept/_hermite_poisson_1d/vector_field.py: _hermite_e_coupling, _exp_force_substep, PoissonSolver1D, _nonlinear_rhs", "adept/_hermite_poisson_1d/modules.py: init_diffeqsolve (mask23)"]}
{"id": "C75", "title": "Hermite-Poisson step, initial state and run length", "statement": "Over any number of steps of either integrator the particle number of both species is unchanged; static ions never move; the saved field satisfies Gauss's law for the saved densities at every mode other than the mean and Nyquist ones; the sponge never changes the density and only damps the rest; the density clip keeps the wave equation's density in its range; the linear-response force acts on the first Hermite row only and does not depend on the perturbation; the legacy integrator ignores the linear-response, clip and series-length options; initial densities are n0(1+eps cos) for every mode strictly between the mean and Nyquist ones (refuted there); a quiet uniform plasma is a fixed point; unknown integrators are rejected; the run reaches the requested end within one step, the default step satisfies the wave CFL limit but a user step is not checked; driver amplitudes are calibrated to the requested a0.", "quantifier": "all configurations built by the module, states, times, numbers of steps and driver parameters", "why_tests_cant": "conservation and Gauss's law must hold along every run of every length", "anchors": ["adept/_hermite_poisson_1d/vector_field.py: HermitePoisson1DVectorField, CombinedLinearExp1D, TransverseWaveDriver", "adept/_hermite_poisson_1d/modules.py: BaseHermitePoisson1D.get_derived_quantities, init_state_and_args, init_diffeqsolve"]}
{"id": "C76", "title": "VFP-2D harmonic layout", "statement": "For every accepted l_max and m_max the packed axis numbers exactly the modes with 0 <= m <= l <= l_max and m <= m_max, without gaps or repetitions; looking up any other mode returns -1; the axis has (m_max+1)(2 l_max + 2 - m_max)/2 entries; negative l_max, negative m_max and m_max > l_max are rejected and m_max defaults to l_max.", "quantifier": "all l_max, m_max, l and m", "why_tests_cant": "quantifies over all truncations", "anchors": ["adept/vfp2d/harmonics.py: HarmonicLayout"]}
{"id": "C77", "title": "VFP-2D Vlasov operators act on the distribution the harmonics stand for", "statement": "For every truncation and every coefficients that leave the highest degree and order empty, the streaming operator returns the coefficients of -v n.grad f, and the electric operator those of E.df/dv (the radial difference times E.n plus the derivative along the projection of E on the sphere divided by v), in every direction n. The magnetic operator is the rotation of directions n' = n x (Bx, -By, -Bz): the Lorentz force for a field along x, but with the opposite sense for the components in y and z (refuted). At every truncation it conserves the norm of every degree l, and the right-hand side keeps the m=0 coefficients real.", "quantifier": "all l_max and m_max, coefficients, fields, speeds and directions", "why_tests_cant": "an identity between infinite families of recurrences and a differential operator on the sphere", "anchors": ["adept/vfp2d/harmonics.py: TzoufrasVlasov.streaming, electric, magnetic, gh, ddv, __call__"]}
{"id": "C78", "title": "VFP-2D moments: continuity, Joule work and no magnetic work", "statement": "The low-order moments reported by the VFP-2D solver are the moments of the direction-resolved distribution: the degree-2 tensor is symmetric, traceless and reproduces the distribution exactly up to degree 2. Spatial advection changes the density by minus the divergence of the particle flux; the electric force changes the electron number only at the largest speed cell; the power it delivers is E.j up to an explicit second-order term in the speed step and a term at the largest speed cell; the magnetic field changes no moment of the isotropic part. Advection changes any speed-weighted momentum by minus the divergence of its flux (a third of the isotropic part plus the stress), the magnetic operator turns it about (bx, -by, -bz).", "quantifier": "every truncation (l_max, m_max), speed grid, field and distribution", "why_tests_cant": "they are identities in the distribution; a test checks one Maxwellian to a tolerance that hides the leak and the dv^2 term", "anchors": ["adept/vfp2d/harmonics.py: density, current, cartesian_l2, VlasovOperator.streaming/electric/magnetic"]}
{"id": "C79", "title": "VFP-2D derivative and filters across device counts", "statement": "The halo-exchange derivative on any number of devices equals the single-device fourth-order derivative as long as each device holds two cells (with one cell per device it silently becomes second order). The Hou-Li filter multiplies mode k by exp(-alpha |2k/n|^(2 order)), keeps the mean, never increases the norm and keeps real data real; the partitioned filter multiplies mode k by 1 - sin^8(pi k/n) (cos^2(pi k/n) with fewer than four cells per device), keeps the mean, removes the Nyquist mode and never increases the norm. Non-positive alpha, order < 1 and unknown dimensions are rejected. The results do depend on the device count (refutations).", "quantifier": "every device count, cell count, array, alpha and order", "why_tests_cant": "it ranges over every mesh size and array, and multi-device runs are not part of a unit test", "anchors": ["adept/vfp2d/harmonics.py: periodic_central_derivative, partitioned_high_order_filter, HouLiFilter2D"]}
{"id": "C80", "title": "VFP-2D Maxwell fields: div B, Poynting, Gauss and number", "statement": "In the 2-D Vlasov-Maxwell solver, with spectral or finite-difference derivatives on any number of devices: the discrete divergence of B at every cell never changes over any number of steps; the field energy changes by exactly minus the work of the current; advection conserves the total electron number, which changes only through the leak at the largest speed; one step keeps Gauss's law at every cell up to that leak and the divergence of the driver current (refuted for the spectral derivative on an even number of y cells); the initial field is curl-free with divergence equal to the charge density minus its mean.", "quantifier": "every grid, device count, state, external field, driver, collision operator that conserves density, step size and number of steps", "why_tests_cant": "they are conservation laws over whole runs and every state; a test sees one run and a tolerance", "anchors": ["adept/vfp2d/vector_field.py: Maxwell2D, SpectralPoisson2D, VlasovMaxwell, SplitStepVFP2D", "adept/vfp2d/harmonics.py: periodic_central_derivative, density, current"]}
{"id": "C81", "title": "VFP-2D kinetic Ohm's law: projection, positivity, closure, div B", "statement": "In the 2-D kinetic-Ohm mode: the current projection makes the plasma current of every cell (whose flux moment is resolved) equal to the requested one without touching the density or any harmonic of another degree, and leaves a state that already carries it alone; the positivity fix makes the isotropic part nonnegative, keeps the density, is idempotent and does nothing to a nonnegative state; E is the sum of its five reported terms and the Hall term is exactly cancelled by the current part of the Nernst velocity; E is the field that balances the v^3-weighted electron momentum: advection, the Lorentz force and friction eta0 j; the step is the classical fourth-order Runge-Kutta step of the projected system; the switch-on/off windows stay between 0 and 1; after every step the current is c^2 curl B, the isotropic part is nonnegative and E is the Ohm law of that very state; the discrete divergence of B is unchanged over any number of steps (zero stays zero through the Hou-Li and partitioned filters).", "quantifier": "every distribution, field, grid, derivative (spectral, finite difference, sharded), device count, collision step, filter, step size and number of steps", "why_tests_cant": "they are constraints enforced at every cell of every step; a test checks one small run", "anchors": ["adept/vfp2d/ohm.py: KineticOhm2D", "adept/vfp2d/harmonics.py: project_current, positivity", "adept/vfp2d/vector_field.py: KineticOhmStep, _ib_gate"]}
{"id": "C82", "title": "A VFP-2D run starts from the state the configuration describes and collides without losing particles", "statement": "For every VFP-2D configuration: a grid is accepted exactly when extents, time step and counts are positive, there are at least two speeds and 0 <= m_max <= l_max, and its points are centres of equal cells filling the box; the step count covers the requested time; a device count not dividing nx is refused and otherwise block-wise application equals the global one; one-dimensional shapes stay within the bounds their parameters announce; the initial state is isotropic, current-free, field consistent with Poisson of (ions - electrons) and nonnegative, exactly neutral with the relativistic shape (not with the other); one collision step conserves the density, leaves absent parts alone, treats equal-degree harmonics alike and never amplifies a harmonic with the Z* operator; the solver built depends on the mode word as documented, the filter and positivity options being ignored in maxwell mode.", "quantifier": "all grids, species lists, profiles, device counts, cells, distributions, collision parameters and option words", "why_tests_cant": "A test tries a few configurations; acceptance, neutrality, conservation and damping must hold for every grid, profile, distribution and coefficient.", "anchors": ["adept/vfp2d/grid.py: Grid", "adept/vfp2d/base.py: _profile_1d, _profile_2d, BaseVFP2D.init_state_and_args, init_diffeqsolve", "adept/vfp2d/distributed.py: create_spatial_sharding", "adept/vfp2d/collisions.py: AnisotropicCollisions, CollisionStep"]}
{"id": "C83", "title": "The Vlasov-2D kinetic operators transport, rotate, collide and filter the distribution as described", "statement": "For every Vlasov-2D species grid and distribution: velocity axes are cell centres of [-vmax, vmax]; streaming and the spectral force push move a cell-aligned amount exactly and never change the number of particles; without magnetic field a whole kinetic sub-step conserves the number; the magnetic push reads the distribution at the point rotated by the gyro-angle, so a quarter turn permutes the grid exactly, and loses what leaves the velocity box; Krook and Dougherty collisions conserve density; the Hou-Li filter keeps the mean and never amplifies a wave; the initial distribution integrates to the profile, on any number of devices sharding space only; option words are accepted exactly as listed.", "quantifier": "all species grids, distributions, fields, time steps, cells, filter parameters, device meshes and option words", "why_tests_cant": "A test checks one grid and one beam; conservation and exact shifts must hold for every distribution, field and step.", "anchors": ["adept/_vlasov2d/solvers/pushers/vlasov.py: SpaceExponentialX, VelocityExponentialE, VelocitySL2DE, VelocityRotateB, HouLiFilter", "adept/_vlasov2d/solvers/pushers/fokker_planck.py: Collisions", "adept/_vlasov2d/helpers.py: _initialize_total_distribution_", "adept/_vlasov2d/distributed.py: create_distribution_sharding", "adept/_vlasov2d/simulation.py"]}
{"id": "C84", "title": "A Vlasov-2D step solves Maxwell's equations consistently and a run saves what it names", "statement": "For every Vlasov-2D configuration: the grid tiles the box and the step count covers tmax; the field solver changes a staggered energy by exactly the work of the current on the mean field, and the divergence of E by exactly dt times the divergence of the current; in vacuum that energy is constant and bounds the fields for ever when dt is below the corner-mode limit, while a wave above the limit grows every step, the automatic cap of dt does not ensure the limit; the initial field solves Gauss's law with the static background; a complete step or run of any length without magnetic field keeps every species' particle number, and skip_maxwell freezes fields; saved moments split energy into thermal and flow parts and saved means are area means; saved names are those asked for plus default.", "quantifier": "all grids, time steps, currents, fields, species lists, run lengths and save sections", "why_tests_cant": "A test runs a few steps on one grid; the balances and the stability limit must hold for every field, mode, step and run length.", "anchors": ["adept/_vlasov2d/solvers/pushers/field.py: MaxwellSpectral, CurrentMoments, EMDriverFieldSource", "adept/_vlasov2d/solvers/vector_field.py", "adept/_vlasov2d/grid.py", "adept/_vlasov2d/storage.py", "adept/_vlasov2d/modules.py"]}
{"id": "C85", "title": "The two-fluid solver: conservation, equilibria, wave dispersion and damping, trapping and saved spectra", "statement": "For the two-fluid 1-D solver: every right-hand side conserves the particle number of each species, the self-consistent field obeys Gauss's law, carries no mean and exerts no net force on the charge; a uniform plasma (any density, drift, pressure) is stationary without drivers; a species that is off never changes; to first order in the perturbation the equations are the linear fluid equations with an error of second order; a plane wave of electrons oscillates with the tabulated kinetic frequency when gamma is 'kinetic' and with the Bohm-Gross frequency for gamma = 3, and decays at the tabulated rate; trapping only reduces damping and the total trapped fraction never decreases; saved profiles interpolate within the range of the field and a wave is saved at its own wavenumber with its amplitude and phase. The driver pushes every charge against q E. Refuted: xmin/tmin are honoured, the damped wave oscillates at the tabulated frequency, the pressure is adiabatic for a mass other than 1, ions have their own damping, the mean is saved with its own amplitude.", "quantifier": "all grids, species parameters, states (density, velocity, pressure, trapped fraction), pulses, frequency tables and learned growth rates", "why_tests_cant": "conservation, second-order linearisation error and dispersion hold for every state, mode and table; a test compares one wavenumber against one tolerance", "anchors": ["adept/_tf1d/solvers/pushers.py:PoissonSolver,DensityStepper,VelocityStepper,EnergyStepper,ParticleTrapper,Driver", "adept/_tf1d/solvers/vector_field.py:VF", "adept/_tf1d/modules.py:BaseTwoFluid1D", "adept/electrostatic.py:get_complex_frequency_table"]}
{"id": "C86", "title": "The Hermite-Fourier Vlasov-Maxwell right-hand side: exact Lorentz force, continuity, Gauss's law, momentum and energy balance", "statement": "For the spectrax-1d solver: with any number of Hermite modes, drift and anisotropic thermal speed the Lorentz term is exactly -d/dv.((E + v x B) f) of the truncated expansion and free streaming is exactly -i k.v f; the current in Ampere's law is the particle flux, so the charge obeys the continuity equation and, along every solution, Gauss's law and div B = 0 keep whatever residual they start with; the number of particles of each species is constant, the momentum changes by the mean Lorentz force and the total energy by the work of the drive minus the work at wavevectors outside the 2/3 mask, so it is conserved for fields inside the mask; free streaming and the magnetic force (isotropic, no drift) keep the squared norm of the coefficients; collisions and the Hermite filter leave the first moments alone and only damp; the nonlinear part plus the linear part is the full right-hand side (the exponential path integrates the same equations). Refuted: the filter with order 0 keeps the density; with two modes the filter keeps momentum; the drive is a plane wave when Ny or Nz exceeds 1; the density noise is real and keeps the particle number.", "quantifier": "all grids, mode counts, drifts, thermal speeds, charges, masses, states, wavevectors, filters, drives and solutions of the equations", "why_tests_cant": "moment identities of a truncated series and conservation along all solutions hold for every state and mode count; a test compares one run with one tolerance", "anchors": ["adept/_spectrax1d/hermite_fourier_ode.py:HermiteFourierODE", "adept/_spectrax1d/vector_field.py:SpectraxVectorField", "adept/_spectrax1d/nonlinear_vector_field.py:NonlinearVectorField", "adept/_spectrax1d/driver.py:Driver", "adept/_spectrax1d/base_module.py"]}
{"id": "C87", "title": "The exponential operators of the Hermite-Fourier Vlasov-Maxwell solver", "statement": "For the spectrax-1d exponential path: the closed-form Maxwell exponential is the exact solution of the vacuum Maxwell equations at each wavevector (derivative, initial value, group property), keeps the field energy and both divergences and is the identity at k = 0; the eigenvector form of the streaming exponential is the exact solution of the streaming equations with drift for any number of modes in the three directions, is a group with inverse, keeps the squared norm, is the identity at k = 0 and commutes with conjugation (real distributions stay real); with nu = 0 the combined operator is the exact flow of the linear part that the nonlinear path omits, in general it has the right derivative at s = 0, and static ions are unchanged; with damping (collisions, hyperdiffusion, filter of any strength and order) it never increases the squared norm and the number of particles is exact. Refuted: with collisions (four or more modes) or with the Hermite filter the operator is not exp(L s): two steps do not compose to one.", "quantifier": "all wavevectors, mode counts, thermal speeds, drifts, rates, steps s (also negative where stated), states and filter parameters", "why_tests_cant": "exactness of an exponential for all s and k and all mode counts is an identity of functions, the failure of the group law needs a witness for every configuration; a test samples a few steps", "anchors": ["adept/_spectrax1d/exponential_operators.py:FreeStreamingExponential", "adept/_spectrax1d/exponential_operators.py:MaxwellExponential", "adept/_spectrax1d/exponential_operators.py:DiagonalExponential", "adept/_spectrax1d/exponential_operators.py:CombinedLinearExponential"]}
{"id": "C88", "title": "The Lawson-RK4 step and the split-step damping of the Hermite-Fourier Vlasov-Maxwell solver", "statement": "For the spectrax-1d exponential path: without collisions the step is classical RK4 of the integrating-factor form v' = exp(-L tau) N(exp(L tau) v), carried back by exp(L dt); without a nonlinear term it is exp(L dt) with a zero error estimate; for N = mu y it is exp(L dt) times the fourth-order Taylor polynomial and the estimate is -(z^3+z^4)/12 of it; without plasma it is the exact Maxwell propagator for any step length; the whole step (Lawson, sponge, filter) keeps the number of particles of each species exactly, and the Lawson part keeps div B at every wavevector. The sponge multiplies fields and all Hermite modes but the density by exp(-sigma(x) dt) at every point, composes over times and never adds field energy. Refuted: the step keeps Gauss's law (exact defect given for a drifting species); the sponge keeps Gauss's law; the sponge keeps div B = 0; the state filter is a damping in time (it acts once per step whatever dt, also for static ions); a save at the end of a step reads the state the run continues from (it reads the state before sponge and filter).", "quantifier": "all configurations, mode counts, grids, states, steps, right-hand sides that read only array entries, sponge profiles and filters", "why_tests_cant": "equivalence of a stepper with its integrating-factor form and exact invariants hold for every state and step; a test compares one run", "anchors": ["adept/_spectrax1d/integrators.py:LawsonRK4Solver", "adept/_spectrax1d/integrators.py:SplitStepDampingSolver", "adept/_spectrax1d/base_module.py:init_diffeqsolve"]}
{"id": "C89", "title": "The set-up of the Hermite-Fourier Vlasov-Maxwell solver: initial condition, times, step limits, sponge profile", "statement": "For the spectrax-1d set-up: for every resolved non-zero mode vector the initial electron density is exactly n0 (1 + dn sin(k.x)) and real, the ions are uniform and every other Hermite mode is zero; the initial field has one component 2 amp cos(k.x); for a positive mode number along one axis, isotropic thermal speeds and charges -1, +1 Gauss's law holds at every wavevector, and then at all times of any solution; with amplitude zero and no drift the state is steady. The number of steps covers the requested time and overshoots it by at most one dt, exactly when dt is not given; the adaptive step limit is a tenth of the shortest driver period; the sponge rate is between 0 and the strength, zero between the layers and monotone; the reported k_norm is k lambda_De. Refuted: Gauss's law for oblique perturbations (exact residual), for negative mode numbers, for anisotropic thermal speeds; the field perturbation is electric (ny, nz > 0 writes Bx, ny < 0 writes Bz); mode numbers (0,0,0) or nx = Nx keep the equilibrium; the Nyquist mode is real; get_derived_quantities is idempotent; the default save axis has spacing dt; the step limit is enough for more than 10^6 steps, and for the adaptive default of the explicit path; the step limit is positive for negative frequencies; the filter settings of the two parts of the exponential path agree by default.", "quantifier": "all grids, mode numbers, amplitudes, thermal speeds, times, driver lists, sponge settings, solutions", "why_tests_cant": "the initial condition must be consistent for every mode vector and grid; tests use one along x; the failing inputs are configurations nobody tried", "anchors": ["adept/_spectrax1d/base_module.py:get_solver_quantities", "adept/_spectrax1d/base_module.py:get_derived_quantities", "adept/_spectrax1d/base_module.py:fft_index", "adept/_spectrax1d/base_module.py:_compute_dtmax_from_driver", "adept/_spectrax1d/base_module.py:init_state_and_args", "adept/_spectrax1d/base_module.py:write_units"]}
{"id": "C90", "title": "What the Hermite-Fourier Vlasov-Maxwell solver stores: moments, energies and coordinates", "statement": "For the spectrax-1d diagnostics: the stored density and particle fluxes are the velocity moments of the stored expansion, at every point; where the density is real and not tiny each stored directional temperature is the second velocity moment about the drift of the basis. E_energy and B_energy are the grid averages of |E|^2 and |B|^2 in real space, EM_energy their sum; Ex_max etc. are the largest spectral moduli, attained, with square at most E_energy. Hermite modes are stored at distinct flattened indices that fill the axis; the kx axis runs from -floor(N/2) in unit steps for even and odd N and the entry at kx is the coefficient of mode number kx, each exactly once; the optional time and space axes are the requested ones. Refuted: the stored T is the temperature (it exceeds it by a third of the squared distance between mean velocity and basis drift); Jx_total is the current (it adds fluxes without charges: zero current stored as twice the flux); the ky, kz axes are mode numbers (upper half off by N); the x coordinate written with fields is the solver's node (stretched by N/(N-1)).", "quantifier": "all states, thermal speeds, drifts, grid sizes, mode counts, axis settings", "why_tests_cant": "diagnostics have to agree with the state for every grid size and state; tests compare one number of one run", "anchors": ["adept/_spectrax1d/storage.py:get_save_quantities", "adept/_spectrax1d/storage.py:get_default_save_func", "adept/_spectrax1d/storage.py:get_moments_save_func", "adept/_spectrax1d/storage.py:store_species_distribution_timeseries", "adept/_spectrax1d/base_module.py:post_process"]}
{"id": "C91", "title": "Frequency, damping and absorption metrics of the Hermite-Fourier solver", "statement": "For the EPW and Maxwell modules: the reported instantaneous frequency is minus the finite-difference derivative of the true phase for every amplitude history, as long as the phase moves by less than pi between samples; a travelling wave exp(i(phi - omega t)) sampled with |omega dt| < pi gives exactly omega at every sample, as mean and as final value, and |omega| as electromagnetic metric (from six samples on, nan when the wave is gone). An amplitude A0 exp(gamma t) over the last two thirds gives exactly gamma whatever came before; the fit is the unique least-squares line; fewer than 14 samples give nan. The final electrostatic energy is an average over exactly the saved times within 50 of the last one. The absorption ratio lies in [0,1], is at most eps when the last fifth stays below eps times the energy of any sample, and is one for constant or zero energy. Refuted: the frequency is right for undersampled waves (pi < omega dt < 3 pi gives omega - 2 pi/dt) and for standing waves (real series: at most 2 pi/(n dt), zero for one sign); the electromagnetic frequency uses the latter 75% of the series; it exists for two to five saved times (it raises).", "quantifier": "all time series, amplitudes, frequencies, sampling steps, lengths", "why_tests_cant": "the metrics are the reported result of a run for any signal; tests check one simulated wave with a tolerance", "anchors": ["adept/_spectrax1d/epw_module.py:EPW1D", "adept/_spectrax1d/maxwell_module.py:Maxwell1D"]}
{"id": "C92", "title": "The bases, matrices and saved invariants of the Hermite-Legendre solver are what the method says they are", "statement": "The tabulated psi_n are the functions H_n(z) exp(-z^2)/sqrt(pi 2^n n!) and the tabulated xi_m are sqrt(2m+1) P_m on the velocity window. The streaming matrices are multiplication by v, the derivative matrix is d/dv, the boundary vectors are the values at the window ends, the xi_m are orthogonal with norm the window width. For every coefficient vector the three rows of the moment matrix are the integrals of f, v f and v^2 f / 2 over all velocities, and the saved mass, momentum and energy are the domain length times these (plus the field energy). Truncating the Hermite part drops exactly one term, the one the coupling to the Legendre part projects; with enforce_conservation its projection on the first three Legendre modes is exactly 0.", "quantifier": "every scale, shift, velocity window, number of modes, coefficient vector and velocity", "why_tests_cant": "identities between polynomials of every degree and integrals over the real line; a test evaluates a few modes by quadrature", "anchors": ["adept/_hermite_legendre_1d/vector_field.py: hermite_streaming_matrix, legendre_constants, mixed_moment_matrix, _hermite_function_values, _legendre_basis_values, hermite_legendre_coupling_vector", "adept/_hermite_legendre_1d/storage.py: get_default_save_func"]}
{"id": "C93", "title": "The force step of the Hermite-Legendre solver solves the midpoint equation, and does the field's work", "statement": "The explicit force terms, the Cayley updates and the implicit solves all apply the same two operators G_C, G_B. With the low modes' penalty off, the force changes density, momentum and energy by 0, -E n and -E n u; with the penalty on, density leaks at gamma E (df(vb) - df(va)). The Hermite Cayley update and the Woodbury Legendre update return the only solution of the implicit midpoint equation; with penalty 1/2 on every mode the operator is skew, the small system is regular for every field and step, the sum of squares is kept, and the eigenvector path gives the same result as the Woodbury path. Backward Euler does not increase the sum of squares for a skew operator. With a zero field the split force step is the identity on the retained modes and keeps the density row. The claimed unconditional stability of backward Euler fails in general, and with dealiasing the step also drops masked modes.", "quantifier": "every number of modes, scale, velocity window, penalty, field, step and coefficient vector", "why_tests_cant": "solvability and norm conservation for every field and number of modes; tests run one configuration", "anchors": ["adept/_hermite_legendre_1d/vector_field.py: _hermite_force, _legendre_force, hermite_force_operator, legendre_force_operator, hermite_cayley_update, legendre_cayley_update, HermiteLegendreVectorField._force_cayley, _implicit_E_substep", "adept/_hermite_legendre_1d/modules.py: gamma_vec"]}
{"id": "C94", "title": "BGK and Dougherty collisions in the Hermite-Legendre solver conserve density, momentum and energy locally and relax to the Maxwellian", "statement": "For every state, step and collision rate, a BGK or Dougherty substep returns the same density, momentum and kinetic energy at every position, so the charge density, the field and the potential do not change. Above the clamps, BGK is exactly f -> r f + (1 - r) M with the state's own Maxwellian: the low correction is zero, the Maxwellian is a fixed point, two substeps equal one, the distance to the Maxwellian shrinks by exp(-nu s). The generated Hermite coefficients are the integrals of the Maxwellian against the Hermite polynomials. The Hermite Dougherty update is the exact flow of d/dv[(v-U) f + T f'] with frozen U, T (truncation drops only modes beyond Nh), the Legendre blocks are the weak form of the same operator with zero flux at the window ends, the diffusion block is its exact flow and does not increase the sum of squares, the drift solve is the only solution of the midpoint equation and never fails. The comment that the low correction removes round-off only is false when the temperature clamp acts.", "quantifier": "every state, collision rate, step, number of modes, velocity window and basis scale", "why_tests_cant": "conservation for every state and relaxation laws for every step; tests check a few states to a tolerance", "anchors": ["adept/_hermite_legendre_1d/vector_field.py: ConservingBGKCollision1D, DoughertyCollision1D, PoissonSolver1D"]}
{"id": "C95", "title": "A step of the Hermite-Legendre solver: exact conservation, consistent field, convergence, stationary states", "statement": "With the split integrator, enforced conservation and no driver, a run of any length keeps the saved mass, momentum and total energy exactly, for every initial state, step size, number of field iterations, dealiasing, penalty, coupling and collision operator, with the field on or off. The correction adds real numbers to the six lowest spatial means only, leaves the field alone, reaches the target for every state, and is the unique smallest change that does; its reported norm is its size. It is skipped (reported 0) for other integrators, without enforcement, and with a driver. Lawson and IMEX keep the saved mass exactly over any run when the density modes carry no penalty and no coupling. The returned field is the field of the returned state, has zero mean and satisfies Gauss's law with the charge density mode by mode, and is minus the gradient of the returned potential (both away from the Nyquist mode). A zero step residual means the midpoint field is the average of the fields before and after the force step, and then more field iterations do not change the step. A spatially uniform state of any velocity dependence is stationary for every integrator. The boundary diagnostics are the largest |df| at the window ends, attained; the high-mode fraction lies in [0,1], 0 without and 1 with only high modes.", "quantifier": "every state, grid, number of modes and steps, time step, driver, eigen-decomposition meeting its contract", "why_tests_cant": "conservation has to hold for every state and length of run, not up to a drift seen in one; the optimality and convergence claims quantify over all corrections and iteration counts", "anchors": ["adept/_hermite_legendre_1d/vector_field.py: HermiteLegendre1DVectorField, CombinedLinearExp1D, StreamingExp1D, DiagonalCollisionExp1D, PoissonSolver1D"]}
{"id": "C96", "title": "The Hermite-Legendre run: what it starts from, when it saves, what it reports", "statement": "linear-advection starts at every cell and velocity from the Maxwellian times 1 + eps cos(2 pi mode x / L), two-stream from 2 z^2 times that; the density at t = 0 is the requested wave (bump-on-tail: plus the part of the beam the window quadrature sees), and any other type but custom is refused. The saved mass at t = 0 is L times the requested mean density unless the mode is a multiple of Nx, and the saved field is the sine that solves Poisson for the wave, and zero with the field off. Projecting df onto the window basis is the unique best mean-square approximation when the quadrature is exact for it, and reproduces basis combinations. nt is the nearest number of steps; the final time moves by at most half a step; the automatic save has one entry per step. A configuration is accepted exactly when the integrator, its mode counts, the number of iterations, the collision model and frequency are valid, case-insensitively, and collisions act exactly for a named model with positive frequency. The driver equals the Vlasov-1D one for the same pulses and is bounded by its amplitudes. Reported drifts bound every deviation and are attained; snapshots are increasing, first and last included; the reconstruction is f0 + df inside and f0 outside the window, on a velocity axis covering both; stored coefficients sit at their integer wavenumbers and rebuild the state; seeded diagnostics are those of the step. Refuted: two-stream with Nh <= 2 being a two-stream; every mode conserving the requested mass; bump-on-tail being neutral; save blocks without nt sampling at steps.", "quantifier": "every grid, box, mode count, window, initial-condition table, quadrature rule, driver list, time configuration and saved series", "why_tests_cant": "the claims quantify over every velocity, cell, quadrature and configuration text, and include optimality among all approximations", "anchors": ["adept/_hermite_legendre_1d/modules.py: BaseHermiteLegendre1D", "adept/_hermite_legendre_1d/vector_field.py: ExternalExDriver", "adept/_hermite_legendre_1d/storage.py: get_save_quantities, store_hermite_legendre, _distribution"]}
{"id": "C97", "title": "The plasma-wave step of the laser-plasma envelope solver keeps its band, disperses and damps each wave exactly, never gains energy without a source, and its two-plasmon source feeds wave pairs equally", "statement": "In a run of the laser-plasma envelope solver: converting the potential to the electric field and back returns the potential restricted to the retained band and without its mean; after any step, whatever the pump, the noise and the density, nothing is left outside the retained band and no mean potential; the Landau rate is the textbook one, positive for every wave and zero for the mean; the saved series e_sq is the field energy of the spectrum; without sources e_sq decays at least at twice the collision rate whatever the density and the absorbing boundary; in a uniform lossless box after any number of steps every retained wave has turned by exactly its Bohm-Gross frequency (plus the density shift) times the elapsed time and decayed at its Landau plus collisional rate; a plane pump couples wave k only to the wave k0-k, with the two-plasmon growth coefficient ky(|k0-k|^2-|k|^2)/|k|^2, and feeds the field energy of the two at equal rates; the source is linear in the pump. With the noise source off a run never leaves zero, whatever the laser and whatever initial noise was configured; the scattered light stays zero in every run. After every step the laser field is the configured light times its envelope at the time of that step, whatever the run started with, and it is the field the plasma wave was driven with; without a laser it stays as it was, and a scattered field is damped by the absorbing boundary once a step. A plasma-wave driver fails the run; the Raman source switch and the hyperviscosity change nothing.", "quantifier": "all grids, spacings, steps, densities, filters, absorbing profiles, pumps, noise histories, states and numbers of steps", "why_tests_cant": "the statements are about every mode, every density profile and every number of steps; a test sees one run", "anchors": ["adept/_lpse2d/core/epw.py:SpectralEPWSolver", "adept/_lpse2d/core/vector_field.py:SplitStep", "adept/_lpse2d/modules/base.py:BaseLPSE2D.init_state_and_args", "adept/_lpse2d/helpers.py:get_default_save_func"]}
{"id": "C98", "title": "The pump of the laser-plasma envelope solver is the configured sum of plane waves with the nominal energy flux, and the shifted band keeps its coupling free of aliasing", "statement": "At every time and every cell below the critical density the pump is the sum over the colours of a plane wave along x with the colour's intensity, phase and frequency offset, whose wavenumber is the periodic grid wavenumber nearest to the colour's own, swollen by (1-n)^(-1/4) and multiplied by the speckle envelope of the row. One colour carries the energy flux E0^2 I at every cell and time whatever the density profile; any number of colours on different grid modes carry on average over x exactly E0^2 times the sum of their intensities; the uniform, Gaussian and Lorentzian drivers give every colour a positive share, shares that add up to one, a spectrum symmetric about the laser frequency with full width delta_omega_max, and hence the nominal flux whatever the bandwidth; with the shifted band, for every retained wave and every colour, the two-plasmon source reads the daughter k0-k of the continuous problem and never an alias. Refuted: colours that share a grid mode beat between zero and twice the nominal flux; at the critical density (which the basis 'uniform' sets everywhere) the pump is not finite; one colour sits at -delta_omega_max instead of the laser frequency; the random phases cover only four fifths of the circle; the arbitrary driver fails at the first step; the default isotropic filter lets waves be driven through an alias.", "quantifier": "all grids, densities, colours, intensities, phases, bandwidths, times, speckle envelopes, filters and plasma-wave states", "why_tests_cant": "the flux and the alias-freedom are statements about every mode and every cell of every grid; a test samples one grid and one bandwidth", "anchors": ["adept/_lpse2d/core/laser.py:Light.laser_update", "adept/_lpse2d/modules/driver.py:UniformDriver", "adept/_lpse2d/modules/driver.py:ArbitraryDriver", "adept/_lpse2d/modules/driver.py:GaussianDriver", "adept/_lpse2d/modules/driver.py:LorentzianDriver", "adept/_lpse2d/helpers.py:_pump_k_support", "adept/_lpse2d/helpers.py:get_solver_quantities"]}
{"id": "C99", "title": "The setup of the laser-plasma envelope solver builds the grid, time axis, absorbing boundary and constants the solver's guarantees need", "statement": "For every usable configuration the grid has square cells that fill the box exactly, sizes that are the least products of 2, 3 and 5 not below the requested number of cells (and less than twice it), cell-centred axes and a cell size within a factor two of the requested one; the run lasts a whole number of steps, longer than requested by at most one step, within the step budget; the absorbing factor lies in (0,1] everywhere and is 1 with periodic boundaries; the derived constants satisfy the relations of a laser and a plasma (dispersion of the pump, plasma frequency at the reference and critical density, thermal speed, intensity); the linear density profile has the requested scale length at quarter critical; and the resulting configuration satisfies every hypothesis of the theorems about the solver step. Refuted: cells may be larger than requested and an off-centre box in y is silently recentred; the time axis of the default series does not fall on steps; the exponential, tanh and sine density bases fail or vary along y; an integer collision rate, or a temperature exactly at the switch, fails; the collision rate uses a Coulomb logarithm that differs from the one the same function reports in a range of three decades of temperature.", "quantifier": "all boxes, cell sizes, time steps, durations, temperatures, charges, wavelengths, intensities, densities, boundary widths and FFT sizes", "why_tests_cant": "the grid arithmetic and the search for smooth sizes must be right for every real box length and every size; tests sample a few", "anchors": ["adept/_lpse2d/helpers.py:next_smooth_fft_size", "adept/_lpse2d/helpers.py:write_units", "adept/_lpse2d/helpers.py:get_derived_quantities", "adept/_lpse2d/helpers.py:get_solver_quantities", "adept/_lpse2d/helpers.py:get_density_profile"]}
{"id": "C100", "title": "The saved results of the laser-plasma envelope solver are the state on the axes they are labelled with", "statement": "For every grid and state, in single precision and on the solver's own grid: the saved spectra stand on the increasing multiples of 2 pi / L in units of w0/c, every coefficient next to its own wavenumbers, with the electric spectra minus i k times the potential, and the saved potential is the inverse transform of the state; saved times start and end at the requested ones with uniform spacing between dt and 2 dt, dt exactly when it divides the window; resampling with the solver's spacing is the identity, and with any coarser one every saved value is a convex combination of the array and affine profiles are exact; max_phi bounds the potential at every cell. Refuted: the saved electric field in real space is 4/(nx ny) times the field of the saved potential (and its energy differs from the series accordingly); with a finer save spacing the edges are not numbers and the density is zero there; with a coarser one the Fourier coefficients themselves are interpolated as if they were samples in space, on a wavenumber axis that is scaled; in double precision post-processing fails because the saved real array is read as single-precision complex numbers; max_phi is nx ny times the amplitude of a single wave.", "quantifier": "all grids, states, save windows, save spacings and precisions", "why_tests_cant": "axis/data agreement must hold at every index of every grid size, odd and even; a test sees one grid", "anchors": ["adept/_lpse2d/helpers.py:make_field_xarrays", "adept/_lpse2d/helpers.py:get_save_quantities", "adept/_lpse2d/helpers.py:get_default_save_func"]}
{"id": "C101", "title": "The speckled pump redistributes the light of its beamlets without creating any, inside its aperture, with the requested bandwidth", "statement": "For every smoothing type, time and draw of the random phases: averaged over one period of the speckle pattern, from any origin and on any grid with at least one point per beamlet, the intensity in focus equals the total intensity of the beamlets (their number, for every type but GP ISI, whose beamlets have modulus one); no hot spot exceeds the coherent sum; RPP and CPP are static; along y the pump is a sum of one plane wave per row of beamlets inside the numerical aperture of the vacuum wavelength; the two SSD modulators share exactly the requested bandwidth in the requested ratio and FM SSD repeats after common periods; the random time series have exactly the requested root mean square and are long enough for every time up to the end of the run and every beamlet. Refuted: the envelope is normalised by its mean modulus, so the mean intensity of the speckled pump exceeds the nominal one whenever the pattern is not uniform; the transverse band reserved for the pump uses the wavenumber in the plasma instead of the vacuum one, so with enough rows of beamlets the outermost ones lie outside it.", "quantifier": "all profiles, smoothing types, numbers of beamlets, random draws, times, positions and sampling grids", "why_tests_cant": "energy conservation of a random pattern for every draw and every origin, and coverage of the time series for every time and delay, are universally quantified; tests check statistics of one draw", "anchors": ["adept/_lpse2d/core/speckle.py:SpeckleProfile", "adept/_lpse2d/core/speckle.py:gen_gaussian_time_series", "adept/_lpse2d/core/laser.py:Light", "adept/_lpse2d/helpers.py:_pump_k_support"]}
{"id": "C102", "title": "The cylindrical Landau collision operator conserves what it claims, is solvable at any time step and keeps its Maxwellian", "statement": "On the solver's cylindrical grid (whose weights are the exact areas of the rings and add up to the disc): the diffusion tensor is positive semidefinite, split into a speed channel along the velocity and a Lorentz channel across it, both strictly positive; the measured temperature of a nonnegative, nonempty distribution is positive; for every nonnegative density and collision frequency and every time step, however large, the two implicit sweeps have exactly one solution, so the result exists and is unique; the particle density is conserved always, and with restoration enabled also the parallel momentum, the energy and the measured drift and temperature, on every grid with at least two points per direction (the 2x2 correction system is never singular); each implicit sweep preserves nonnegativity, conserves particles slice by slice and never increases the weighted distance to the Maxwellian; a Maxwellian with the measured drift and temperature is an exact fixed point. Refuted: the documented claim that the sampled Maxwellian is an exact discrete fixed point fails whenever the temperature measured on the grid differs from the parameter.", "quantifier": "all grids, distributions, channel weights, collision frequencies, time steps and numbers of explicit substeps", "why_tests_cant": "solvability and conservation for every distribution, grid and time step; a test checks one resolution to a tolerance", "anchors": ["adept/_vlasov1d2v/solvers/pushers/fokker_planck.py:CylindricalLandau", "adept/_vlasov1d2v/helpers.py:perp_grid"]}
{"id": "C103", "title": "The whole Vlasov-1D2V step is the 1D step on the marginals, plus a passive perpendicular structure", "statement": "For every collision type but the cylindrical Landau operator, integrating the distribution over v_perp after any number of 1D2V steps gives exactly a run of the 1D solver (same fields, potentials, species, collisions) from the marginal of the initial state: for every distribution, not only for a product of F(x,v_par) and M(v_perp) as documented; conversely every 1D run times any normalised perpendicular profile is a 1D2V run. The number of particles at each v_perp, hence every perpendicular moment, never changes in such a run; with every collision type, cylindrical included, the particle number of each species never changes. The accumulated diagnostics add up to exactly the change of the marginal distribution, and the collisional one never changes the local density. The marginal of the initial state is cell by cell the initial state of the 1D solver, and a one-component state is the Maxwellian of its temperature in v_perp. A run needs exponential velocity pushes, no Krook, an electron species (even with collisions off) and one of four collision types. Refuted: that the marginals obey the 1D solver with the same configuration file - the Hou-Li filter and the stochastic driver are silently ignored.", "quantifier": "every grid, species set, configuration, external field, state and number of steps", "why_tests_cant": "an identity between two programs along whole runs and for every distribution; a test compares one product state for a few steps with a tolerance", "anchors": ["adept/_vlasov1d2v/solvers/vector_field.py: VlasovMaxwell2V, VlasovPoissonFokkerPlanck, LeapfrogIntegrator, SixthOrderHamIntegrator", "adept/_vlasov1d2v/solvers/pushers/vlasov.py: SpaceExponential2V, VelocityExponential2V", "adept/_vlasov1d2v/solvers/pushers/fokker_planck.py: Collisions", "adept/_vlasov1d2v/helpers.py: _initialize_total_distribution_2v_", "adept/_vlasov1d2v/modules.py: BaseVlasov1D2V"]}
{"id": "C104", "title": "What a Vlasov-1D or 1D2V run saves is what its names say", "statement": "The saved profiles n, j, v, p, q and the scalars are the moments their names say on the cell-centred velocity grid: with V = j/n, n V = j, second moment = p + n V^2, third = q + 3 V p + n V^3; n^2 <= (vmax - vmin) f2; for a nonnegative distribution V lies strictly inside the grid and 0 <= p <= n (vmax - V)(V - vmin). The saved kinetic energy is the sum over species of m/2 times the x-mean of the second moment, nonnegative for nonnegative distributions, and the total adds half the mean of e^2; mean_n never changes along a run, and without the cylindrical collision operator mean_Pperp does not either; 1D2V moments are integrals over rings. mean_pond depends on the four end cells only. A sampled distribution is the cell value at a cell, stays between the extrema inside the cell centres and reproduces bilinear functions; the 1D2V one always is a number. The save section is expanded without an exception exactly when every entry is legal and the entry called 'fields' comes after every other one whose name starts so; then every label of every species is saved under species.label with its own dimensions, with the fields, the diagnostics and the default save, and nothing else, if no species name has a dot. The ep/em split is exact for waves that are quadratic and second-order small for a resolved sinusoid. Refuted: the documented example (v from vmin to vmax) gives NaN at the first and last velocity at every x; saving the spectrum on (kx, v) always fails; the order of fields entries does not matter; labels never meet; the split has no wrong-way part.", "quantifier": "every grid, distribution, number of sample points, save section, time step, wave and run", "why_tests_cant": "moment identities, sampling bounds and the expansion of the section must hold for every distribution and every configuration; tests look at one configuration and never sample at the edges", "anchors": ["adept/_vlasov1d/storage.py: get_save_quantities, get_dist_save_func, get_field_save_func, get_default_save_func, _add_dim_axes", "adept/_vlasov1d2v/storage.py: get_save_quantities, get_field_save_func, get_default_save_func, get_dist_save_func"]}
{"id": "C105", "title": "The ion-acoustic turbulence diagnostics account for the density and show a zero-mean distribution change", "statement": "The saved spectrum of the charge density (power of modes 0..nk_modes, each counted for its mirror) sums to at most the x-mean of rho^2, and exactly to it when all modes are saved; one wave of amplitude A gives A^2/4 in its own mode with its phase, the square of the mean in mode 0 and zero elsewhere; moving the density by whole cells changes nothing; with all modes saved the stream determines the density; the power of the mean never changes along a run. The late-window average lies between the bounds of the power inside the window and exists exactly when a saved time is inside; the default window always works. The plotted curve is one at the first mode and does not depend on the unit of the density. The upper axis is k lambda and its inverse undoes it. The panels average to zero over x at every velocity and vanish exactly when the distribution is uniform in x; at least two saves give 1 to 14 panels in at most 4 rows, equally spaced from the first, and never the last. The Debye length of the plot is the one the Boltzmann solver uses exactly when it is configured or the mean charge density is one. Refuted: every window inside the run gives an average; one saved distribution gives a plot (it divides by zero).", "quantifier": "every grid size, distribution, mode, number of saved times, window, driver and run", "why_tests_cant": "tests look at one spectrum of one run; the accounting identities and the shape of the panels must hold for every grid and every number of saves", "anchors": ["adept/_vlasov1d/iaw.py: IAWTurbulence1D"]}
{"id": "C106", "title": "The scalar results of an OSIRIS run are the quantities they are named after", "statement": "field_energy_final sums exactly the whole-component directories (e1..b3 and their averages, no Poynting flux, lineout or slice), each at the dump of greatest iteration, and for components on one grid it is the sum over the cells of half the squared fields times the cell volume; cell volume times number of cells is the box volume; no value exactly when nothing can be read; independent of the listing order; nonnegative. final_iter is the greatest iteration number in a name, -1 exactly when there is none. The streamed fallback agrees with the dumps when every dimension has two cells; efield + bfield = field_energy_final when every component has one directory and one last iteration. The whole-grid diagnostic is preferred to averages for the split. Units: n0 has precedence and the two references describe the same plasma; light crosses the box in its code length; the laser intensity is the cycle average of eps0 c E^2 and I lambda^2 depends on a0 only; section priority. cfl_ratio < 1 exactly when dt is below every cell size; num_steps is the number of steps that fit. Refuted: averaged dumps keep the energy (a k-th remains), a component is counted once (grid plus average count twice), the streamed fallback drops single-cell dimensions, components saved at other cadences still count at the end, cfl_ratio < 1 is stable in 2D, arrays given element by element are read whole.", "quantifier": "every listing, file name, dump, cadence, deck, density and laser", "why_tests_cant": "metrics are computed from whatever files a run leaves; tests use one directory layout and cannot relate the three ways the same energy is computed", "anchors": ["adept/osiris/post.py: _latest_h5, _is_field_component_dir, _field_energy_from_dump, _total_field_energy, _final_iter, _total_field_energy_nc", "adept/osiris/plots.py: _resolve_fld_diag, field_energy_components", "adept/osiris/base.py: write_units, get_derived_quantities, _first_array_value, _infer_dim"]}
{"id": "C107", "title": "The saved vector potential of a VFP-2D run generates its in-plane magnetic field", "statement": "The az of a saved frame has zero mean, its Laplacian (with the solver's spectral derivatives) is minus the out-of-plane curl of B, and for every divergence-free in-plane field it satisfies B_x = d_y A_z and B_y = -d_x A_z up to the mean of the field, for every field without content at half the sampling rate, hence for every field on a grid with odd cell numbers. Refuted: the documented B_x = d_y A_z holds for a uniform field; it holds on grids with an even number of cells (a field alternating from cell to cell has potential zero).", "quantifier": "every grid size, cell size and in-plane field", "why_tests_cant": "tests use one smooth sheet and look at a gate, not at the potential; the identity is about every field and every grid size", "anchors": ["adept/vfp2d/plotting.py: _vector_potential, add_reconnection_diagnostics"]}
{"id": "C108", "title": "A frame is called reconnection, and given a rate and a flux, exactly under the stated conditions", "statement": "A saved frame is marked valid exactly when, on the line through the centre of the box, the strongest B_x on either side are opposite, within a factor seven, the in-plane field at the centre is at most half their mean, the potential has a saddle there and the window about the centre holds |j_z| of at least a quarter of the global peak. A rate is reported exactly for valid frames whose inflow is at least a tenth of the run's largest and not negligible; then rate times upstream field times inflow is E_z at the centre; a flux exactly for valid frames. Balance, sheet dominance, quadrupole purity and central fraction lie in [0,1], the inflow is nonnegative, the sheet width is at most the window's half width, the projection is bounded by the largest |B_z|. Reversing B and j keeps validity, rate, width and purity and negates flux and projection. A rate reported in a longer run is the rate of the shorter one. The run's summary: peaks bound every reported value and are attained, final values are those of the last frame or 0, the valid fraction lies in [0,1], is 1 (0) exactly when every (no) frame is valid. The facet panels are min(nt, n) distinct frames in order, first to last. Refuted: continuing a run keeps the rates already reported; moving the box along x keeps the quadrupole score (its mask is centred on x = 0, not on the centre of the box).", "quantifier": "every grid, frame, run and number of panels", "why_tests_cant": "the test has one frame and one grid; the gate, the normalisation by the whole run and the ranges are about every run", "anchors": ["adept/vfp2d/plotting.py: add_reconnection_diagnostics, reconnection_metrics, _selected_indices", "adept/vfp2d/base.py: BaseVFP2D.post_process"]}
{"id": "C109", "title": "The profiles the OSIRIS plots derive from the dumps are the physical ones", "statement": "With the four transverse fields dumped, the right- and left-going parts add up to the field, the sum and the difference of their squares are the energy density and the flux along x of the whole transverse field, a sampled superposition of waves moving right and left at speed one is taken apart into exactly those waves, and for every vacuum solution the parts are carried right and left. The boundary slabs are the same columns of the split of the whole grid, g..g+w-1 and their mirror image, inside the grid; the guard is given up and the window clipped exactly when they do not fit; there are no slabs exactly when there is no pair. A density profile exists exactly when a two-dimensional density moment was dumped; a number density is shown as it is; from a charge density magnitudes are kept, the total is not negative, and a species with one sign of charge gives its absolute value. The temperature is the sum of the squares of the two-dimensional thermal velocities (never negative, zero where all vanish), or the trace of the tensor. From a phase space it is the second central moment of the column, in [0, (b-a)^2/4] on a momentum axis within [a,b], zero exactly when all weight sits at the mean, missing exactly where there is no weight; it does not see drift, density or the sign of the charge and scales with the square of the momentum unit. The ion-acoustic overlay has one line for every species of the deck with rqm > 0 and a non-zero speed, c_s^2 = v_the^2/rqm + 3 u_th^2. Refuted: the two slabs are disjoint; the density from a charge density is not negative; a run with the temperature tensor has a temperature profile; the phase-space temperature at a place depends only on the distribution there; v_the is that of the first species with rqm < 0.", "quantifier": "every run: field, moment and phase-space arrays of any size, every guard and window, every deck", "why_tests_cant": "the tests use one constructed wave, one two-species deck and constant moments; the identities, the signs and the ranges are about every array", "anchors": ["adept/osiris/plots.py: efield_lr_components, transverse_field_boundary_slabs, _density_series, _temperature_series, _temperature_from_phasespace, ion_acoustic_speeds"]}
{"id": "C110", "title": "The cells, times and windows the OSIRIS plots show", "statement": "Downsampling towards a target keeps an axis below twice the target as it is and otherwise leaves between target and twice the target blocks; less than one block is left out at the end; the total over the kept cells is kept, values stay within the bounds of the data, a uniform axis stays uniform at the block centres. The sampled phase-space times are the multiples of the stride and the last dump, each once, in order, from the first to the last; between min(n, panels) and 2 panels - 1 of them (two for one panel); reading only these from disk draws exactly the panels chosen in the whole history. Cropping an increasing axis shows exactly the cells in the box, if there are any, and everything when the box attributes are missing. Colour limits exist exactly when some cell is not zero, span the log-magnitudes of the non-zero cells and are reached. The late mean of a profile is over the last w dumps, 1 <= w <= nt. The zoom of the dispersion plot is positive, within both Nyquist limits and the request, and the request when that fits. Refuted: every cell is in a downsampled picture; about as many panels as asked for (8 of 15 dumps are 15); the cropped axis is within the box and not empty; the late mean of the current lineouts over more than all dumps is over all of them.", "quantifier": "every array size, target, number of dumps and panels, axis, box, window and request", "why_tests_cant": "the tests use a few sizes; the counts, the composition of the two samplings and the clipping are about every size", "anchors": ["adept/osiris/plots.py: _boxcar_downsample, _evolution_t_indices, plot_phasespace_evolution, _sim_box_bound, _crop_spatial_to_box, _nonzero_log_clim, plot_profile, plot_currents_lineouts, _omega_k_zoom_window"]}
{"id": "C111", "title": "OSIRIS plots are regenerated with the settings of the live run", "statement": "Each plot parameter follows from the output block as documented (v_th, omega_k_zoom with an explicit null kept, omega_p = sqrt(overlay_density), the overlays), else its default. When regenerating, an override wins over the block of the run's config.yaml and the block over the defaults; without overrides a run directory with its config.yaml and binary directory is drawn from its binary data with exactly the arguments of the live run into plots_regen; naming the run directory or its binary directory is the same. On the command line each option given wins and disabling the zoom wins over a requested zoom. Refuted: a run without a config.yaml is drawn with the defaults (the config.yaml of the directory above it is taken, unless the binary directory is named).", "quantifier": "every output block, directory tree and command line", "why_tests_cant": "tests check single keys; precedence is about every combination of block, overrides and directory layout", "anchors": ["adept/osiris/regen.py: find_binary_dir, default_out_dir, load_output_cfg, regenerate, _cli_overrides", "adept/osiris/plots.py: canned_plot_kwargs, save_canned_plots", "adept/osiris/post.py: collect"]}
{"id": "C112", "title": "What a 1D Hermite-Poisson run saves, and when", "statement": "The saved field energies are not negative and vanish exactly when the field vanishes on the grid; the density extrema are reached and enclose every density value and the mean alpha^3 Re C_0(k=0); Ck_e_max bounds every electron coefficient and is one of them. Every block but default keeps its own save function and time axis, else gets the one of its name and an axis from tmin (0) to tmax (the end of the run) with nt points; scalar diagnostics are always saved, over the whole run unless the block says when, in the block's place or last. The run ends at the first multiple of dt beyond the requested time and at most dt after it. Each coefficient is stored exactly once, labelled with its mode number in increasing order from -(Nx/2), and the stored entries with their labels give back the array on the grid. Refuted: e_energy is an energy of the field (it doubles with the number of cells); a function the caller put in the default block is kept; the default diagnostics are saved at times the solver steps to (they are dt nt/(nt-1) apart).", "quantifier": "every state, number of cells and Hermite modes, save configuration, step and end time", "why_tests_cant": "tests look at a few saved arrays of one run; extrema, precedence and the labelling are about every state, configuration and size", "anchors": ["adept/_hermite_poisson_1d/storage.py: get_fields_save_func, get_default_save_func, get_save_quantities, store_ck_timeseries", "adept/_hermite_poisson_1d/modules.py: BaseHermitePoisson1D.get_derived_quantities"]}
