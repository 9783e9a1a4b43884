# Design of the formal model of CosTuuM

The code under study is /repo (src/ and quicksched/, C++ and C, read as text). The model is in
`rocq/theories/` (logical name `Verif`). Files are either *models* (definitions that follow the code
function by function, each with a comment citing file and lines), *proof* files, or `Props_*.v` files,
which hold the specification vocabulary and the theorems named after the properties of
`properties.jsonl`, each followed by `Print Assumptions` and by an `Example` showing that its hypotheses
are met by a concrete case.

Suffixes: `_partial`: the theorem covers a part of the English property, the rest is named in MANIFEST.json;
`_refuted`: the property (or the part of it named in the note) is false of the code, and the theorem proves
the counterexample.

## 1. Trusted base

* Coq 8.16.1's kernel (and its compiled standard library). No plugin, no native compilation, no switched-off check.
* Axioms: only those of Coq's standard library. Section 5 lists what `Print Assumptions` shows for every
  theorem of the manifest. The axioms that occur at all are
  `ClassicalDedekindReals.sig_forall_dec`, `ClassicalDedekindReals.sig_not_dec`,
  `FunctionalExtensionality.functional_extensionality_dep` (all three come with Coq's real numbers),
  and `Classical_Prop.classic` (excluded middle: used for infinite fair runs).
* Coquelicot is used as an ordinary library (complex numbers, Riemann integrals, derivatives); it adds no axioms.
* The hand translation of C/C++ into Gallina. Nothing in the build connects the `.v` files to /repo mechanically;
  the citations in the comments are what a reviewer has to compare.
* The specifications in the `Props_*.v` files (and `Legendre.v`, `GaussExact.v`, top of `YamlFacts.v`,
  the RFC 1321 part of `Props_md5.v`).

## 2. What the model simplifies

Common to all models

* Memory allocation succeeds; sizes do not overflow unless a definition says otherwise (`UB`, `Fails` and
  `None` outcomes are distinct constructors where the code can reach undefined behaviour, an error exit
  or an invalid value).
* Floating point: physics models use exact real (or complex) arithmetic. C21 uses IEEE 754 semantics
  (Coq's `SpecFloat`) for the convergence criterion because NaN and infinity matter there. Rounding is
  otherwise not modelled.
* Integers are unbounded except where wrap-around matters: integer parsing (types of at most 64 bits),
  memory accounting (64-bit unsigned), MD5 (32-bit words, 64-bit counters).

Scheduler (Queue, LockProto, Sched, CSort, Prepare, LockSeq, Api, Fair, Live)

* Memory is sequentially consistent; an interleaving is a sequence of atomic steps, one per atomic operation
  (test-and-set, fetch-and-add, queue lock, single store) of the code. In `LockProto.v` a step is one
  atomic instruction of `lockres`/`unlockres`. In `Sched.v` the operations on a queue are one step because
  the code holds the queue's spin lock during them; lock attempts on resources inside a scan are separate
  steps and interleave with every other thread.
* Random numbers of the stealing loop are nondeterministic choices.
* Task functions are opaque: they return, and they have the declared footprint where data matters.
* qsched's timers, pthread back end, reuse keys/ownership hints and `qsched_res_own` counters are not modelled
  (the reuse heuristic affects only which queue is preferred, which is a nondeterministic choice here).
* Fairness (`owed`, Fair.v): user functions return; code that does not wait goes on; an idle thread finds a task
  that stays available in a queue that stays free; a thread that waits for a queue gets it if it is released again and again.

Task graph (TaskGraph, TaskDeps, Footprint, GraphApi, GraphHist, GraphRun, Races, Determinism, SlotFree, SlotFinal, DryRun, MemLimit)

* `generate_tasks` is modelled as the list of scheduler calls and pointer-table stores it performs for any numbers
  of compositions, sizes, wavelengths, shapes, orders, slots and any combination of requested observables.
* What each `execute()` reads and writes is transcribed by hand (Footprint.v); per-thread scratch arrays are not shared
  and are not modelled. What is computed is abstract.

Numerics (Legendre, Wigner, Quadrature, GaussExact, Orientation, Matrix, Optics, Average, Lookup, Index, ...)

* The surface integrals (elements of Q and RgQ) are modelled in QMatrix.v for any radial functions (the values that the
  Bessel routines return are parameters of the model); Ebcm.v is the separate specification.
* Bessel functions: Bessel.v models both array routines over real and complex scalars; in QMatrix.v the radial functions stay parameters.

Texts (Parse, Yaml, CmdLine, MD5, Units, ...)

* A `std::string` is a list of 8-bit characters; `char` is signed and `uint_fast32_t` has 64 bits (x86-64 Linux);
  `std::getline` is splitting at newlines; `std::map` is a sorted association list; locale is "C".
* What is printed as help or log messages is not modelled, except where a property is about it.
* C++ exceptions and `ctm_error` (abort) are both the outcome `Fails`.

Not modelled at all: the Python bindings other than the layout of `get_table`, the file formats of the tools,
timers and logging, benchmark and test programs.

## 3. Property by property

### C01 Every registered task runs exactly once (proved)

Sched.v: transition system of execute_tasks (get task, lock, roll back, run, unlock, release dependants, enqueue) for any number of threads; Api.v: every history of registration calls. Inductive invariant over all reachable states; the log of the run is compared with the registered ids.

Theorems: `C01_every_task_exactly_once`, `C01_never_twice`.
All interleavings of any number of threads at single-atomic granularity (sequentially consistent memory).

### C02 A task starts only after everything it depends on has finished (proved)

Same transition system; invariant relating wait counters to the finished dependencies.

Theorems: `C02_dependencies_respected`.

### C03 Write-linked tasks never overlap (proved)

Same transition system together with the lock invariant of LockProto.v.

Theorems: `C03_write_links_exclude`.
Both tasks are inside execute() at the same moment in different threads.

### C04 The hierarchical lock protocol is mutually exclusive at the level of single atomic operations (proved)

LockProto.v: one step per atomic instruction of lockres/unlockres; inductive invariant over the program counters of all threads.

Theorems: `C04_mutual_exclusion`, `C04_within_one_thread`, `C04_counters`, `C04_counters_quiescent`.

### C05 A failed attempt to lock a task's resources leaves no trace (proved)

LockSeq.v: lockres/locktask as functions on the lock state; equality of states after failure.

Theorems: `C05_failed_attempt_leaves_no_trace`, `C05_success_adds_exactly`, `C05_succeeds_iff_free`, `C05_unlock_restores`.
Single-threaded view of locktask/unlocktask; the concurrent view is C04.

### C06 The scheduler cannot deadlock (proved)

Progress from the invariant: from every reachable state a completing schedule is constructed.

Theorems: `C06_always_possible_to_complete`, `C06_self_conflicting_task_never_starts`.
Absence of deadlock: from every reachable state a complete run is reachable. Termination under a fair scheduler is C55.

### C07 Circular dependencies are reported exactly when they exist (proved)

Prepare.v: model of the topological sort loop; loop invariant, both directions.

Theorems: `C07_circular_dependencies_detected_exactly`.

### C08 Task priority is the length of the critical path (proved)

Prepare.v: model of the backward weight loop; weight compared with the maximum over paths of the sum of costs.

Theorems: `C08_weight_is_critical_path`.

### C09 Ready queues never lose, duplicate or misorder tasks (proved)

Queue.v: array model of the heap with the scan of queue_get; multiset and heap-order invariants.

Theorems: `C09_queue_contents`, `C09_queue_operations`.

### C10 Link tables are grouped per task without losing links (proved)

CSort.v: counting sort; permutation, grouping and stability.

Theorems: `C10_link_tables`.

### C11 Registrations survive buffer growth (proved)

Api.v: growing buffers; every registered item is found unchanged after any number of further calls.

Theorems: `C11_registrations_survive`.

### C12 A scheduler can be executed again after it completed (proved)

Api.v: life of a scheduler over several complete runs.

Theorems: `C12_rerun`.

### C13 The generated task graph has no cycles (proved)

TaskGraph.v: generate_tasks as event list; rank function; run by Api.v/Sched.v.

Theorems: `C13_no_cycles`, `C13_execution_starts_and_can_finish`.
For every configuration with at least one slot and n_quad>0 (see C20 for n_quad=0).

### C14 Generated tasks are free of data races (proved)

Footprint.v: what each execute() touches; path lemma for each conflicting pair; races stated about states of the scheduler.

Theorems: `C14_conflicting_tasks_are_ordered`, `C14_no_data_race`, `C14_ids_are_tasks`.
Footprints of execute() are transcribed by hand per task type (Footprint.v).

### C15 Results do not depend on the schedule (proved)

Races.v/Determinism.v: trace-commutation theorem for interleavings of small steps + C14.

Theorems: `C15_schedule_independent`.
For any task code that respects the footprints; sequentially consistent interleaving of arbitrarily small steps.

### C16 Results do not depend on the memory limit (proved)

SlotFree.v/SlotFinal.v: every complete run is equivalent to the block-by-block order with fresh storage.

Theorems: `C16_slot_count_irrelevant`.
Hypotheses on the code: footprints, and reset tasks restore the freshly constructed state.

### C17 The dry run counts exactly the objects that are created (proved)

DryRun.v: model of the dry run; counting lemmas over the event list; positions in the pointer tables.

Theorems: `C17_tables_exactly_filled`, `C17_task_lookups`, `C17_resource_lookups`, `C17_result_order`.
All pointer tables are filled exactly and looked-up offsets hit the intended objects.

### C18 The scheduler reservation made before task creation is sufficient (partial)

DryRun.v: reserved numbers against numbers of calls; exact deficits.

Theorems: `C18_reservation_partial`, `C18_reads_and_resources_refuted`.
Tasks, dependencies and write links suffice; read links and resources are short by an exactly computed number, so that half of the claim is refuted.

### C19 The memory limit is respected (partial)

MemLimit.v: 64-bit arithmetic of the slot computation; object sizes against accounted sizes.

Theorems: `C19_slots_in_range`, `C19_slots_monotone`, `C19_slots_maximal`, `C19_accounted_within_limit_partial`, `C19_too_small_limit_refuted`, `C19_object_sizes_refuted`, `C19_object_sizes_partial`.
Range, monotonicity and maximality are proved; a limit below the minimum is not detected (wrap-around) and four object kinds are under-accounted: those parts are refuted.

### C20 Task generation is defined for every accepted order range (proved)

TaskGraph.v: the dereference of a null table entry as an explicit outcome.

Theorems: `C20_null_dereference_exactly_when`, `C20_equal_order_limits_refuted`, `C20_defined_for_proper_ranges`.
The claim as stated is false of the code: for minimum_order = maximum_order a null pointer is dereferenced (proved); it holds for minimum_order < maximum_order.

### C21 The T-matrix order search stops at the first converged order (partial)

Converge.v: state machine of the order tasks with IEEE comparisons.

Theorems: `C21_order_tasks_in_sequence`, `C21_first_accepted_order_is_used`, `C21_last_order_if_none`, `C21_cases_exhaustive`, `C21_unchanged_factors_refuted`.
Fully proved for the acceptance criterion of the code (IEEE comparison semantics); the literal claim is refuted in one case: a relative change of exactly zero is not accepted.

### C22 Result index is a bijection in row-major order (proved)

ResultTable.v: index arithmetic; bijection, order of creation.

Theorems: `C22_injective_and_in_range`, `C22_surjective`, `C22_row_major`, `C22_agrees_with_creation`.

### C23 get_table returns each quantity at the right place (proved)

ResultTable.v: the loops of get_table, with the sorting of sizes and wavelengths.

Theorems: `C23_coefficients`, `C23_scattering_matrices`, `C23_null_result`, `C23_position_in_unsorted_input_refuted`.
As stated (positions refer to the sorted sizes and wavelengths); the stronger reading with positions of the unsorted input is refuted.

### C24 Shape averaging is the weighted mean (proved)

Average.v: the weighted sums of ShapeAveragingTask over the reals.

Theorems: `C24_weighted_mean`, `C24_between_extremes`, `C24_common_factor`, `C24_equal_inputs`, `C24_frame`.
Exact real arithmetic.

### C25 Matrix inversion returns the exact inverse (proved)

Matrix.v: plu_inverse as nested loops over a matrix over any field; loop invariants.

Theorems: `C25_any_field`, `C25_complex_inverse`, `C25_complex_zero_pivot`, `C25_real_inverse`, `C25_scratch_irrelevant`.
Exact field arithmetic; a zero pivot is the outcome None of the model.

### C26 Table interpolation (proved)

Lookup.v: table interpolation over the reals.

Theorems: `C26_grid_points`, `C26_between_grid_points`, `C26_extrapolation`.
Exact real arithmetic.

### C27 Bracketing search (proved)

Lookup.v: bisection loop of Utilities::locate.

Theorems: `C27_cell`.
Exact real arithmetic.

### C28 T-matrix element addressing is a bijection inside the allocated block (proved)

Index.v: arithmetic of the offsets.

Theorems: `C28_inside_block`, `C28_distinct_cells`, `C28_reader_agrees_with_writer`.

### C29 Special Wigner table addressing is a bijection (proved)

Index.v: arithmetic of the offsets.

Theorems: `C29_position`, `C29_distinct`, `C29_all_used`.

### C30 The scattering matrix is the Stokes-space image of the amplitude matrix (proved)

Optics.v: the 4x4 matrix as polynomials in the amplitude matrix; Stokes vectors as specification.

Theorems: `C30_maps_stokes_vectors`, `C30_polarisation_defect`, `C30_physical_light_stays_physical`, `C30_fully_polarised`, `C30_unique`.
Exact complex arithmetic.

### C31 Perfect Davis-Greenstein alignment coefficients are Legendre polynomial values (proved)

Orientation.v + Legendre.v (Rodrigues).

Theorems: `C31_prolate`, `C31_oblate`.
Exact real arithmetic.

### C32 Quadrature rules are symmetric and map affinely (proved)

Quadrature.v: the loop over half of the roots, Newton step and affine map.

Theorems: `C32_symmetric`, `C32_affine_image`, `C32_exactness_carries_over`, `C32_newton`, `C32_tolerance`.
Exact real arithmetic, for any root finder outcome.

### C33 Wigner d functions (proved)

Wigner.v: recurrence loops against derivatives of Legendre polynomials.

Theorems: `C33_legendre_values`, `C33_mirrored_rows`.
Exact real arithmetic; P defined by the Rodrigues formula.

### C34 Optical constants: refractive index squares to the dielectric function (proved)

Optics.v: complex square root as in the code.

Theorems: `C34_square_root`, `C34_unique`, `C34_negative_imaginary_part_refuted`.
For Im(eps) < 0 the result belongs to the conjugate (extra finding, outside the claim).

### C35 Alignment selection (proved)

Orientation.v: case analysis of the selection.

Theorems: `C35_selection`, `C35_types`, `C35_copied_flag_refuted`.
Extra finding: copying a distribution (custom type) loses its disabled flag (refuted).

### C36 Parameter files round-trip (proved)

Yaml.v: parser and printer on lists of characters; induction over sorted dictionaries.

Theorems: `C36_roundtrip`, `C36_used_values`, `C36_parsed_files`.
All dictionaries of well-formed keys and values, and every dictionary that results from parsing any text.

### C37 Parameter lookup and default semantics (partial)

Yaml.v: lookups as functions on the two maps of the dictionary; histories of lookups.

Theorems: `C37_lookups`, `C37_used_file`, `C37_marker_refuted`, `C37_required_after_default_refuted`.
Proved for all histories and value types against a specification that includes what the code does after a default was used; false of the code for the text "default value" and for required lookups after a lookup with default.

### C38 Every parameter file is parsed without undefined behaviour (partial)

Yaml.v: explicit UB outcome for the accesses past the end of a text.

Theorems: `C38_undefined_exactly`, `C38_defined`, `C38_no_undefined_behaviour_refuted`.
The claim is false of the code; exact characterisation of the texts for which parsing is undefined.

### C39 Command line parsing (proved)

CmdLine.v: model of the option parser over argv.

Theorems: `C39_values`, `C39_stops`, `C39_negative_argument_refuted`.
Values starting with a dash need the --name=value form (refuted for the separate form).

### C40 Integer parsing (partial)

Parse.v: string_to_integer with the wrap-around of the type.

Theorems: `C40_decimal`, `C40_roundtrip`, `C40_hexadecimal`, `C40_exponent`, `C40_most_negative_refuted`, `C40_hexadecimal_refuted`, `C40_too_large_wraps`, `C40_garbage_refuted`.
Proved for every type of at most 64 bits and every decimal numeral whose magnitude is representable; false of the code for the most negative number (signed overflow) and for hexadecimal numerals that use the top digit of a signed type (rejected), both refuted by theorem.

### C41 Integer factorisation (proved)

Parse.v: trial division.

Theorems: `C41_prime_factors`, `C41_terminates`, `C41_no_factors`.

### C42 MD5 checksum (proved)

MD5.v: model with 32-bit words; RFC 1321 as separate specification with the real sine function.

Theorems: `C42_md5`, `C42_padding_exists`.
Against RFC 1321, including the table of sines (T[i] is defined with the real sine function); unsigned int 32 bits, unsigned long 64 bits.

### C43 Unit algebra (partial)

Units.v: units as value and exponent vector; the name tables and the parser of composite units.

Theorems: `C43_named_units`, `C43_all_names`, `C43_multiply`, `C43_divide`, `C43_power`, `C43_power_zero_refuted`, `C43_system_of_units`, `C43_positive`, `C43_parse`, `C43_unknown`, `C43_no_name`, `C43_SI_units`, `C43_to_SI`, `C43_to_unit`, `C43_convert`, `C44_inverse`.
Exact reals. The law for powers holds for every power except 0: a unit raised to the power 0 becomes dimensionless but keeps its value (C43_power_zero_refuted).

### C44 Unit conversion between quantities (proved)

Units.v: convert between quantities.

Theorems: `C44_energy_frequency`, `C44_wavelength_frequency`, `C44_refused`, `C44_energy_wavelength_refused`, `C44_inverse`.
Exact reals. Energy and wavelength are not related directly: such a conversion is refused.

### C45 Progress reports are defined and exact (partial)

Progress.v: TaskCounter with interleaved increments.

Theorems: `C45_reports_sound_partial`, `C45_sequential_reports`, `C45_few_tasks_refuted`, `C45_exactly_once_refuted`.
Sound with at least 50 tasks; division by zero with fewer; under concurrency a milestone may be reported twice and another one skipped.

### C46 Wigner d functions of every azimuthal order (proved)

Wigner.v.

Theorems: `C46_values_and_derivatives`, `C46_number_of_entries`, `C46_low_orders`.
Exact real arithmetic.

### C47 Wigner d functions divided by sin theta, up to the poles (proved)

Wigner.v.

Theorems: `C47_regular`, `C47_poles`, `C47_poles_m0`.
Exact real arithmetic; within 1e-10 of a pole, but not at it, the code returns the value at the pole.

### C48 Mirrored Wigner d tables are exact (proved)

Wigner.v.

Theorems: `C48_even_m_exact`, `C48_products_exact`, `C48_odd_m_sign_refuted`.
Products (all that is used) are exact for all m; single entries of the mirrored half have the wrong sign for odd m (refuted).

### C49 Gauss-Legendre rules integrate polynomials exactly (proved)

GaussExact.v: orthogonality by integration by parts, interpolation; the rule returned by the model of Quadrature.v.

Theorems: `C49_gauss_rule_exact`.
Under the hypothesis that the root finder returned exact, distinct roots of P_n (Newton accuracy: C32_newton, C32_tolerance).

### C50 Imperfect alignment: coefficients are moments of a density with the requested mean (proved)

Orientation.v.

Theorems: `C50_coefficients_are_moments`, `C50_normalised_mean_and_sign`, `C50_small_order_refuted`.
nmax<2 writes outside the vector (refuted part).

### C51 Amplitude matrices are the full spherical-wave sum (proved)

Optics.v.

Theorems: `C51_amplitude_is_the_full_sum`, `C51_forward_is_diagonal`, `C51_prefactors`.
The -m symmetries of the T-matrix and Wigner functions are hypotheses.

### C52 Extinction and absorption coefficients follow from the amplitude matrices (proved)

Optics.v.

Theorems: `C52_extinction_matrix`, `C52_extinction_coefficients`, `C52_absorption_coefficients`.

### C53 The T-matrix solves its defining linear system (proved)

Matrix.v.

Theorems: `C53_defining_system`, `C53_fails_exactly_for_singular_Q`.
Q and RgQ themselves (surface integrals) are inputs.

### C54 Boolean parameters round-trip (partial)

Parse.v.

Theorems: `C54_roundtrip`, `C54_words`, `C54_blank_refuted`.
Round trip proved for all booleans and blanks; a text that is blank is undefined behaviour (exact characterisation).

### C55 execute_tasks returns under every fair scheduler (partial)

Fair.v, Live.v: infinite fair runs of Sched.v, lexicographic progress argument over the ranking of resources; LiveEx.v: the livelock.

Theorems: `C55_fair_runs_end_partial`, `C55_single_write_links`, `C55_fair_runs_exist`, `C55_unordered_links_refuted`.
Proved when some ranking of the resources increases along the write links of each task (in particular with at most one write link per task). False of the code otherwise: C55_unordered_links_refuted is a fair livelock of two tasks locking two resources in opposite orders.

### C56 CosTuuM's own task graphs always terminate (proved)

Props_live.v: the ranking of the resources of the generated graph.

Theorems: `C56_task_graph_terminates`.

### C57 Clebsch-Gordan coefficients are exact (proved)

Racah.v: Racah's formula and the ladder, normalisation and symmetry relations derived from it. Clebsch.v: the array code with checked accesses; loop invariants.

Theorems: `C57_coefficient`, `C57_coefficients`.
Exact real arithmetic; out of bounds, division by zero and negative roots are separate outcomes.

### C58 Orientation averages follow Mishchenko's formula (proved)

Align.v: the loops of the average with the work array threaded through; AlignFacts.v: invariants, cancellation by symmetry.

Theorems: `C58_average`, `C58_calculator`, `C58_no_alignment`.
The off-diagonal quarters at m=0 are assumed to be zero (symmetry of the particle); work array large enough (C60).

### C59 Orientation averages preserve what orientation cannot change (proved)

Consequences of C58 and of the orthogonality of the coefficients to the scalar state.

Theorems: `C59_random_orientation`, `C59_trace_invariant`.

### C60 The orientation average stays inside its work array (partial)

Align.v: accesses outside the array are an outcome; exact condition.

Theorems: `C60_bounds_exactly`, `C60_no_overflow_partial`, `C60_overflow_refuted`.
The exact condition is proved; the claim holds for nmax <= 0.7 maximum_order and is false of the code when the order search ends at maximum_order (heap overflow).

### C61 Spheroid geometry (proved)

QMatrix.v: the loop over half of the points; Ebcm.v: the radius of a spheroid as a function of the polar angle, its derivative.

Theorems: `C61_spheroid_radius`.
Exact real arithmetic.

### C62 The Q-matrices are the documented surface integrals (proved)

QMatrix.v: both execute() functions with their loops and matrix assembly. Ebcm.v: the integrals as documented, with vectors, cross and dot products. Props_tmatrix.v: equality of every element.

Theorems: `C62_surface_integrals`.
The Bessel functions are parameters (any radial functions); exact real arithmetic.

### C63 The stored T-matrix is the solution of the extended boundary condition (proved)

C62 and C53 (PLU inverse).

Theorems: `C63_T_matrix`, `C63_gauss_rule`, `C63_fails_exactly_when_singular`.
As C62.

### C64 The T-matrix has the symmetries of a spheroid (proved)

From the zeros of Q and RgQ through the uniqueness of the solution.

Theorems: `C64_symmetries`.

### C65 Spherical Bessel functions of the second kind are exact (proved)

Bessel.v: the template over an abstract scalar type, instantiated with reals and complex numbers. BesselSpec.v: power series (DLMF 10.53) and complex derivative. BesselFacts.v: series satisfy the recurrence and derivative relations, n=0,1 are sine and cosine expressions. Induction over the loop.

Theorems: `C65_y_complex`, `C65_y_real`, `C65_y_bounds`, `C65_real_and_complex_agree`, `C65_one_element_refuted`.
Exact arithmetic. The array must have two elements even when one order is asked for (the last theorem).

### C66 Spherical Bessel functions of the first kind are accurate (partial)

BesselRun.v: the ratios are quotients of the backward solution; Casorati determinant gives the error exactly. BesselBound.v, BesselAcc.v: bounds.

Theorems: `C66_truncation`, `C66_no_division_by_zero`, `C66_accuracy`, `C66_accuracy_real`, `C66_accuracy_small`, `C66_bounds`, `C66_zero_of_sine_refuted`, `C66_division_by_zero_refuted`, `C66_division_by_zero_near_pi_refuted`.
Exact arithmetic. The error is given exactly for all arguments and bounded for |z|<=1 (all orders) and for |z|<=20 (orders to 400, away from zeros of the sine); no division by zero is proved off the real axis and for |z|<=1. Missing: bounds for larger |z|. False of the code: at zeros of the sine everything returned is zero; at a real argument between 3 and 10/3 (and at sqrt(1599*1601)) the recursion divides by zero; more than 800 orders run off the array.

### C67 Equal volume and equal surface spheres (proved)

Shape.v: the formula. ShapeFacts.v: antiderivatives for the surface integral of oblate and prolate spheroids.

Theorems: `C67_equal_volume_to_equal_surface`.
Exact arithmetic.

### C68 The CDE2 shape distribution is a probability density (proved)

Shape.v: shape factor, Jacobian, density. ShapeDep.v: the improper depolarisation integral. ShapeFacts.v: derivative including the removable singularity at the sphere, Taylor bounds for the window. ShapeSearch.v: integrability of the coded (piecewise) density and its relative error.

Theorems: `C68_shape_factor_is_depolarisation_factor`, `C68_shape_factor_range`, `C68_jacobian_is_the_derivative`, `C68_probability_of_axis_ratios`, `C68_probability_density`.
Exact arithmetic.

### C69 The limits of the shape distribution meet the requested criterion (partial)

Shape.v: the four loops with fuel, assertions on or off. ShapeSearch.v: bracket invariants, tails of the density, Lipschitz bound; enough fuel exists and more does not change the result.

Theorems: `C69_cutoff_range`, `C69_cutoff_range_with_assertions`, `C69_accepted_cutoffs_without_range_refuted`, `C69_fraction_range`.
Exact arithmetic. False of the code for cutoffs between 64/135 and 1/2: accepted, but the range is the single axis ratio 1 and all weights are zero (a failed assertion when those are on). The accuracy of the quadrature is a hypothesis of the fraction theorem.

### C70 Refraction at a surface obeys Snell's law and conserves energy (proved)

Refraction.v: the constructor, undefined quotients as an outcome. Boundary conditions of the fields as specification.

Theorems: `C70_snell`, `C70_fresnel`, `C70_solution_exists`, `C70_grazing`, `C70_grazing_equal_materials_refuted`.
Exact arithmetic. One input without a value: grazing incidence between equal materials is 0/0 (the last theorem).

### C71 Adaptive quadrature stops at the first order that agrees (partial)

Adaptive.v: the loop by recursion on maximum - order, quotients by zero as infinity or not-a-number. Loop characterisation by induction; exact rules exist for every order (GaussRoots.v: Rolle's theorem).

Theorems: `C71_result`, `C71_zero_function`, `C71_smooth`, `C71_terminates`, `C71_polynomials_exact`, `C71_no_order_refuted`, `C71_first_order_refuted`, `C71_warning_although_settled_refuted`.
Exact arithmetic; exactness for polynomials assumes exact Gauss rules. False of the code: the first order is compared with 0, so a small first value is returned without any comparison; the warning also appears when the last order agrees; without an order below the maximum 0 is returned.

### C72 A T-matrix from the calculator has converged (partial)

Adaptive.v: both loops with floating point numbers (spec_float) and null pointers; characterisation of a loop used twice.

Theorems: `C72_converged`, `C72_unable`, `C72_no_null_pointer`, `C72_maximum_order_refuted`, `C72_null_pointer_refuted`, `C72_maximum_ngauss_refuted`, `C72_not_a_number_refuted`.
Proved for a first order below maximum_order and tolerances below 1. False of the code: a larger first order is accepted (order above the maximum, or a null pointer); an order that already uses more points than allowed is returned unchecked; not-a-number counts as converged; convergence at the last order is refused.

### C73 A TMatrix object holds the T-matrix of its particle (proved)

TClass.v: constructor, compute_additional_elements, element access, with the accumulating update of the matrices. The assembled matrices are shown to be i R_V^2 times those of the tasks (TClassFacts.v), so T is the same; induction over m and over the number of calls.

Theorems: `C73_T_matrix`, `C73_fails_exactly_when_singular`, `C73_same_as_tasks`, `C73_repeated_calls`, `C73_set_element`, `C73_in_bounds`.
Exact arithmetic; quadrature rule and Bessel functions are parameters, as for C62-C64. The object is only right after exactly one call of compute_additional_elements: k calls give k times the T-matrix for m > 0 (C73_repeated_calls).

### C74 The orientation of the particle only turns the frame (proved)

Frames.v: all four- and six-angle functions. The specification (FramesFacts.v) uses three-dimensional vectors: field vectors, the frame of the particle. At poles the amplitude has a special shape in the azimuth, proved by induction over the sums.

Theorems: `C74_same_scattered_field`, `C74_angles_exist`, `C74_unique`, `C74_only_the_axis_matters`, `C74_axis_along_z`, `C74_rotation`, `C74_series`.
Exact arithmetic: in floating point acos may get an argument slightly above 1. C74_series is for angles that are 0, pi or at least 1e-5 away from them (the code switches to the pole values there).

### C75 Cross sections and coefficients of a TMatrix object are those of its scattering matrix (proved)

Frames.v, rest; sums over n, n', m with guards are rewritten to the sums over all m from -nmax to nmax; the zeros used are those of C64.

Theorems: `C75_scattering_matrix`, `C75_extinction_matrix`, `C75_reduced_form`, `C75_reduced_form_in_general_refuted`, `C75_scattering_coefficient`, `C75_extinction_coefficient`, `C75_objects_are_plane_symmetric`, `C75_absorption_cross_sections`, `C75_absorption_cross_section`, `C75_average_absorption`.
Exact arithmetic; the quadrature rules are parameters. The form of the extinction matrix that get_reduced_extinction_matrix assumes is proved when the axis lies in the plane of the z axis and the light, and refuted otherwise.

### C76 Averages over all directions are the sums over the T-matrix (proved)

Orthogonality of the angular functions pi and tau (Ortho.v, from the associated Legendre equation and integration by parts) holds exactly for a Gauss rule with more than nmax points; a Parseval identity over both directions (AverageFacts.v); the error of the Gauss rule for e^{i j phi} from Taylor polynomials (Azimuth.v); points stay away from the poles because |P_n'| <= n(n+1)/2 (GaussBounds.v).

Theorems: `C76_averages`, `C76_average_extinction`, `C76_average_scattering`, `C76_average_absorption`, `C76_rule_of_the_code`.
Exact arithmetic, exact Gauss-Legendre points (C49 says when the code has them), at most 100000 points (beyond, points may be replaced by the pole), for T-matrices with the zeros that C75_objects_are_plane_symmetric shows for objects of the class.

### C77 A run returns the specified composition of its kernels (proved)

Whole.v: the control flow of every execute() over the shared objects, kernels as parameters. Any run is equivalent to the canonical order, block by block, with fresh storage (SlotFree.v, SlotFinal.v); in that order the contents are computed by induction over the orders (relation to the search of Converge.v), the m values and the blocks.

Theorems: `C77_results`, `C77_order_exists`, `C77_order_unique`, `C77_outcome_exists`.
The numerical kernels are parameters (C78, C79 fill them in); C77_results holds for every implementation of the execute() functions in any number of steps with the listed reads and writes.

### C78 The tasks store the observables of the particle (proved)

Observables.v: grids, tables and execute() of the three observable tasks with their loops and array updates. A property of one entry that every iteration keeps and one iteration establishes holds after the loop; injectivity of the table index (C29) makes all writes to other matrices irrelevant.

Theorems: `C78_extinction`, `C78_absorption`, `C78_scattering`, `C78_series`, `C78_rows`.
Exact arithmetic; the points and weights of the quadrature rules are parameters (in [-1,1]). The tasks give the values of the functions of class TMatrix (C74, C75) for an axis along z; C78_series relates them to the textbook series for angles that are 0, pi or at least 1e-5 away from them.

### C79 A run returns the optical properties of the particles that were asked for (proved)

Physics.v: an instance of the kernels of Whole.v made of the models of the single functions (QMatrix, Align, Observables, Average), i.e. the wiring of TaskManager::generate_tasks. Props_physics.v: the environment the T-matrix tasks see is make_env of C62-C64 by computation; C63 gives the defining equation, C64 the zeros C58 needs, C58 the average, C78 the observables, C77 the schedule independence, Average.v the mean.

Theorems: `C79_physics`, `C79_points`, `C79_unique`, `C79_convergence_test`.
Exact arithmetic; the Bessel functions (C65, C66 are about them), the points and weights of the quadrature rules (C32, C48, C49) and the rounding of the two efficiency factors are parameters. Assumes that Q is invertible at the selected order and that the work array of the orientation average is large enough (C60 shows when it is not).

### C80 Coefficients of a user-supplied orientation density (proved)

Density.v: the base class with its density, initialise and copy constructor, on top of the adaptive quadrature of Adaptive.v; a zero normalisation and a quadrature that does not return are distinct outcomes. C71 gives the accepted order; an integrand close to a polynomial is integrated closely by an exact Gauss rule because the weights are positive and sum to the length (Interp.v); the uniform density needs the Legendre polynomials as trigonometric sums (Bands.v) to bound the derivatives of the integrand.

Theorems: `C80_coefficients`, `C80_accuracy`, `C80_returns`, `C80_returns_density`, `C80_mirror`, `C80_copy`, `C80_copy_density_refuted`, `C80_uniform`.
Exact arithmetic; accuracy is for exact Gauss rules (C48, C49). Refuted: a copy evaluates to density 0 everywhere, since the copy constructor sets the normalisation to 0. Without a positive integral the code may divide by zero (second case of C80_returns).

### C81 evaluate of an orientation distribution is the truncated Legendre series (proved)

Density.v: evaluate with its recurrence and its loop bound; out-of-bounds access at order 0 is an outcome. The row of Wigner functions is the Legendre polynomials (C28); orthogonality (GaussExact.v) gives the moments, and a polynomial all of whose moments vanish is zero.

Theorems: `C81_series`, `C81_moments`, `C81_polynomial_density`, `C81_mishchenko`, `C81_last_coefficient_refuted`, `C81_order_zero_refuted`.
Exact arithmetic. Refuted: the last coefficient is never used (with order 2, imperfect alignment evaluates to 1/2 everywhere), and order 0 accesses arrays out of bounds.

### C82 Array arguments are read with their layout (partial)

NumPy.v: memory as bytes, an array as address, dimensions and strides; reads outside of the buffer are a distinct outcome. The specification (holds) says which value sits at which address according to NumPy's documentation. Induction over the read loop.

Theorems: `C82_unpack`, `C82_slice`, `C82_more_dimensions`, `C82_absorption_angles`, `C82_absorption_angles_every_second_refuted`, `C82_absorption_angles_reversed_refuted`, `C82_four_byte_types_refuted`, `C82_integer_argument_refuted`.
Little-endian memory, elements of eight bytes. Proved for every layout where unpack_numpy_array is used. False of the code: the absorption functions of a T-matrix object ignore strides (right for adjacent elements only), and the element type of the array is never looked at.

### C83 A Python TMatrix object holds the T-matrix of the particle that was asked for (partial)

PyTMatrix.v: the constructor of the Python object on top of Adaptive, TClass, Orientation, Density and Align; every abort, null pointer, failed assertion, zero pivot and missing quadrature rule is a distinct outcome. C73, C67, C58, C72 and C80 give the parts.

Theorems: `C83_object`, `C83_alignment`, `C83_order`, `C83_perfect_alignment`, `C83_perfect_alignment_refuted`, `C83_zero_and_one_refuted`.
Exact arithmetic; quadrature rules, Bessel functions and rounding of the efficiency factors are parameters. Everything but the meaning of cos2beta = 0 and 1 is proved: these two values give the same object, and the shape decides which alignment it has.

### C84 Arrays returned by a Python TMatrix object (partial)

PyTMatrix.v: nested loops filling a new array whose elements are unset at first; squeezing keeps the C order of the elements (NumPy.v).

Theorems: `C84_extinction_matrix`, `C84_scattering_matrix`, `C84_wrong_shape`, `C84_scattering_wrong_shape_refuted`, `C84_one_angle_refuted`, `C84_absorption_cross_section`, `C84_absorption_cross_sections`, `C84_average_absorption`.
Exact arithmetic; the quadrature grid is a parameter; the absorption functions for arrays with adjacent elements (C82). False of the code: dimensions of length 1 are dropped from the result; get_scattering_matrix answers a two-dimensional argument with an empty array.

### C85 Spheres have the T-matrix of Mie theory (proved)

Mie.v: on a sphere the surface integrals become Gram matrices of the angular functions (Ortho.v), so Q and RgQ are diagonal with the Mie numerators and denominators; C73 and C63 then fix T. The specification is the Mie coefficients as printed in Bohren & Huffman. Orientation averages: the inner sum over m of the Clebsch-Gordan coefficients vanishes for N > 0.

Theorems: `C85_exists`, `C85_sphere`, `C85_cross_sections`, `C85_tasks`, `C85_any_orientation`, `C85_object_is_spherical`.
Exact arithmetic; for quadrature rules that are exact for products of two angular functions (an exact Gauss-Legendre rule with more points than orders is one, gauss_is_exact). The radial functions are parameters.

### C86 Energy conservation for spheres (proved)

BesselEnergy.v: Wronskian of j_n and y_n by induction over the recurrences, differential equation of z j_n(z) from the power series, and the flux Im(w phi' conj(phi)) of phi(t) = psi(mt) has a derivative of constant sign, so that it is not positive at the surface. With the Wronskian this gives Re a - |a|^2 and Re b - |b|^2 as non-negative numbers and keeps the denominators away from zero.

Theorems: `C86_dielectric`, `C86_exists`, `C86_energy`, `C86_absorption`.
Exact arithmetic, and radial functions equal to the spherical Bessel functions (power series); C65 and C66 say how far those of the code are from them.

### C87 Spheres scatter and extinguish as in Mie theory in every direction (proved)

Addition.v: the addition theorem for Legendre polynomials (reproducing kernel and Gram matrices of Ortho.v) and its derivatives in both zenith angles. Props_sphere.v: for a diagonal T-matrix the double sum of the amplitude matrix becomes these kernels, the field is written without coordinates, and C74 carries it to every orientation. Props_spheretable.v composes this with C79 for the tables.

Theorems: `C87_scattered_field`, `C87_extinction`, `C87_intensity`, `C87_results`, `C87_one_shape`.
Exact arithmetic; quadrature rules exact for products of two angular functions; for C87_results radial functions equal to the spherical Bessel functions and materials that do not amplify (C86), and for the tables of scattering only the (1,1) element. The absorption efficiency with scattering is in C86_absorption.

### C88 get_table as a whole (proved)

GetTable.v: the call from the argument arrays (NumPy.v) to the configuration and inputs of the TaskManager (TaskGraph.v, Physics.v), and from the results to the returned arrays by executing the stores of ResultTable.v. Reading a missing result is a distinct outcome. Composition of C82, C79, C87 and the facts behind C22 and C23.

Theorems: `C88_arguments`, `C88_points`, `C88_get_table`, `C88_spheres`.
Exact arithmetic; quadrature rules, Bessel functions and the shape, alignment and dust objects are functions given as parameters. The T-matrices are assumed regular and the orientation coefficients and work array long enough (proved for spheres; C60 is about the second). Types of 4 bytes, integer sizes and arrays of more dimensions are misread: C82.

### C89 Averaging is over turned particles (proved)

Rotation.v: Wigner's d-functions by Wigner's formula, their differential equation, completeness of the Clebsch-Gordan coefficients, and from uniqueness of the solution the Clebsch-Gordan series for products of d-functions; d^N_00 = P_N. Props_rotation.v: the average of C58 rewritten as a kernel, which is the integral of the product of d-functions against the density.

Theorems: `C89_average`, `C89_fixed_angle`, `C89_perfect_alignment`, `C89_imperfect_alignment`, `C89_davis_greenstein`, `C89_power`, `C89_power_of_average_refuted`.
Exact arithmetic; the work array is long enough (C60 is about the array of the code). That the T-matrix of a turned particle is D T D^(-1) is part of the specification.

### C90 Tables are for the documented ensemble of grains (proved)

AlignObject.v: construction of the Python object (defaults, types, missing objects as undefined behaviour) from Orientation.v and Density.v. Props_ensemble.v: every list of coefficients is the list of moments of its Legendre series, so that C89 applies to all objects; bound on the series for the coefficients of C80; composition with C88.

Theorems: `C90_object`, `C90_ensemble`, `C90_get_table`, `C90_too_few_coefficients_refuted`.
Exact arithmetic, exact Gauss rules for the coefficients of the distribution without alignment; a large enough work array (C60). Type 3: the density is the Legendre series of the coefficients of the given object (C80 bounds their distance from the moments of the given function).

### C91 Extinction by an aligned cloud is the mean over its particles (proved)

Harmonics.v and VectorHarmonics.v: the vector spherical harmonics of the amplitude series in Cartesian components, and their rotation law D from the addition of rotations of Rotation.v, so that turning direction and body is the same as turning the T-matrix. Props_orientmean.v: the series is linear in T, C89 and C90 give the averaged T, linearity of the mean gives the averaged extinction; Props_cloud.v composes with C88 for get_table.

Theorems: `C91_series`, `C91_oriented`, `C91_amplitude`, `C91_single_particle`, `C91_extinction_matrix`, `C91_same_tilt`, `C91_python`, `C91_get_table`.
Exact arithmetic. The code replaces directions with 1-|cos| below 1e-10 by the pole, so for spread laws the mean is taken of the exact series, which equals the function of the code in all other orientations (C91_oriented); with equal tilts the mean is of the function itself (C91_same_tilt). Quadratic quantities are excluded: C89_power_of_average_refuted.

### C92 Numbers in parameter files are read and written faithfully (proved)

NumText.v: strtod on texts (decimal value rounded with Flocq to binary64), the printing of doubles with six significant digits (mag and nearest integer in radix 10). Props_numtext.v: a record of what can be written as a decimal number with its value is the specification; bounds on the two roundings give the error and the stability of the printed text.

Theorems: `C92_reading`, `C92_print_read`, `C92_six_digits`, `C92_complex`, `C92_with_unit`, `C92_count`, `C92_exact_refuted`, `C92_minus_refuted`.
strtod, sscanf and ostream<< for doubles are modelled as correctly rounding with the default precision of 6; infinities, NaN, hexadecimal and out of range texts are a parameter. The numbers of the program are those within 10^-200 .. 10^200.

### C93 The command line program computes what its parameter file says (proved)

Program.v: main as a function from command line, readable files and time stamp to the list of files written and the way it ends, composed of CmdLine.v, Yaml.v, NumText.v, Units.v, PyTMatrix.v and Frames.v. Props_program.v: what a text says (independent of the reader), the record of inputs a parameter file describes, the layout of the output file; the used-values file by induction over the list of requests.

Theorems: `C93_parameters`, `C93_run`, `C93_effects`, `C93_stops`, `C93_dump`, `C93_used_values`, `C93_rerun`, `C93_exact_refuted`.
Exact arithmetic for units and for the calculation (T-matrix as in C83 with its assumption on the Gauss rules); numbers in texts as in C92. Of the screen output only the lines with the two matrices are modelled; a failure to open a file for writing is not noticed by the program and not modelled. The time stamp is a parameter without newline.

### C94 The radial functions used in the calculation of T-matrices are spherical Bessel functions (proved)

Interaction.v: the arrays of the resource as flat arrays, rows as windows into them, the loops of InteractionTask and of the constructor of TMatrix around the routines of Bessel.v. Props_interaction.v: the results of the routines do not depend on capacity, order, junk or earlier contents; loop invariant over the points; the tables of make_env and class_env with one fixed family of radial functions; C65 and C66 for the values.

Theorems: `C94_task`, `C94_converged`, `C94_environment`, `C94_class`, `C94_runs`, `C94_second_kind`, `C94_first_kind`, `C94_reset`, `C94_order_one_refuted`, `C94_order_801_refuted`.
Exact arithmetic. The recursion for j_n is shown to run through for arguments that are not real and for arguments up to 1; for larger real arguments it can divide by zero at isolated arguments, which are excluded by a hypothesis. Near the zeros of j_0 the functions of the first kind are wrong (C66_zero_of_sine_refuted).

### C95 Python functions given to custom objects live as long as they are needed (proved)

PyLife.v: a heap of counted Python objects and of C++ objects owned by wrapper objects; the operations of the interpreter and of the module as steps, deallocation with the deletion of what is wrapped (recursive, with a fuel that is shown to suffice). Props_pylife.v: the invariant that every count is the number of references of the program, of existing C++ objects, running calculations and running calls, that a C++ object exists unless its owner was freed, and that the C++ objects are the initialisations of the history in order; preserved by every step.

Theorems: `C95_safe`, `C95_alive`, `C95_callback`, `C95_use`, `C95_no_leak`, `C95_reinitialised_refuted`.
Reference counts as in CPython without the cyclic garbage collector; the construction of a custom orientation distribution (during which the function is called) is one step. C95_reinitialised_refuted: an object that is initialised again never frees what it was first initialised with (the old C++ object is not deleted), hence the condition in C95_no_leak.

### C96 Python functions are called with the documented arguments, once per combination, and their results are used (proved)

Callback.v: the objects a function may return and what the code makes of them; the function as a function of the calls before and of the arguments; the loops that ask for the refractive indices. Props_callback.v: the list of questions in closed form, invariant over the calls made so far, link to the inputs of the whole get_table of C88.

Theorems: `C96_results`, `C96_densities`, `C96_order`, `C96_calls`, `C96_table`, `C96_method`, `C96_numpy_scalar_refuted`, `C96_single_precision_refuted`.
Numbers are exact, words that encode infinities or NaN are not modelled. Types of more than 32 bits are cut by the code (excluded by hypothesis). The refuted parts: results of type numpy.complex128 (and real numbers) abort the program; arrays without dimensions of complex64 or float32 are read behind their end.

### C97 In double precision the direction of the light relative to a tilted particle is found up to rounding, except along its axis (proved)

Doubles.v: the statements of the code with every operation rounded to double precision (Flocq), NaN as None. Props_doubles.v: error analysis of every step in units of 2^-54; relative errors for the division by the sine; for the counterexample, Taylor enclosures of cos and sin of 85/128 and the rounding of each step computed exactly.

Theorems: `C97_cosine`, `C97_direction`, `C97_along_the_axis_refuted`.
IEEE binary64 with Flocq, no fused operations; cos, sin and acos correctly rounded (assumption about the C library, part of the model). The refuted theorem: without the exception the claim is false, the result is NaN.

### C98 Shape averages in double precision are weighted means up to rounding, exact for a single shape (proved)

DoubleMean.v: the loops of the averaging tasks with every operation rounded (Flocq). Props_doublemean.v: induction over the shapes for the accumulated relative error (1+u)^n - 1, additions have no underflow error; first and second order terms collected.

Theorems: `C98_mean`, `C98_equal_coefficients`, `C98_sign`, `C98_single_shape`, `C98_equal_coefficients_refuted`.
IEEE binary64 with Flocq, no fused operations, no overflow. The refuted theorem: exact equality fails already for one shape of weight 49.

### C99 Task objects for one scattering event give the matrices of the class TMatrix when executed once (proved)

ScatRes.v: execute as a function from the members that survive an execution to their new values (the scratch matrices are only zero in a new object). Props_scatres.v: the loops from zero are those of Frames.oriented; with other start values the sums are linear in the start value.

Theorems: `C99_scattering_object`, `C99_room`, `C99_extinction_object`, `C99_extinction_again`, `C99_second_execution`, `C99_executing_again_refuted`.
exact arithmetic. The refuted theorem: "executing again gives the same matrix" is false for scattering objects; C99_second_execution gives the factor for light going straight on.

### C100 Helper functions: memory sizes, times, prime factors, binary digits, ends of names, numbered file names (proved)

Tools.v: one function per helper. Props_tools.v: loop invariants (no number below the divisor divides the rest; the part of the number already shown), uniqueness of the prime factors, induction over the loop counters.

Theorems: `C100_prime_factors`, `C100_factors_unique`, `C100_ends_with`, `C100_binary_digits`, `C100_memory_size`, `C100_large_sizes`, `C100_time`, `C100_names_differ`.
sizes and times in exact arithmetic; printing the final number is not part of the model.

### C101 Shape distributions made in Python (proved)

PyShape.v: PyArg_ParseTupleAndKeywords for a list of slots (CPython), the two init functions, the pointer of the object. Props_pyshape.v: one general theorem about the parsing of arguments by induction over the slots, instantiated for both classes and composed with the theorems of C69.

Theorems: `C101_wrong_arguments`, `C101_limits_by_cutoff`, `C101_limits_by_fraction`, `C101_fraction_too_large`, `C101_negative_number_of_points_refuted`, `C101_single_shape`, `C101_last_one`.
exact arithmetic, the quadrature of the fraction criterion is any that is accurate enough (as in C69). The refuted theorem: a negative number of points is not refused but wraps around to 2^32 - 1.

### C102 Shape factors of spheroids in double precision (partial)

DoubleShape.v: get_shape_factor with every operation rounded to binary64, log and asin arbitrary. Props_doubleshape.v: near the sphere the numerator is 1 minus a double, a multiple of 2^-53 (Sterbenz), and the denominator is 2^-51, so the result is a multiple of 1/4; the exact factor is within 10^-6 of 1/3 (mean value theorem with the Jacobian of C68).

Theorems: `C102_sphere`, `C102_shape_factor_refuted`, `C102_flat_shapes_refuted`.
The natural claim, the shape factor is accurate up to rounding for every axis ratio, is false of the code (the two refuted theorems); an error bound in 2^-53 / (eccentricity squared) for axis ratios away from the sphere is missing. IEEE binary64 with Flocq, no fused operations.

## 4. Disagreements between code and English property found on the way

* execute_tasks can livelock under a fair scheduler if tasks name their write links in inconsistent orders (`C55_unordered_links_refuted`); CosTuuM's own graphs are not affected (C56).
* minimum_order = maximum_order dereferences a null pointer (`C20_equal_order_limits_refuted`).
* The reservation before task creation misses read links and resources (`C18_reads_and_resources_refuted`; harmless: the tables grow).
* A memory limit below the minimum wraps around (`C19_too_small_limit_refuted`); four object kinds are under-accounted (`C19_object_sizes_refuted`).
* A relative change of exactly zero is not accepted as convergence (`C21_unchanged_factors_refuted`).
* Progress reports divide by zero with fewer than 50 tasks and may repeat or skip a milestone (`C45_few_tasks_refuted`, `C45_exactly_once_refuted`).
* Tables are ordered by sorted sizes and wavelengths, not by the input order (`C23_position_in_unsorted_input_refuted`).
* The mirrored half of the Wigner table has the wrong sign for odd m; only products are used, which are right (`C48_odd_m_sign_refuted`, `C48_products_exact`).
* A copied alignment distribution loses its disabled flag (`C35_copied_flag_refuted`); orders below 2 write out of bounds (`C50_small_order_refuted`).
* Im(eps) < 0 gives the refractive index of the conjugate (`C34_negative_imaginary_part_refuted`).
* string_to_integer: most negative number and top-digit hexadecimal numbers are refused or overflow; trailing garbage is accepted (`C40_*_refuted`); a blank boolean is undefined behaviour (`C54_blank_refuted`).
* YAML: the text "default value" is not found back, a required lookup succeeds after a defaulted one, some malformed files are undefined behaviour (`C37_*_refuted`, `C38_no_undefined_behaviour_refuted`).
* Command line values starting with a dash need `--name=value` (`C39_negative_argument_refuted`).
* A unit to the power 0 keeps its value (`C43_power_zero_refuted`).
* The Clebsch-Gordan work array of a thread is too small when the order of a T-matrix is close to maximum_order: heap overflow in AlignmentAverageTask (`C60_overflow_refuted`).
* spherical_y_ydy_array writes two elements even when one is asked for (`C65_one_element_refuted`); spherical_j_jdj_array returns zero at every order when sin z = 0 and runs off its array for more than 800 orders (`C66_zero_of_sine_refuted`, `C66_bounds`).
* DraineHensleyShapeDistribution accepts cutoffs in [64/135, 1/2) and then samples nothing: range [1,1], all weights zero (`C69_accepted_cutoffs_without_range_refuted`). Its comment promises a relative error of 0.1 percent for the limits; the loop stops at 1 percent.
* gauss_legendre_quadrature accepts a small first value without a second order (`C71_first_order_refuted`), and warns also when the last order agreed.
* TMatrixCalculator::calculate_TMatrix exceeds maximum_order or dereferences a null pointer when the first guess is above it, skips the check of the points when the order uses more than maximum_ngauss, and takes not-a-number for convergence (`C72_*_refuted`).
* A grazing ray between equal materials has no value (`C70_grazing_equal_materials_refuted`).
* TMatrix::compute_additional_elements adds to the matrices: a second call doubles the T-matrix for m > 0 (`C73_repeated_calls`).
* get_reduced_extinction_matrix assumes a form the extinction matrix does not have in general (`C75_reduced_form_in_general_refuted`).
* The copy constructor of OrientationDistribution sets the normalisation to 0, so the density of a copy is 0 (`C80_copy_density_refuted`).
* evaluate of an orientation distribution ignores the last coefficient, and accesses arrays out of bounds for order 0 (`C81_last_coefficient_refuted`, `C81_order_zero_refuted`).
* The absorption functions of the Python TMatrix object ignore the strides of their argument: a[::2] gives the first half of a, a[::-1] reads outside of the buffer; the element type of arrays is not checked anywhere, so integers are read as bit patterns of doubles and 4-byte types overrun (`C82_*_refuted`).
* cos2beta = 0 and cos2beta = 1 of a Python TMatrix object mean the same thing; which perfect alignment they select depends on the shape (`C83_*_refuted`).
* Dimensions of length 1 are dropped from all results, and get_scattering_matrix answers a two-dimensional argument with an empty array (`C84_*_refuted`). Some paths leak references (not modelled).
* Scattering matrices of aligned grains are computed from the averaged T-matrix; the power scattered by the ensemble is the mean of the individual powers, which is different (`C89_power_of_average_refuted`).
* Custom orientation distributions with the default order are too short for T-matrices of order 51 and more: reads outside of the array of coefficients (`C90_too_few_coefficients_refuted`); a SizeBasedAlignmentDistribution of type 3 without distributions dereferences a null pointer (python_alignment in AlignObject.v). The assertions that would catch this are not active.
* The file of used values keeps six significant digits only: the default wavelength 6.283185307 micron is not reproduced by it (`C92_exact_refuted`). Complex numbers like 1.5 - 0.02i are rejected (`C92_minus_refuted`).
* A second run of the command line program with the file of used values of a first run need not use the same values: after a run with default parameters the wavelength is 6.28319e-06 m instead of 6.283185307e-06 m (`C93_exact_refuted`).
* With a maximum order of 1, InteractionTask writes behind the end of the arrays of y_n (`C94_order_one_refuted`); with orders above 800 the Bessel routine reads behind the end of its local table (`C94_order_801_refuted`).
* Calling `__init__` again on a custom object leaks the old C++ object and, for ever, the function it refers to (`C95_reinitialised_refuted`). On the other hand nothing can be used after it was freed (`C95_safe`): deleting the old object in init would break this, because a running get_table keeps the raw pointer.
* Objects given to get_table as distributions or dust properties are not checked for their type (format O), and objects whose init failed keep a null pointer that is dereferenced (`C95_use`). The init functions return 1 on wrong arguments, CPython expects a negative number. The names of the types (tp_name) point into temporary strings (not modelled).
* The downward recursion for j_n divides by zero at some real arguments, in exact arithmetic: between 3 and 10/3 there is one at which every call fails (`C66_division_by_zero_near_pi_refuted`).
* A custom refractive index function that returns a numpy.complex128 (what NumPy functions return for scalars) or a real number aborts the interpreter (`C96_numpy_scalar_refuted`); one that raises an exception leads to the use of a null pointer (`C96_results`); arrays without dimensions of type complex64 or float32 are read behind their end (`C96_single_precision_refuted`). Grain types are cut to 32 bits for the call.
* The direction of the light relative to a tilted particle is computed with acos of a sum that can exceed 1 in double precision: for light along the axis of a particle tilted by 85/128 the sum is 1 + 2^-52, and the amplitude, scattering and extinction matrices are NaN (`C97_along_the_axis_refuted`; the same happens, with the doubles for the angles, for tilts of 8 and 12 degrees).
* The scratch matrices of a ScatteringMatrixResource are never cleared: executing the same object twice gives a wrong matrix, for light going straight on it is multiplied by (9/4)(1 + 1/k)^2 (`C99_second_execution`). The code makes every object only once, so no result of the module is affected.
* In verbose mode a computed memory requirement of 2^50 bytes or more ends the program although nothing failed, because the unit has no name (`C100_large_sizes`); 1048575 bytes are shown as 1024 KB (`C100_memory_example`).
* `DraineHensleyShapeDistribution(-1)` does not raise an exception but asks for 4294967295 quadrature points (`C101_negative_number_of_points_refuted`; the format letter I of PyArg_ParseTupleAndKeywords does not check for overflow), and `get_limits` of an object whose `__init__` was never called (a subclass) follows a null pointer (`C101_last_one`).
* Near the sphere the shape factor of the Draine-Hensley distribution loses all digits: for the axis ratio 1 + 2^-52 it is a multiple of 1/4 instead of 1/3 (`C102_shape_factor_refuted`; the code uses a series there for the Jacobian but not for the shape factor), and for axis ratios up to 2^-28 it is not a number (`C102_flat_shapes_refuted`).
## 5. Print Assumptions

K = closed under the global context (no axiom); F = functional_extensionality_dep; S = sig_forall_dec; N = sig_not_dec; E = classic.

| theorem | file | assumptions |
|---|---|---|
| C01_every_task_exactly_once | Props_sched.v | K |
| C01_never_twice | Props_sched.v | K |
| C02_dependencies_respected | Props_sched.v | K |
| C03_write_links_exclude | Props_sched.v | K |
| C04_mutual_exclusion | Props_sched.v | K |
| C04_within_one_thread | Props_sched.v | K |
| C04_counters | Props_sched.v | K |
| C04_counters_quiescent | Props_sched.v | K |
| C05_failed_attempt_leaves_no_trace | Props_sched.v | K |
| C05_success_adds_exactly | Props_sched.v | K |
| C05_succeeds_iff_free | Props_sched.v | K |
| C05_unlock_restores | Props_sched.v | K |
| C06_always_possible_to_complete | Props_sched.v | K |
| C06_self_conflicting_task_never_starts | Props_sched.v | K |
| C07_circular_dependencies_detected_exactly | Props_sched.v | K |
| C08_weight_is_critical_path | Props_sched.v | K |
| C09_queue_contents | Props_sched.v | K |
| C09_queue_operations | Props_sched.v | K |
| C10_link_tables | Props_sched.v | K |
| C11_registrations_survive | Props_sched.v | K |
| C12_rerun | Props_sched.v | K |
| C13_no_cycles | Props_graph.v | K |
| C13_execution_starts_and_can_finish | Props_graph.v | K |
| C14_conflicting_tasks_are_ordered | Props_graph.v | K |
| C14_no_data_race | Props_graph.v | K |
| C14_ids_are_tasks | Props_graph.v | K |
| C15_schedule_independent | Props_graph.v | K |
| C16_slot_count_irrelevant | Props_graph.v | K |
| C20_null_dereference_exactly_when | Props_graph.v | K |
| C20_equal_order_limits_refuted | Props_graph.v | K |
| C20_defined_for_proper_ranges | Props_graph.v | K |
| C17_tables_exactly_filled | Props_mem.v | K |
| C17_task_lookups | Props_mem.v | K |
| C17_resource_lookups | Props_mem.v | K |
| C17_result_order | Props_mem.v | K |
| C18_reservation_partial | Props_mem.v | K |
| C18_reads_and_resources_refuted | Props_mem.v | K |
| C19_slots_in_range | Props_mem.v | K |
| C19_slots_monotone | Props_mem.v | K |
| C19_slots_maximal | Props_mem.v | K |
| C19_accounted_within_limit_partial | Props_mem.v | K |
| C19_too_small_limit_refuted | Props_mem.v | K |
| C19_object_sizes_refuted | Props_mem.v | K |
| C19_object_sizes_partial | Props_mem.v | K |
| C21_order_tasks_in_sequence | Props_converge.v | K |
| C21_first_accepted_order_is_used | Props_converge.v | K |
| C21_last_order_if_none | Props_converge.v | K |
| C21_cases_exhaustive | Props_converge.v | K |
| C21_unchanged_factors_refuted | Props_converge.v | K |
| C45_reports_sound_partial | Props_converge.v | K |
| C45_sequential_reports | Props_converge.v | K |
| C45_few_tasks_refuted | Props_converge.v | K |
| C45_exactly_once_refuted | Props_converge.v | K |
| C22_injective_and_in_range | Props_table.v | K |
| C22_surjective | Props_table.v | K |
| C22_row_major | Props_table.v | K |
| C22_agrees_with_creation | Props_table.v | K |
| C23_coefficients | Props_table.v | K |
| C23_scattering_matrices | Props_table.v | K |
| C23_null_result | Props_table.v | K |
| C23_position_in_unsorted_input_refuted | Props_table.v | K |
| C24_weighted_mean | Props_num.v | F S |
| C24_between_extremes | Props_num.v | F S |
| C24_common_factor | Props_num.v | F S |
| C24_equal_inputs | Props_num.v | F S |
| C24_frame | Props_num.v | F S |
| C26_grid_points | Props_num.v | F S |
| C26_between_grid_points | Props_num.v | F S |
| C26_extrapolation | Props_num.v | F S |
| C27_cell | Props_num.v | F S |
| C28_inside_block | Props_num.v | K |
| C28_distinct_cells | Props_num.v | K |
| C28_reader_agrees_with_writer | Props_num.v | K |
| C29_position | Props_num.v | K |
| C29_distinct | Props_num.v | K |
| C29_all_used | Props_num.v | K |
| C31_prolate | Props_quad.v | F S |
| C31_oblate | Props_quad.v | F S |
| C32_symmetric | Props_quad.v | F N S |
| C32_affine_image | Props_quad.v | F N S |
| C32_exactness_carries_over | Props_quad.v | F N S |
| C32_newton | Props_quad.v | F S |
| C32_tolerance | Props_quad.v | F S |
| C33_legendre_values | Props_wigner.v | F N S |
| C33_mirrored_rows | Props_wigner.v | F N S |
| C35_selection | Props_quad.v | F S |
| C35_types | Props_quad.v | F N S |
| C35_copied_flag_refuted | Props_quad.v | F S |
| C46_values_and_derivatives | Props_wigner.v | F N S |
| C46_number_of_entries | Props_wigner.v | F N S |
| C46_low_orders | Props_wigner.v | F N S |
| C47_regular | Props_wigner.v | F N S |
| C47_poles | Props_wigner.v | F N S |
| C47_poles_m0 | Props_wigner.v | F N S |
| C48_even_m_exact | Props_wigner.v | F N S |
| C48_products_exact | Props_wigner.v | F N S |
| C48_odd_m_sign_refuted | Props_wigner.v | F N S |
| C49_gauss_rule_exact | Props_quad.v | F N S |
| C50_coefficients_are_moments | Props_quad.v | F N S |
| C50_normalised_mean_and_sign | Props_quad.v | F N S |
| C50_small_order_refuted | Props_quad.v | F S |
| C25_any_field | Props_matrix.v | K |
| C25_complex_inverse | Props_matrix.v | F N S |
| C25_complex_zero_pivot | Props_matrix.v | F N S |
| C25_real_inverse | Props_matrix.v | F S |
| C25_scratch_irrelevant | Props_matrix.v | F N S |
| C30_maps_stokes_vectors | Props_optics.v | F S |
| C30_polarisation_defect | Props_optics.v | F S |
| C30_physical_light_stays_physical | Props_optics.v | F S |
| C30_fully_polarised | Props_optics.v | F S |
| C30_unique | Props_optics.v | F S |
| C34_square_root | Props_optics.v | F N S |
| C34_unique | Props_optics.v | F N S |
| C34_negative_imaginary_part_refuted | Props_optics.v | F N S |
| C51_amplitude_is_the_full_sum | Props_optics.v | F N S |
| C51_forward_is_diagonal | Props_optics.v | F N S |
| C51_prefactors | Props_optics.v | F N S |
| C52_extinction_matrix | Props_optics.v | F N S |
| C52_extinction_coefficients | Props_optics.v | F N S |
| C52_absorption_coefficients | Props_optics.v | F N S |
| C53_defining_system | Props_matrix.v | F N S |
| C53_fails_exactly_for_singular_Q | Props_matrix.v | F N S |
| C40_decimal | Props_parse.v | K |
| C40_roundtrip | Props_parse.v | K |
| C40_hexadecimal | Props_parse.v | K |
| C40_exponent | Props_parse.v | K |
| C40_most_negative_refuted | Props_parse.v | K |
| C40_hexadecimal_refuted | Props_parse.v | K |
| C40_too_large_wraps | Props_parse.v | K |
| C40_garbage_refuted | Props_parse.v | K |
| C41_prime_factors | Props_parse.v | K |
| C41_terminates | Props_parse.v | K |
| C41_no_factors | Props_parse.v | K |
| C54_roundtrip | Props_parse.v | K |
| C54_words | Props_parse.v | K |
| C54_blank_refuted | Props_parse.v | K |
| C36_roundtrip | Props_yaml.v | K |
| C36_used_values | Props_yaml.v | K |
| C36_parsed_files | Props_yaml.v | K |
| C37_lookups | Props_yaml.v | K |
| C37_used_file | Props_yaml.v | K |
| C37_marker_refuted | Props_yaml.v | K |
| C37_required_after_default_refuted | Props_yaml.v | K |
| C38_undefined_exactly | Props_yaml.v | K |
| C38_defined | Props_yaml.v | K |
| C38_no_undefined_behaviour_refuted | Props_yaml.v | K |
| C39_values | Props_cmdline.v | K |
| C39_stops | Props_cmdline.v | K |
| C39_negative_argument_refuted | Props_cmdline.v | K |
| C42_md5 | Props_md5.v | F N S |
| C42_padding_exists | Props_md5.v | K |
| C43_named_units | Props_units.v | F N S |
| C43_all_names | Props_units.v | F N S |
| C43_multiply | Props_units.v | S |
| C43_divide | Props_units.v | F S |
| C43_power | Props_units.v | F S |
| C43_power_zero_refuted | Props_units.v | F S |
| C43_system_of_units | Props_units.v | F S |
| C43_positive | Props_units.v | F N S |
| C43_parse | Props_units.v | F N S |
| C43_unknown | Props_units.v | F N S |
| C43_no_name | Props_units.v | F N S |
| C43_SI_units | Props_units.v | F N S |
| C43_to_SI | Props_units.v | F N S |
| C43_to_unit | Props_units.v | F N S |
| C43_convert | Props_units.v | F N S |
| C44_inverse | Props_units.v | F N S |
| C44_energy_frequency | Props_units.v | F N S |
| C44_wavelength_frequency | Props_units.v | F N S |
| C44_refused | Props_units.v | F N S |
| C44_energy_wavelength_refused | Props_units.v | F N S |
| C55_fair_runs_end_partial | Props_live.v | E |
| C55_single_write_links | Props_live.v | E |
| C55_fair_runs_exist | Props_live.v | K |
| C55_unordered_links_refuted | Props_live.v | F |
| C56_task_graph_terminates | Props_live.v | E |
| C57_coefficient | Props_align.v | F N S |
| C57_coefficients | Props_align.v | F N S |
| C58_average | Props_align.v | F N S |
| C58_calculator | Props_align.v | F N S |
| C58_no_alignment | Props_align.v | F N S |
| C59_random_orientation | Props_align.v | F N S |
| C59_trace_invariant | Props_align.v | F N S |
| C60_bounds_exactly | Props_align.v | F N S |
| C60_no_overflow_partial | Props_align.v | F N S |
| C60_overflow_refuted | Props_align.v | F N S |
| C61_spheroid_radius | Props_tmatrix.v | E F N S |
| C62_surface_integrals | Props_tmatrix.v | E F N S |
| C63_T_matrix | Props_tmatrix.v | E F N S |
| C63_gauss_rule | Props_tmatrix.v | F N S |
| C63_fails_exactly_when_singular | Props_tmatrix.v | E F N S |
| C64_symmetries | Props_tmatrix.v | E F N S |
| C65_y_complex | Props_bessel.v | E F N S |
| C65_y_real | Props_bessel.v | E F N S |
| C65_y_bounds | Props_bessel.v | E F N S |
| C65_real_and_complex_agree | Props_bessel.v | E F N S |
| C65_one_element_refuted | Props_bessel.v | E F N S |
| C66_truncation | Props_bessel.v | E F N S |
| C66_no_division_by_zero | Props_bessel.v | E F N S |
| C66_accuracy | Props_bessel.v | E F N S |
| C66_accuracy_real | Props_bessel.v | E F N S |
| C66_accuracy_small | Props_bessel.v | E F N S |
| C66_bounds | Props_bessel.v | E F N S |
| C66_zero_of_sine_refuted | Props_bessel.v | E F N S |
| C66_division_by_zero_refuted | Props_bessel.v | F N S |
| C66_division_by_zero_near_pi_refuted | Props_bessel.v | E F N S |
| C67_equal_volume_to_equal_surface | Props_shape.v | E F N S |
| C68_shape_factor_is_depolarisation_factor | Props_shape.v | E F N S |
| C68_shape_factor_range | Props_shape.v | E F N S |
| C68_jacobian_is_the_derivative | Props_shape.v | E F N S |
| C68_probability_of_axis_ratios | Props_shape.v | E F N S |
| C68_probability_density | Props_shape.v | E F N S |
| C69_cutoff_range | Props_shape.v | E F N S |
| C69_cutoff_range_with_assertions | Props_shape.v | E F N S |
| C69_accepted_cutoffs_without_range_refuted | Props_shape.v | E F N S |
| C69_fraction_range | Props_shape.v | E F N S |
| C70_snell | Props_refraction.v | E F N S |
| C70_fresnel | Props_refraction.v | E F N S |
| C70_solution_exists | Props_refraction.v | F N S |
| C70_grazing | Props_refraction.v | E F N S |
| C70_grazing_equal_materials_refuted | Props_refraction.v | E F N S |
| C71_result | Props_adaptive.v | F S |
| C71_zero_function | Props_adaptive.v | F S |
| C71_smooth | Props_density.v | E F N S |
| C71_terminates | Props_adaptive.v | F S |
| C71_polynomials_exact | Props_adaptive.v | F N S |
| C71_no_order_refuted | Props_adaptive.v | F S |
| C71_first_order_refuted | Props_adaptive.v | F N S |
| C71_warning_although_settled_refuted | Props_adaptive.v | F S |
| C72_converged | Props_adaptive.v | K |
| C72_unable | Props_adaptive.v | K |
| C72_no_null_pointer | Props_adaptive.v | K |
| C72_maximum_order_refuted | Props_adaptive.v | K |
| C72_null_pointer_refuted | Props_adaptive.v | K |
| C72_maximum_ngauss_refuted | Props_adaptive.v | K |
| C72_not_a_number_refuted | Props_adaptive.v | K |
| C73_T_matrix | Props_tclass.v | E F N S |
| C73_fails_exactly_when_singular | Props_tclass.v | E F N S |
| C73_same_as_tasks | Props_tclass.v | E F N S |
| C73_repeated_calls | Props_tclass.v | E F N S |
| C73_set_element | Props_tclass.v | K |
| C73_in_bounds | Props_tclass.v | K |
| C74_same_scattered_field | Props_frames.v | E F N S |
| C74_angles_exist | Props_frames.v | E F N S |
| C74_unique | Props_frames.v | E F N S |
| C74_only_the_axis_matters | Props_frames.v | E F N S |
| C74_axis_along_z | Props_frames.v | E F N S |
| C74_rotation | Props_frames.v | E F N S |
| C74_series | Props_frames.v | F N S |
| C75_scattering_matrix | Props_outputs.v | E F N S |
| C75_extinction_matrix | Props_outputs.v | E F N S |
| C75_reduced_form | Props_outputs.v | E F N S |
| C75_reduced_form_in_general_refuted | Props_outputs.v | E F N S |
| C75_scattering_coefficient | Props_outputs.v | F S |
| C75_extinction_coefficient | Props_outputs.v | F S |
| C75_objects_are_plane_symmetric | Props_outputs.v | E F N S |
| C75_absorption_cross_sections | Props_outputs.v | E F N S |
| C75_absorption_cross_section | Props_outputs.v | E F N S |
| C75_average_absorption | Props_outputs.v | E F N S |
| C76_averages | Props_average.v | E F N S |
| C76_average_extinction | Props_average.v | E F N S |
| C76_average_scattering | Props_average.v | E F N S |
| C76_average_absorption | Props_average.v | E F N S |
| C76_rule_of_the_code | Props_average.v | F S |
| C77_results | Props_whole.v | K |
| C77_order_exists | Props_whole.v | K |
| C77_order_unique | Props_whole.v | K |
| C77_outcome_exists | Props_whole.v | K |
| C78_extinction | Props_observables.v | E F N S |
| C78_absorption | Props_observables.v | E F N S |
| C78_scattering | Props_observables.v | E F N S |
| C78_series | Props_observables.v | F N S |
| C78_rows | Props_observables.v | E F N S |
| C79_physics | Props_physics.v | E F N S |
| C79_points | Props_physics.v | K |
| C79_unique | Props_physics.v | E F N S |
| C79_convergence_test | Props_physics.v | E F N S |
| C80_coefficients | Props_density.v | F N S |
| C80_accuracy | Props_density.v | E F N S |
| C80_returns | Props_density.v | F N S |
| C80_returns_density | Props_density.v | E F N S |
| C80_mirror | Props_density.v | F N S |
| C80_copy | Props_density.v | S |
| C80_copy_density_refuted | Props_density.v | F N S |
| C80_uniform | Props_density.v | E F N S |
| C81_series | Props_density.v | F N S |
| C81_moments | Props_density.v | F N S |
| C81_polynomial_density | Props_density.v | F N S |
| C81_mishchenko | Props_density.v | F N S |
| C81_last_coefficient_refuted | Props_density.v | F N S |
| C81_order_zero_refuted | Props_density.v | F N S |
| C82_unpack | Props_numpy.v | K |
| C82_slice | Props_numpy.v | K |
| C82_more_dimensions | Props_numpy.v | K |
| C82_absorption_angles | Props_numpy.v | K |
| C82_absorption_angles_every_second_refuted | Props_numpy.v | K |
| C82_absorption_angles_reversed_refuted | Props_numpy.v | K |
| C82_four_byte_types_refuted | Props_numpy.v | K |
| C82_integer_argument_refuted | Props_numpy.v | K |
| C83_object | Props_pytmatrix.v | E F N S |
| C83_alignment | Props_pytmatrix.v | E F N S |
| C83_order | Props_pytmatrix.v | E F N S |
| C83_perfect_alignment | Props_pytmatrix.v | E F N S |
| C83_perfect_alignment_refuted | Props_pytmatrix.v | E F N S |
| C83_zero_and_one_refuted | Props_pytmatrix.v | E F N S |
| C84_extinction_matrix | Props_pytmatrix.v | E F N S |
| C84_scattering_matrix | Props_pytmatrix.v | E F N S |
| C84_wrong_shape | Props_pytmatrix.v | E F N S |
| C84_scattering_wrong_shape_refuted | Props_pytmatrix.v | E F N S |
| C84_one_angle_refuted | Props_pytmatrix.v | E F N S |
| C84_absorption_cross_section | Props_pytmatrix.v | E F N S |
| C84_absorption_cross_sections | Props_pytmatrix.v | E F N S |
| C84_average_absorption | Props_pytmatrix.v | E F N S |
| C85_exists | Props_mie.v | E F N S |
| C85_sphere | Props_mie.v | E F N S |
| C85_cross_sections | Props_mie.v | E F N S |
| C85_tasks | Props_mie.v | E F N S |
| C85_any_orientation | Props_mie.v | F N S |
| C85_object_is_spherical | Props_mie.v | E F N S |
| C86_dielectric | Props_energy.v | F N S |
| C86_exists | Props_energy.v | E F N S |
| C86_energy | Props_energy.v | E F N S |
| C86_absorption | Props_energy.v | E F N S |
| C87_scattered_field | Props_sphere.v | E F N S |
| C87_extinction | Props_sphere.v | E F N S |
| C87_intensity | Props_sphere.v | E F N S |
| C87_results | Props_spheretable.v | E F N S |
| C87_one_shape | Props_spheretable.v | E F N S |
| C88_arguments | Props_gettable.v | F S |
| C88_points | Props_gettable.v | F S |
| C88_get_table | Props_gettable.v | E F N S |
| C88_spheres | Props_gettable.v | E F N S |
| C89_average | Props_rotation.v | E F N S |
| C89_fixed_angle | Props_rotation.v | E F N S |
| C89_perfect_alignment | Props_rotation.v | E F N S |
| C89_imperfect_alignment | Props_rotation.v | E F N S |
| C89_davis_greenstein | Props_rotation.v | E F N S |
| C89_power | Props_rotation.v | E F N S |
| C89_power_of_average_refuted | Props_rotation.v | E F N S |
| C90_object | Props_ensemble.v | E F N S |
| C90_ensemble | Props_ensemble.v | E F N S |
| C90_get_table | Props_ensemble.v | E F N S |
| C90_too_few_coefficients_refuted | Props_ensemble.v | F N S |
| C91_series | Props_orientmean.v | F N S |
| C91_oriented | Props_orientmean.v | E F N S |
| C91_amplitude | Props_orientmean.v | E F N S |
| C91_single_particle | Props_orientmean.v | E F N S |
| C91_extinction_matrix | Props_orientmean.v | E F N S |
| C91_same_tilt | Props_orientmean.v | E F N S |
| C91_python | Props_orientmean.v | E F N S |
| C91_get_table | Props_cloud.v | E F N S |
| C92_reading | Props_numtext.v | E F N S |
| C92_print_read | Props_numtext.v | E F N S |
| C92_six_digits | Props_numtext.v | E F N S |
| C92_complex | Props_numtext.v | E F N S |
| C92_with_unit | Props_numtext.v | E F N S |
| C92_count | Props_numtext.v | K |
| C92_exact_refuted | Props_numtext.v | E F N S |
| C92_minus_refuted | Props_numtext.v | E F N S |
| C93_parameters | Props_program.v | E F N S |
| C93_run | Props_program.v | E F N S |
| C93_effects | Props_program.v | E F N S |
| C93_stops | Props_program.v | E F N S |
| C93_dump | Props_program.v | K |
| C93_used_values | Props_program.v | E F N S |
| C93_rerun | Props_program.v | E F N S |
| C93_exact_refuted | Props_program.v | E F N S |
| C94_task | Props_interaction.v | E F N S |
| C94_converged | Props_interaction.v | F N S |
| C94_environment | Props_interaction.v | E F N S |
| C94_class | Props_interaction.v | E F N S |
| C94_runs | Props_interaction.v | E F N S |
| C94_second_kind | Props_interaction.v | E F N S |
| C94_first_kind | Props_interaction.v | E F N S |
| C94_reset | Props_interaction.v | S |
| C94_order_one_refuted | Props_interaction.v | E F N S |
| C94_order_801_refuted | Props_interaction.v | E F N S |
| C95_safe | Props_pylife.v | K |
| C95_alive | Props_pylife.v | K |
| C95_callback | Props_pylife.v | K |
| C95_use | Props_pylife.v | K |
| C95_no_leak | Props_pylife.v | K |
| C95_reinitialised_refuted | Props_pylife.v | K |
| C96_results | Props_callback.v | F S |
| C96_densities | Props_callback.v | F S |
| C96_order | Props_callback.v | F S |
| C96_calls | Props_callback.v | F S |
| C96_table | Props_callback.v | F S |
| C96_method | Props_callback.v | F S |
| C96_numpy_scalar_refuted | Props_callback.v | F S |
| C96_single_precision_refuted | Props_callback.v | F S |
| C97_cosine | Props_doubles.v | E F N S |
| C97_direction | Props_doubles.v | E F N S |
| C97_along_the_axis_refuted | Props_doubles.v | E F N S |
| C98_mean | Props_doublemean.v | E F N S |
| C98_equal_coefficients | Props_doublemean.v | E F N S |
| C98_sign | Props_doublemean.v | E F N S |
| C98_single_shape | Props_doublemean.v | E F N S |
| C98_equal_coefficients_refuted | Props_doublemean.v | E F N S |
| C99_scattering_object | Props_scatres.v | E F N S |
| C99_room | Props_scatres.v | E F N S |
| C99_extinction_object | Props_scatres.v | E F N S |
| C99_extinction_again | Props_scatres.v | F N S |
| C99_second_execution | Props_scatres.v | E F N S |
| C99_executing_again_refuted | Props_scatres.v | E F N S |
| C100_prime_factors | Props_tools.v | K |
| C100_factors_unique | Props_tools.v | K |
| C100_ends_with | Props_tools.v | K |
| C100_binary_digits | Props_tools.v | K |
| C100_memory_size | Props_tools.v | F S |
| C100_large_sizes | Props_tools.v | F S |
| C100_time | Props_tools.v | F S |
| C100_names_differ | Props_tools.v | K |
| C101_wrong_arguments | Props_pyshape.v | E F N S |
| C101_limits_by_cutoff | Props_pyshape.v | E F N S |
| C101_limits_by_fraction | Props_pyshape.v | E F N S |
| C101_fraction_too_large | Props_pyshape.v | E F N S |
| C101_negative_number_of_points_refuted | Props_pyshape.v | E F N S |
| C101_single_shape | Props_pyshape.v | S |
| C101_last_one | Props_pyshape.v | K |
| C102_sphere | Props_doubleshape.v | E F N S |
| C102_shape_factor_refuted | Props_doubleshape.v | E F N S |
| C102_flat_shapes_refuted | Props_doubleshape.v | E F N S |
