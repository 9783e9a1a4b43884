{"id": "C01", "title": "Every registered task runs exactly once", "statement": "When execute_tasks() returns, every task registered with the scheduler has had its execute() called exactly once, whatever the number of threads and queues and whatever interleaving the threads ran in.", "quantifier": "all finite task graphs without cycles, all thread/queue counts, all interleavings of the scheduler's atomic actions", "why_tests_cant": "a test observes a handful of schedules; the number of interleavings is unbounded", "anchors": ["quicksched/qsched.c: qsched_run_openmp, qsched_gettask, qsched_done, qsched_enqueue", "src/QuickSchedWrapper.hpp: execute_tasks"]}
{"id": "C02", "title": "A task starts only after everything it depends on has finished", "statement": "If link_tasks(a,b) was called, then in every execution execute() of b begins only after execute() of a has returned.", "quantifier": "all task graphs, all schedules, every reachable scheduler state", "why_tests_cant": "violations appear only under particular thread timings", "anchors": ["quicksched/qsched.c: qsched_addunlock, qsched_prepare, qsched_done", "src/QuickSchedWrapper.hpp: link_tasks"]}
{"id": "C03", "title": "Write-linked tasks never overlap", "statement": "Two tasks that hold write links to the same resource, or to a resource and one of its ancestors in the resource hierarchy, are never executing at the same time.", "quantifier": "all resource forests, all lock sets, all schedules", "why_tests_cant": "a data race is a property of all interleavings, a passing run proves nothing", "anchors": ["quicksched/qsched.c: qsched_lockres, qsched_unlockres, qsched_locktask", "src/QuickSchedWrapper.hpp: link_task_and_resource"]}
{"id": "C04", "title": "The hierarchical lock protocol is mutually exclusive at the level of single atomic operations", "statement": "With any number of threads interleaving the individual compare-and-swap / fetch-and-add / plain-read steps of lock and unlock calls, no two threads ever simultaneously own two resources where one is equal to or an ancestor of the other, and the per-resource hold counters always equal the number of threads that currently own (or are acquiring/rolling back) something below that resource.", "quantifier": "all thread counts, all resource forests, all sequences of lock/unlock requests, all interleavings of atomic steps", "why_tests_cant": "the windows between two atomic instructions are a few nanoseconds wide", "anchors": ["quicksched/qsched.c: qsched_lockres, qsched_unlockres", "quicksched/lock.h", "quicksched/atomic.h"]}
{"id": "C05", "title": "A failed attempt to lock a task's resources leaves no trace", "statement": "If a task cannot be locked because one of its resources is busy, all locks and hold counts taken during the attempt are undone, so that the lock state afterwards is exactly what it was before; if it succeeds precisely the requested locks have been added.", "quantifier": "all lock lists, resource forests and initial lock states", "why_tests_cant": "needs every prefix at which the attempt may fail", "anchors": ["quicksched/qsched.c: qsched_locktask, qsched_lockres"]}
{"id": "C06", "title": "The scheduler cannot deadlock", "statement": "If the dependency graph is acyclic and no task write-links the same resource (or a resource and its ancestor) twice, then as long as not all tasks are finished some thread can always make progress; a task that write-links a resource and its ancestor can never be started.", "quantifier": "all graphs and all reachable scheduler states", "why_tests_cant": "absence of deadlock quantifies over all reachable states", "anchors": ["quicksched/qsched.c: qsched_gettask, qsched_done, qsched_locktask", "quicksched/queue.c: queue_get"]}
{"id": "C07", "title": "Circular dependencies are reported exactly when they exist", "statement": "Preparing a scheduler fails with the circular-dependency error if and only if the graph built with link_tasks contains a cycle; otherwise the internal execution order lists every task once, after all tasks it depends on.", "quantifier": "all finite directed graphs (with repeated edges)", "why_tests_cant": "all graphs of all sizes", "anchors": ["quicksched/qsched.c: qsched_prepare"]}
{"id": "C08", "title": "Task priority is the length of the critical path", "statement": "After preparation the weight of every task equals its cost plus the largest total cost of any chain of tasks that (transitively) depends on it.", "quantifier": "all acyclic graphs and cost assignments", "why_tests_cant": "all graphs of all sizes", "anchors": ["quicksched/qsched.c: qsched_prepare"]}
{"id": "C09", "title": "Ready queues never lose, duplicate or misorder tasks", "statement": "Putting a task in a queue and taking one out preserve the multiset of queued tasks (plus/minus exactly that task) and the max-heap order by weight; a get returns a task that is lockable at that time, or nothing exactly when no queued task is lockable, and the heaviest task if that one is lockable. The buffer index stays within the allocated size.", "quantifier": "all queue contents, weights, lockability predicates and sequences of put/get", "why_tests_cant": "heap invariants must hold for all operation sequences", "anchors": ["quicksched/queue.c: queue_put, queue_get, queue_init"]}
{"id": "C10", "title": "Link tables are grouped per task without losing links", "statement": "Preparing the scheduler reorders the tables of dependencies, write links and read links so that each task's slice contains exactly the targets that were registered for it, in registration order.", "quantifier": "all registration histories", "why_tests_cant": "all histories of registrations", "anchors": ["quicksched/qsched.c: qsched_sort, qsched_prepare"]}
{"id": "C11", "title": "Registrations survive buffer growth", "statement": "However many tasks, resources, dependencies and links are registered, with or without an earlier memory reservation, every registered entry keeps its value and index and every write goes to an allocated slot.", "quantifier": "all sequences of register/link/reserve calls", "why_tests_cant": "all sequence lengths across all growth boundaries", "anchors": ["quicksched/qsched.c: qsched_addtask, qsched_addres, qsched_addlock, qsched_adduse, qsched_addunlock, qsched_ensure, qsched_init"]}
{"id": "C12", "title": "A scheduler can be executed again after it completed", "statement": "After a complete run all locks and hold counters are free again, and running the same scheduler again executes every task exactly once more under the same ordering guarantees.", "quantifier": "all graphs, all complete schedules", "why_tests_cant": "all schedules of the first run", "anchors": ["quicksched/qsched.c: qsched_prepare, qsched_done"]}
{"id": "C13", "title": "The generated task graph has no cycles", "statement": "For every combination of numbers of compositions, sizes, wavelengths, shapes, orders, memory limit and requested result types, the dependencies created by generate_tasks are acyclic, so execution never aborts with a circular dependency.", "quantifier": "all parameter combinations with minimum_order < maximum_order", "why_tests_cant": "parameter space is unbounded", "anchors": ["src/TaskManager.hpp: generate_tasks"]}
{"id": "C14", "title": "Generated tasks are free of data races", "statement": "Any two tasks created by generate_tasks of which one writes data that the other reads or writes are ordered by a chain of dependencies, also when T-matrix storage is being reused because of the memory limit.", "quantifier": "all parameter combinations, all pairs of tasks, all numbers of reusable storage slots", "why_tests_cant": "races depend on grid size, memory limit and timing", "anchors": ["src/TaskManager.hpp: generate_tasks", "src/TMatrixResource.hpp", "src/InteractionResource.hpp", "src/AlignmentAverageTask.hpp", "src/ShapeAveragingTask.hpp"]}
{"id": "C15", "title": "Results do not depend on the schedule", "statement": "Running the generated tasks in any order compatible with the dependencies (any thread count, any timing) produces the same values in every result.", "quantifier": "all parameter combinations, all linear extensions, all task semantics that respect their data footprint", "why_tests_cant": "all schedules", "anchors": ["src/TaskManager.hpp: generate_tasks", "src/CTMModule.cpp: get_table"]}
{"id": "C16", "title": "Results do not depend on the memory limit", "statement": "The value computed for each (composition, size, wavelength) does not depend on how many T-matrix storage slots fit in memory: reused storage is always reset before it is used again.", "quantifier": "all parameter combinations and numbers of storage slots", "why_tests_cant": "all memory limits and grid sizes", "anchors": ["src/TaskManager.hpp: generate_tasks", "src/TMatrixResource.hpp: ResetTMatrixResourceTask", "src/InteractionResource.hpp: ResetInteractionResourceTask"]}
{"id": "C17", "title": "The dry run counts exactly the objects that are created", "statement": "The pointer tables sized by the dry memory run are filled exactly: the number of task, resource and result pointers stored equals the number counted, so no write is out of bounds and no null pointer remains.", "quantifier": "all parameter combinations", "why_tests_cant": "index arithmetic over unbounded loops", "anchors": ["src/TaskManager.hpp: generate_tasks, MemoryManager"]}
{"id": "C18", "title": "The scheduler reservation made before task creation is sufficient", "statement": "The numbers of tasks, dependencies, write links and read links reserved from the dry run are at least the numbers later registered (so no reallocation occurs during creation).", "quantifier": "all parameter combinations", "why_tests_cant": "parameter space is unbounded", "anchors": ["src/TaskManager.hpp: MemoryManager::allocate_quicksched_memory, generate_tasks"]}
{"id": "C19", "title": "The memory limit is respected", "statement": "The number of T-matrix slots is at least 1 and at most the number of T-matrices, is monotone in the memory limit, and the accounted memory stays within the limit; the accounted size of each object is at least the storage the object allocates.", "quantifier": "all parameter combinations and memory limits", "why_tests_cant": "integer arithmetic over all inputs including underflow", "anchors": ["src/TaskManager.hpp: generate_tasks, MemoryManager", "src/*.hpp: get_memory_size"]}
{"id": "C20", "title": "Task generation is defined for every accepted order range", "statement": "For every pair minimum_order <= maximum_order accepted by the Python interface generate_tasks is well defined (no null dereference or unsigned wrap-around).", "quantifier": "all order pairs", "why_tests_cant": "boundary inputs", "anchors": ["src/TaskManager.hpp: generate_tasks", "src/CTMModule.cpp: get_table"]}
{"id": "C21", "title": "The T-matrix order search stops at the first converged order", "statement": "The order used for the m>0 elements is the first order (starting from the second tried) for which both relative changes are within tolerance, later order tasks leave the T-matrix untouched, and if no order converges the last one is used and the result is flagged as not converged.", "quantifier": "all sequences of efficiency factors, all tolerances", "why_tests_cant": "all numeric histories", "anchors": ["src/TMatrixResource.hpp: TMatrixM0Task, TMatrixMAllTask", "src/InteractionResource.hpp: InteractionTask", "src/ConvergedSizeResources.hpp"]}
{"id": "C22", "title": "Result index is a bijection in row-major order", "statement": "ResultKey::get_result_index maps (composition, size, wavelength, type) bijectively onto 0..N-1 and agrees with the order in which results are created.", "quantifier": "all dimensions and indices", "why_tests_cant": "all sizes", "anchors": ["src/ResultKey.hpp: get_result_index", "src/TaskManager.hpp: generate_tasks"]}
{"id": "C23", "title": "get_table returns each quantity at the right place", "statement": "Entry (composition, size, wavelength, angle, column) of the array returned by get_table is the quantity computed for that composition, the size/wavelength at that position of the sorted input, that angle and that column (Qabs, Qabspol, Qext, Qextpol, Qextcpol), for each combination of requested results.", "quantifier": "all grid dimensions and requested results", "why_tests_cant": "all sizes and flags", "anchors": ["src/CTMModule.cpp: get_table", "src/ResultKey.hpp"]}
{"id": "C24", "title": "Shape averaging is the weighted mean", "statement": "The shape-averaged coefficients equal sum_i w_i Q_i / sum_i w_i for each angle; they lie between the smallest and largest input when weights are non-negative, are unchanged by a common factor in the weights, and equal the input when all inputs are equal.", "quantifier": "all numbers of shapes, weights with non-zero sum, inputs", "why_tests_cant": "algebraic identity over all inputs", "anchors": ["src/ShapeAveragingTask.hpp"]}
{"id": "C25", "title": "Matrix inversion returns the exact inverse", "statement": "In exact arithmetic, plu_inverse(n) replaces the n x n leading block of the matrix by its inverse whenever no zero pivot is met, and a zero pivot is met only for singular blocks.", "quantifier": "all sizes n and all matrices over a field", "why_tests_cant": "algebraic identity over all inputs", "anchors": ["src/Matrix.hpp: plu_inverse"]}
{"id": "C26", "title": "Table interpolation", "statement": "get_row returns the stored row at every grid point, the straight-line interpolant between grid points, stays within the bracketing rows, and works for ascending and descending tables.", "quantifier": "all tables with at least 2 rows and strictly monotone key column, all lookup values in range", "why_tests_cant": "all tables", "anchors": ["src/Table.hpp: LinearInterpolatedTable::get_row"]}
{"id": "C27", "title": "Bracketing search", "statement": "Utilities::locate returns the index of the cell of a sorted array that contains the value, clamped to the first/last cell.", "quantifier": "all sorted arrays with at least 2 elements, all values", "why_tests_cant": "loop invariant for all sizes", "anchors": ["src/Utilities.hpp: locate"]}
{"id": "C28", "title": "T-matrix element addressing is a bijection inside the allocated block", "statement": "For every runtime order nmax <= maximum_order, the elements T(i1,n1,m,i2,n2,m) with i in {0,1}, max(1,m) <= n <= nmax map to distinct cells inside the storage allocated for m.", "quantifier": "all orders and element indices", "why_tests_cant": "all orders", "anchors": ["src/TMatrixResource.hpp: operator(), set_element"]}
{"id": "C29", "title": "Special Wigner table addressing is a bijection", "statement": "The flattened index used for (n,m), 1 <= n <= nmax, 0 <= m <= n, is the position at which that table was allocated.", "quantifier": "all orders", "why_tests_cant": "all orders", "anchors": ["src/ExtinctionCoefficientTask.hpp, src/AbsorptionCoefficientTask.hpp, src/ScatteringMatrixTask.hpp: *SpecialWignerDResources"]}
{"id": "C30", "title": "The scattering matrix is the Stokes-space image of the amplitude matrix", "statement": "The 4x4 matrix stored for each direction maps the Stokes vector of any incoming field onto the Stokes vector of the field scattered by the 2x2 amplitude matrix; in particular Z11 >= 0 and fully polarised light stays fully polarised.", "quantifier": "all complex amplitude matrices and fields", "why_tests_cant": "algebraic identity", "anchors": ["src/ScatteringMatrixTask.hpp: execute"]}
{"id": "C31", "title": "Perfect Davis-Greenstein alignment coefficients are Legendre polynomial values", "statement": "The expansion coefficients used for perfectly aligned grains are P_n(0) for prolate and P_n(1) for oblate grains.", "quantifier": "all orders n", "why_tests_cant": "all n", "anchors": ["src/DavisGreensteinOrientationDistribution.hpp"]}
{"id": "C32", "title": "Quadrature rules are symmetric and map affinely", "statement": "The Gauss-Legendre nodes produced for n points are antisymmetric, the weights symmetric, and the rule on [a,b] is the affine image of that on [-1,1], so a polynomial rule exact on [-1,1] is exact on [a,b].", "quantifier": "all n, a, b, and all root approximations", "why_tests_cant": "all n", "anchors": ["src/SpecialFunctions.hpp: get_gauss_legendre_points_and_weights, get_gauss_legendre_points_and_weights_ab"]}
{"id": "C33", "title": "Wigner d functions", "statement": "wigner_dn_0m for m=0 returns the Legendre polynomials P_n(x) and their derivatives with respect to theta, n=1..nmax, and the mirrored table entries used for -x carry the (-1)^n parity.", "quantifier": "all nmax, all x in (-1,1)", "why_tests_cant": "recurrence over all n", "anchors": ["src/SpecialFunctions.hpp: wigner_dn_0m", "src/WignerDResources.hpp: execute"]}
{"id": "C34", "title": "Optical constants: refractive index squares to the dielectric function", "statement": "The refractive index returned by the Draine dust model satisfies m*m = eps with non-negative real and imaginary part whenever Im(eps) >= 0.", "quantifier": "all complex dielectric values", "why_tests_cant": "algebraic identity over reals", "anchors": ["src/DraineDustProperties.hpp: eps_to_mr"]}
{"id": "C35", "title": "Alignment selection", "statement": "Grains larger than the transition size get the oblate (axis ratio > 1) or prolate aligned distribution, all others the non-aligned distribution.", "quantifier": "all sizes and axis ratios", "why_tests_cant": "branching over all inputs", "anchors": ["src/SizeBasedAlignmentDistribution.hpp"]}
{"id": "C36", "title": "Parameter files round-trip", "statement": "Printing the contents of a parameter file and parsing the result gives back the same keys and values.", "quantifier": "all dictionaries of well-formed keys and values", "why_tests_cant": "unbounded nesting and numbers of keys", "anchors": ["src/YAMLDictionary.hpp: constructor, print_contents"]}
{"id": "C37", "title": "Parameter lookup and default semantics", "statement": "get_value returns the stored value if the key exists and the supplied default otherwise; the used-values file records both; add_value overwrites.", "quantifier": "all histories of add/get calls", "why_tests_cant": "history dependent", "anchors": ["src/YAMLDictionary.hpp: get_value, add_value, has_value"]}
{"id": "C38", "title": "Every parameter file is parsed without undefined behaviour", "statement": "Parsing any text either succeeds or reports an error.", "quantifier": "all input texts", "why_tests_cant": "all inputs", "anchors": ["src/YAMLDictionary.hpp: constructor"]}
{"id": "C39", "title": "Command line parsing", "statement": "Each registered option gets the last value given on the command line or its default, required options missing abort, unknown options and orphan arguments abort, --help exits successfully.", "quantifier": "all option tables and argument vectors", "why_tests_cant": "all argument vectors", "anchors": ["src/CommandLineParser.cpp: parse_arguments"]}
{"id": "C40", "title": "Integer parsing", "statement": "string_to_integer of the decimal/hexadecimal representation of n returns n for every representable n.", "quantifier": "all 64-bit integers", "why_tests_cant": "all inputs", "anchors": ["src/Utilities.hpp: string_to_integer"]}
{"id": "C41", "title": "Integer factorisation", "statement": "decompose returns the prime factors in non-decreasing order and their product is the input.", "quantifier": "all positive integers", "why_tests_cant": "all inputs", "anchors": ["src/Utilities.hpp: decompose"]}
{"id": "C42", "title": "MD5 checksum", "statement": "get_checksum of a file equals the RFC 1321 MD5 digest of its contents for every file length.", "quantifier": "all byte strings", "why_tests_cant": "padding boundary at every length modulo 64", "anchors": ["src/MD5Sum.hpp"]}
{"id": "C43", "title": "Unit algebra", "statement": "Multiplying, dividing and raising units to integer powers acts as multiplication/division/power on SI values and adds/subtracts/multiplies the dimension exponents; conversion between compatible units and back is the identity.", "quantifier": "all units, all integer powers, all values", "why_tests_cant": "algebraic laws over all inputs", "anchors": ["src/Unit.hpp", "src/UnitConverter.hpp"]}
{"id": "C44", "title": "Unit conversion between quantities", "statement": "Energy/wavelength values are converted to frequency (and back) by E=h nu and nu=c/lambda, conversions are inverse of each other, and conversions between unrelated quantities are refused.", "quantifier": "all values and unit pairs", "why_tests_cant": "algebraic laws over all inputs", "anchors": ["src/UnitConverter.hpp: try_conversion, convert"]}
{"id": "C45", "title": "Progress reports are defined and exact", "statement": "With progress reporting switched on, task execution is defined for every number of tasks, every reported number of processed tasks is a multiple of one percent of the total and at most the total, and every such multiple is reported exactly once.", "quantifier": "all numbers of tasks and all interleavings of finishing tasks", "why_tests_cant": "race between the two atomic accesses; small totals", "anchors": ["src/QuickSchedWrapper.hpp: TaskCounter, QuickSched::execute_tasks"]}
{"id": "C46", "title": "Wigner d functions of every azimuthal order", "statement": "wigner_dn_0m(cos theta, nmax, m) returns nmax entries: sqrt((n-m)!/(n+m)!) sin^m(theta) (d/dx)^m P_n(x) at x = cos theta and its derivative with respect to theta, for n=1..nmax (zero for n<m).", "quantifier": "all nmax, all 0 <= m <= nmax, all theta strictly between 0 and pi", "why_tests_cant": "an unbounded family of recurrences; tests compare a few orders with tabulated values", "anchors": ["src/SpecialFunctions.hpp: SpecialFunctions::wigner_dn_0m"]}
{"id": "C47", "title": "Wigner d functions divided by sin theta, up to the poles", "statement": "wigner_dn_0m_sinx returns d^n_0m(theta)/sin(theta) and the theta derivative of d^n_0m; at the poles it returns the limit of the quotient (m>=1) and the derivative.", "quantifier": "all nmax, m, and theta including 0 and pi", "why_tests_cant": "limit statement for all orders", "anchors": ["src/SpecialFunctions.hpp: SpecialFunctions::wigner_dn_0m_sinx"]}
{"id": "C48", "title": "Mirrored Wigner d tables are exact", "statement": "The tables of Wigner d functions at the quadrature points, of which only half is computed and the other half mirrored, contain d^n_0m and its derivative; in any case the products of two entries of the same row, which is what the T-matrix integrals use, are exact.", "quantifier": "all numbers of points, all m, nmax and all symmetric node sets", "why_tests_cant": "relies on a parity identity for all n and m", "anchors": ["src/WignerDResources.hpp: WignerDm0Task::execute, WignerDmn0Task::execute"]}
{"id": "C49", "title": "Gauss-Legendre rules integrate polynomials exactly", "statement": "With exactly determined roots, the order-point rule that get_gauss_legendre_points_and_weights[_ab] produces integrates every polynomial of degree < 2*order exactly, over [-1,1] and over any [a,b].", "quantifier": "all orders, all polynomials of degree < 2*order, all intervals", "why_tests_cant": "all orders and all polynomials; needs the theory of orthogonal polynomials", "anchors": ["src/SpecialFunctions.hpp: SpecialFunctions::get_gauss_legendre_points_and_weights, get_gauss_legendre_points_and_weights_ab"]}
{"id": "C50", "title": "Imperfect alignment: coefficients are moments of a density with the requested mean", "statement": "MishchenkoOrientationDistribution(nmax, c) stores the Legendre moments of an orientation density that integrates to one and has <cos^2 beta> = c; the density is non-negative exactly for the c that are accepted.", "quantifier": "all orders nmax and all values c", "why_tests_cant": "integral identities for all orders", "anchors": ["src/MishchenkoOrientationDistribution.hpp: MishchenkoOrientationDistribution"]}
{"id": "C51", "title": "Amplitude matrices are the full spherical-wave sum", "statement": "The 2x2 amplitude matrix computed from the T-matrix equals 1/k times the sum over all orders n, n' <= nmax and all azimuthal numbers m from -min(n,n') to min(n,n') with the prefactors i^(n'-n-1) sqrt((2n+1)(2n'+1)/(n(n+1)n'(n'+1))), although only m >= 0 is stored and summed; in the forward direction it is diagonal.", "quantifier": "all nmax, wavenumbers, azimuth angles, and all T-matrices and angular functions with the -m symmetries of rotationally symmetric particles", "why_tests_cant": "identity between two sums of unbounded length", "anchors": ["src/ScatteringMatrixTask.hpp: ScatteringMatrixTask::get_forward_scattering_matrix", "src/ExtinctionCoefficientTask.hpp: ExtinctionCoefficientTask::get_forward_scattering_matrix", "src/AbsorptionCoefficientTask.hpp: AbsorptionCoefficientTask::get_forward_scattering_matrix", "src/NBasedResources.hpp: NBasedResources::execute"]}
{"id": "C52", "title": "Extinction and absorption coefficients follow from the amplitude matrices", "statement": "The extinction matrix is the first-order change of the Stokes vector of any field propagating with the forward amplitude matrix; Qext, Qextpol and Qextcpol are its independent entries over pi a^2, and Qabs and Qabspol are extinction minus the scattered part summed over the internal quadrature.", "quantifier": "all amplitude matrices, fields, wavenumbers, radii and quadratures", "why_tests_cant": "identity over all complex inputs", "anchors": ["src/ExtinctionMatrixResource.hpp: ExtinctionMatrixTask::execute", "src/ExtinctionCoefficientTask.hpp: ExtinctionCoefficientTask::execute", "src/AbsorptionCoefficientTask.hpp: AbsorptionCoefficientTask::execute"]}
{"id": "C53", "title": "The T-matrix solves its defining linear system", "statement": "For every azimuthal order the stored T-matrix satisfies T Q = -RgQ for the given Q and RgQ matrices, is the only matrix that does, and can be computed exactly when Q is regular.", "quantifier": "all orders and all complex matrices Q and RgQ", "why_tests_cant": "all sizes and matrices", "anchors": ["src/TMatrixResource.hpp: TMatrixM0Task::execute, TMatrixMAllTask::execute", "src/Matrix.hpp: Matrix::plu_inverse"]}
{"id": "C54", "title": "Boolean parameters round-trip", "statement": "Converting the printed form of a boolean back gives the boolean, with any number of blanks around it, and every other text is either one of the documented words or reported as an error; never undefined behaviour.", "quantifier": "all texts", "why_tests_cant": "all inputs", "anchors": ["src/Utilities.hpp: convert<bool>, to_string<bool>"]}
{"id": "C55", "title": "execute_tasks returns under every fair scheduler", "statement": "If the operating system is fair to the threads and every user task returns, execute_tasks returns after finitely many steps with every task executed exactly once, whatever the interleaving of the lock attempts, roll backs and thefts.", "quantifier": "every valid registration history, thread and queue count, and every infinite fair interleaving", "why_tests_cant": "livelocks are infinite interleavings; a test that times out proves nothing and one that passes shows one schedule", "anchors": ["src/QuickSchedWrapper.hpp: execute_tasks", "quicksched/qsched.c: qsched_gettask, qsched_locktask, qsched_lockres"]}
{"id": "C56", "title": "CosTuuM's own task graphs always terminate", "statement": "The task graph generated for any parameter set, executed by any number of threads under any fair scheduler, terminates with every task executed exactly once: the order in which the generator registers write links excludes livelock.", "quantifier": "every parameter set with at least one memory slot and one quadrature order, every fair interleaving", "why_tests_cant": "needs all parameter sets and all infinite interleavings", "anchors": ["src/TaskManager.hpp: generate_tasks", "src/QuickSchedWrapper.hpp", "quicksched/qsched.c: qsched_locktask"]}
{"id": "C57", "title": "Clebsch-Gordan coefficients are exact", "statement": "get_clebsch_gordan_coefficient and get_clebsch_gordan_coefficients return the Clebsch-Gordan coefficients of Racah's formula for every admissible set of quantum numbers, including negative M, without reading or writing outside the work array, dividing by zero or taking the root of a negative number.", "quantifier": "all n1, n2, N, m1, m2, M inside the triangle and projection conditions; any previous content of the work array", "why_tests_cant": "six unbounded integers; tests compare a few tabulated values", "anchors": ["src/SpecialFunctions.hpp: get_clebsch_gordan_coefficient, get_clebsch_gordan_coefficients"]}
{"id": "C58", "title": "Orientation averages follow Mishchenko's formula", "statement": "The T-matrix of an ensemble of particles with a given orientation distribution is the complete double sum of Mishchenko (1991), eq. 3.27, although only non-negative azimuthal orders are stored and half of the terms are skipped; without alignment it is a copy.", "quantifier": "all T-matrices with the symmetry of spheroids, all orders and all expansion coefficients", "why_tests_cant": "all inputs; the skipped terms cancel only by symmetries of all coefficients", "anchors": ["src/AlignmentAverageTask.hpp: AlignmentAverageTask::execute", "src/TMatrixCalculator.hpp: apply_orientation_distribution"]}
{"id": "C59", "title": "Orientation averages preserve what orientation cannot change", "statement": "For every normalised orientation distribution the sums over the azimuthal order of the diagonal elements are those of a single particle, and for random orientation the average is diagonal with all azimuthal orders equal.", "quantifier": "all T-matrices, orders and distributions", "why_tests_cant": "all inputs", "anchors": ["src/AlignmentAverageTask.hpp: AlignmentAverageTask::execute"]}
{"id": "C60", "title": "The orientation average stays inside its work array", "statement": "Averaging a T-matrix of any order up to the configured maximum order never accesses memory outside the per-thread work array.", "quantifier": "all maximum orders and all orders up to it", "why_tests_cant": "an overflow of a heap array often has no visible effect in a test", "anchors": ["src/AlignmentAverageTask.hpp: AlignmentAverageTask::execute", "src/TMatrixResource.hpp: TMatrixAuxiliarySpace"]}
{"id": "C61", "title": "Spheroid geometry", "statement": "At every quadrature point the squared radius and the logarithmic derivative of the radius used by the T-matrix calculation are those of the spheroid with the given axis ratio whose volume is that of a sphere of unit radius.", "quantifier": "all axis ratios > 0, all symmetric quadrature rules, all points of the rule", "why_tests_cant": "real arguments; a test compares a few points to reference numbers", "anchors": ["src/SpecialFunctions.hpp: get_r_dr_spheroid", "src/GaussBasedResources.hpp"]}
{"id": "C62", "title": "The Q-matrices are the documented surface integrals", "statement": "For every azimuthal order m (0 and positive orders are computed by different code) the elements of Q and RgQ from which the T-matrix is computed are, up to one common factor, the quadrature of the documented surface integrals of cross products of vector spherical waves over the whole surface, although the code sums over one half of the points, skips elements and uses hand-expanded products.", "quantifier": "all orders m <= nmax, all sizes, shapes, wavelengths and refractive indices, all radial functions, all symmetric quadrature rules", "why_tests_cant": "an identity between two formulas for all arguments", "anchors": ["src/TMatrixResource.hpp: TMatrixM0Task::execute, TMatrixMAllTask::execute", "src/TMatrix.hpp"]}
{"id": "C63", "title": "The stored T-matrix is the solution of the extended boundary condition", "statement": "When a T-matrix task finishes, the stored matrix is the unique solution T of T Q = -RgQ with Q and RgQ the documented surface integrals; the task fails exactly when Q is singular.", "quantifier": "all inputs of the T-matrix tasks", "why_tests_cant": "all inputs; uniqueness and the failure condition range over all matrices", "anchors": ["src/TMatrixResource.hpp: TMatrixM0Task::execute, TMatrixMAllTask::execute", "src/Matrix.hpp: Matrix::plu_inverse"]}
{"id": "C64", "title": "The T-matrix has the symmetries of a spheroid", "statement": "Elements of the stored T-matrix which couple orders of different parity within one kind of wave, or orders of equal parity between the two kinds, are exactly zero; for m=0 the two kinds do not couple.", "quantifier": "all inputs of the T-matrix tasks, all elements", "why_tests_cant": "all inputs", "anchors": ["src/TMatrixResource.hpp: TMatrixM0Task::execute, TMatrixMAllTask::execute"]}
{"id": "C65", "title": "Spherical Bessel functions of the second kind are exact", "statement": "spherical_y_ydy_array returns, for every order up to the requested one, the function y_n of its power series and the derivative of z y_n(z) divided by z, for real and for complex arguments alike, and writes nothing outside arrays of at least two elements.", "quantifier": "all non-zero real and complex arguments, all numbers of orders, all array sizes", "why_tests_cant": "an identity between a recursion and infinite series, for all arguments and all orders", "anchors": ["src/SpecialFunctions.hpp: spherical_y_ydy_array"]}
{"id": "C66", "title": "Spherical Bessel functions of the first kind are accurate", "statement": "spherical_j_jdj_array returns, for every order up to the requested one, j_n and the derivative of z j_n(z) divided by z up to the effect of truncating the continued fraction at order 800, which is far below rounding; it never divides by zero and writes nothing out of bounds.", "quantifier": "all non-zero real and complex arguments, all numbers of orders, all array sizes", "why_tests_cant": "an error estimate for all arguments and all orders", "anchors": ["src/SpecialFunctions.hpp: spherical_j_jdj_array, SPECIALFUNCTIONS_BESSEL_NMAX"]}
{"id": "C67", "title": "Equal volume and equal surface spheres", "statement": "get_equal_volume_to_equal_surface_area_sphere_ratio returns the quotient of the radius of the sphere with the volume of the spheroid and the radius of the sphere with its surface area.", "quantifier": "all spheroids (all positive axis ratios, oblate, prolate and spherical)", "why_tests_cant": "an identity between an elementary formula and a surface integral for all axis ratios", "anchors": ["src/SpecialFunctions.hpp: get_equal_volume_to_equal_surface_area_sphere_ratio"]}
{"id": "C68", "title": "The CDE2 shape distribution is a probability density", "statement": "The shape factor used by DraineHensleyShapeDistribution is the depolarisation factor of the spheroid, increases from 0 to 1 with the axis ratio and is 1/3 for a sphere; the Jacobian is its derivative (up to 2e-15 close to a sphere); the distribution function is positive, its integral over a range of axis ratios is the probability that 12 L (1-L)^2 gives to the corresponding shape factors, and its total mass is one.", "quantifier": "all axis ratios and all ranges of axis ratios", "why_tests_cant": "integrals and derivatives over a continuum of axis ratios", "anchors": ["src/DraineHensleyShapeDistribution.hpp: get_shape_factor, get_jacobian, cde2, evaluate_cde2, operator()"]}
{"id": "C69", "title": "The limits of the shape distribution meet the requested criterion", "statement": "Constructing a DraineHensleyShapeDistribution terminates; with a cutoff, the density is below the cutoff at both limits and crosses it within one percent of each; with a fraction, the limits enclose that fraction of the prolate and of the oblate shapes.", "quantifier": "all accepted cutoffs and fractions, all quadratures within the stated accuracy", "why_tests_cant": "termination and error bound of four search loops for a continuum of inputs", "anchors": ["src/DraineHensleyShapeDistribution.hpp: DraineHensleyShapeDistribution", "src/ShapeDistribution.hpp: evaluate"]}
{"id": "C70", "title": "Refraction at a surface obeys Snell's law and conserves energy", "statement": "A RefractionEvent reports the angle of Snell's law and the Fresnel coefficients which follow from continuity of the fields at the surface for both polarisations; reflection and transmission coefficients lie between 0 and 1 and add up to 1; above the critical angle everything is reflected.", "quantifier": "all incident angles and refractive indices", "why_tests_cant": "a continuum of angles and indices", "anchors": ["src/RefractionEvent.hpp: RefractionEvent"]}
{"id": "C71", "title": "Adaptive quadrature stops at the first order that agrees", "statement": "gauss_legendre_quadrature returns the value of the first order that agrees with the order before to within one of the tolerances, or of the last order below the maximum, and warns exactly if that order was reached; polynomials of a degree below twice the starting order are integrated exactly.", "quantifier": "all functions, intervals, limits and tolerances, all families of rules", "why_tests_cant": "all functions and limits; termination of a search loop", "anchors": ["src/SpecialFunctions.hpp: gauss_legendre_quadrature"]}
{"id": "C72", "title": "A T-matrix from the calculator has converged", "statement": "TMatrixCalculator::calculate_TMatrix returns a T-matrix whose order is the first one that changes the scattering and extinction factors by no more than the tolerance and whose number of quadrature points is the first stable one for that order, within the given limits, or reports that it cannot converge.", "quantifier": "all particles, limits and tolerances", "why_tests_cant": "all sequences of efficiency factors, including infinities and not-a-number", "anchors": ["src/TMatrixCalculator.hpp: calculate_TMatrix"]}
{"id": "C73", "title": "A TMatrix object holds the T-matrix of its particle", "statement": "After TMatrix has been constructed and compute_additional_elements has been called once, the elements read with operator() for every azimuthal order are the T-matrix of the spheroid: the only solution of T Q = -RgQ for the surface integrals Q and RgQ of the extended boundary condition method, the same numbers the T-matrix tasks compute. Construction or the call aborts exactly when a Q is singular. An element written with set_element is read back and no other element changes; every element access stays within its array. Every further call of compute_additional_elements adds the T-matrix again for m > 0.", "quantifier": "all particles, all orders, all histories of calls", "why_tests_cant": "all particles, orders and sequences of calls", "anchors": ["src/TMatrix.hpp: TMatrix::TMatrix, compute_additional_elements, operator(), set_element"]}
{"id": "C74", "title": "The orientation of the particle only turns the frame", "statement": "The forward scattering matrix of a particle with any orientation, for any two directions, describes the field that the same particle with its axis along z scatters, seen from the frame of the particle; it depends on the orientation only through the direction of the axis, does not change when particle and light are turned together around z, equals the matrix without orientation for an axis along z, and the latter is the sum of the T-matrix series over all orders.", "quantifier": "all orientations, directions and T-matrices, including directions along the axis", "why_tests_cant": "a continuum of orientations and directions with several singular cases", "anchors": ["src/TMatrix.hpp: get_forward_scattering_matrix"]}
{"id": "C75", "title": "Cross sections and coefficients of a TMatrix object are those of its scattering matrix", "statement": "get_scattering_matrix maps the Stokes vector of the incoming light to that of the scattered light and keeps light physical; get_extinction_matrix is the first order change of the Stokes vector of the transmitted light; get_scattering_coefficient is the sum of the squared moduli of all elements of the T-matrix and get_extinction_coefficient the real part of its trace, negative orders included; the absorption functions give what is extinguished minus what the quadrature says is scattered, for every angle, and write nothing else.", "quantifier": "all particles, orientations, directions and quadrature rules", "why_tests_cant": "a continuum of directions and particles of every order", "anchors": ["src/TMatrix.hpp: get_scattering_matrix, get_extinction_matrix, get_reduced_extinction_matrix, get_scattering_coefficient, get_extinction_coefficient, get_absorption_cross_sections, get_absorption_cross_section, get_average_absorption_cross_section"]}
{"id": "C76", "title": "Averages over all directions are the sums over the T-matrix", "statement": "The average over all directions of the light of what get_extinction_matrix gives, taken with the Gauss rule the class itself uses, is -2 pi/k^2 times get_extinction_coefficient; the average over both directions of what get_scattering_matrix gives is 2 pi/k^2 times get_scattering_coefficient, and get_average_absorption_cross_section returns the difference, up to the error of the Gauss rule in the azimuth, which is below 8 pi (2 pi nmax)^(2 ngauss)/(2 ngauss)! times (2 nmax + 1)/k^2 times the scattering coefficient, for every nmax < ngauss.", "quantifier": "all particles, orders nmax and numbers of points ngauss > nmax", "why_tests_cant": "orders, numbers of points and particles are unbounded; a test compares a few to a tolerance", "anchors": ["src/TMatrix.hpp: get_average_absorption_cross_section, get_extinction_coefficient, get_scattering_coefficient, get_extinction_matrix, get_scattering_matrix", "src/SpecialFunctions.hpp: get_gauss_legendre_points_and_weights_ab"]}
{"id": "C77", "title": "A run returns the specified composition of its kernels", "statement": "After execute_tasks the result of every requested kind for every composition, size and wavelength is the shape average of the coefficients computed from the orientation averaged T-matrix of each shape, where that T-matrix is built from the m = 0 and m > 0 kernels at the first order at which both efficiency factors changed by no more than the tolerance (or the last order), from freshly constructed storage; this holds for every number of threads, queues and T-matrix slots and every interleaving, and the order used for each shape is unique.", "quantifier": "all parameter sets, all runs of the scheduler, all interleavings of the execute() functions, all kernels", "why_tests_cant": "the number of schedules, orders and blocks is unbounded, and reuse of slots makes results depend on what other blocks left behind unless it is ruled out", "anchors": ["src/TaskManager.hpp: generate_tasks", "src/TMatrixResource.hpp: TMatrixM0Task, TMatrixMAllTask, ResetTMatrixResourceTask", "src/InteractionResource.hpp: InteractionTask, ResetInteractionResourceTask", "src/AlignmentAverageTask.hpp", "src/ShapeAveragingTask.hpp", "quicksched/qsched.c"]}
{"id": "C78", "title": "The tasks store the observables of the particle", "statement": "For every angle in [0, pi] the extinction task stores the elements K11, K12 and K34 of the extinction matrix of the particle for light from that direction, divided by the cross section of the equal volume sphere; the absorption task stores what is extinguished and not scattered, as the product of two Gauss-Legendre rules integrates it (the extinction when scattering is switched off); the scattering task stores, at position itheta * nphi + iphi, the matrix that maps Stokes vectors of the incoming light to those of the light scattered into the direction (itheta, iphi). Earlier contents of grids, tables and results do not matter and nothing else is written.", "quantifier": "all T-matrices, orders up to the order of the tables, angles, numbers of angles and quadrature points", "why_tests_cant": "orders, angles and array sizes are unbounded; an index error in the shared tables shows up only for particular combinations of order and degree", "anchors": ["src/AbsorptionCoefficientTask.hpp: AbsorptionCoefficientGrid, AbsorptionSpecialWignerDResources, AbsorptionCoefficientTask", "src/ExtinctionCoefficientTask.hpp", "src/ScatteringMatrixTask.hpp", "src/NBasedResources.hpp: get_cnn", "src/TMatrixResource.hpp: TMatrixResource::operator()"]}
{"id": "C79", "title": "A run returns the optical properties of the particles that were asked for", "statement": "For every composition, size, wavelength, list of shapes, orientation distribution and list of angles, every number of threads and amount of memory, the numbers in the results are: for each shape, solve T Q = -Rg Q, where Q and Rg Q are the surface integrals of the vector spherical waves over the spheroid, in the order selected by the convergence test on the efficiency factors of the m=0 elements; average T over orientations with Mishchenko's formula; compute extinction coefficients, absorption coefficients or the scattering matrix for a particle with its axis along z, relative to the cross section of the equal volume sphere; average over the shapes with the weights of the shape distribution.", "quantifier": "all inputs with positive sizes, wavelengths and axis ratios and invertible Q, all schedules, all numbers of threads and of shared storage slots, all ranges of orders", "why_tests_cant": "the claim composes every part of the program and quantifies over inputs, orders, schedules and memory limits at the same time", "anchors": ["src/TaskManager.hpp: generate_tasks", "src/TMatrixResource.hpp", "src/AlignmentAverageTask.hpp", "src/InteractionResource.hpp", "src/ShapeAveragingTask.hpp", "src/ExtinctionCoefficientTask.hpp", "src/AbsorptionCoefficientTask.hpp", "src/ScatteringMatrixTask.hpp"]}
{"id": "C80", "title": "Coefficients of a user-supplied orientation density", "statement": "initialise of an orientation distribution, which Python's CustomOrientationDistribution calls for a density given as a function of the angle, leaves coefficient 0 equal to 1 and, for n > 0, as coefficient n the integral of sin(theta) times the normalised density times the Legendre polynomial of order n, as the adaptive quadrature gives it: by the first order of the rule that agrees with the order before. If the integrand is within e of a polynomial of degree below 4(n+1), coefficient and normalisation are within 2 pi e of the integrals. It returns for every density with a positive integral. A density symmetric about pi/2 gives odd coefficients that are exactly zero; a copy has the same coefficients; the uniform density gives 1 and then coefficients below 1/(25 2^n).", "quantifier": "all densities, all orders", "why_tests_cant": "densities are arbitrary functions and orders are unbounded; tests compare a few coefficients of a few densities", "anchors": ["src/OrientationDistribution.hpp: OrientationDistribution, initialise, operator()", "src/PyOrientationDistribution.hpp: CustomOrientationDistribution", "src/SpecialFunctions.hpp: gauss_legendre_quadrature, wigner_dn_0m"]}
{"id": "C81", "title": "evaluate of an orientation distribution is the truncated Legendre series", "statement": "The evaluate method of the Python orientation distributions returns at each angle the Legendre series of the coefficients below the maximum order; the moments of the returned function are the coefficients; a density that is a polynomial in cos(theta) of degree below the maximum order is reproduced exactly, in particular the density of imperfect alignment for orders of at least 3.", "quantifier": "all coefficient sequences, maximum orders, angles and polynomial densities", "why_tests_cant": "a continuum of angles and densities and unbounded orders", "anchors": ["src/PyOrientationDistribution.hpp: evaluate", "src/MishchenkoOrientationDistribution.hpp", "src/SpecialFunctions.hpp: wigner_dn_0m"]}
{"id": "C82", "title": "Array arguments are read with their layout", "statement": "The Python functions that take angles, sizes, types or wavelengths use the values of the NumPy array in order, whatever its layout: slices with any step, reversed and broadcast views, and plain numbers give the same result as a contiguous copy.", "quantifier": "all buffers, base addresses, lengths, steps (positive, negative, zero) and element values", "why_tests_cant": "buffers, lengths and strides are unbounded; a test that passes contiguous arrays of the right type cannot see a wrong stride or element type", "anchors": ["src/PyHelperFunctions.hpp: unpack_numpy_array", "src/PyTMatrix.hpp: get_absorption_cross_section, get_absorption_cross_sections, get_extinction_matrix", "src/CTMModule.cpp: get_table"]}
{"id": "C83", "title": "A Python TMatrix object holds the T-matrix of the particle that was asked for", "statement": "TMatrix(particle_radius, axis_ratio, wavelength, refractive_index, cos2beta, ...) either fails or holds the T-matrix (T Q = -Rg Q) of the spheroid with that shape, with the given radius as equal volume or equal surface area radius, in the order selected by the convergence loops, averaged over orientations when cos2beta >= 0 with a distribution whose mean of cos^2(beta) is cos2beta.", "quantifier": "all radii, axis ratios, wavelengths, refractive indices, degrees of alignment, tolerances and limits on orders and points", "why_tests_cant": "real parameters and orders are unbounded", "anchors": ["src/PyTMatrix.hpp: init", "src/TMatrixCalculator.hpp: calculate_TMatrix, apply_orientation_distribution", "src/DavisGreensteinOrientationDistribution.hpp", "src/MishchenkoOrientationDistribution.hpp"]}
{"id": "C84", "title": "Arrays returned by a Python TMatrix object", "statement": "get_extinction_matrix, get_scattering_matrix and the absorption functions of a Python TMatrix object return, at the position given by the positions of the angles in their arguments, the matrix element or cross section of the particle for these angles; every element is filled; arguments with more than one dimension are refused.", "quantifier": "all T-matrix objects, numbers and layouts of angle arrays, positions in the result", "why_tests_cant": "numbers of angles are unbounded in up to four dimensions; index errors show up only for particular combinations", "anchors": ["src/PyTMatrix.hpp: get_extinction_matrix, get_scattering_matrix, get_absorption_cross_section, get_absorption_cross_sections, get_average_absorption_cross_section", "src/PyHelperFunctions.hpp: unpack_numpy_array"]}
{"id": "C85", "title": "Spheres have the T-matrix of Mie theory", "statement": "For axis ratio 1 the T-matrix object exists exactly when none of the denominators of the Mie coefficients is zero; its elements are then the Mie coefficients, -b_n and -a_n on the diagonal and zero elsewhere, for every azimuthal order; its extinction and scattering sums are those of Mie theory; the tasks of the table calculation give the same matrices; and averaging over any orientation distribution does not change them.", "quantifier": "all sizes, wavelengths, refractive indices, orders, numbers of quadrature points greater than half the order, radial functions, orders m and elements, orientation distributions", "why_tests_cant": "reference values of Mie theory exist for single spheres only; the identity is between two formulas for all parameters and all orders", "anchors": ["src/TMatrixCalculator.hpp", "src/TMatrix.hpp: TMatrix, compute_additional_elements, get_extinction_coefficient, get_scattering_coefficient", "src/TMatrixResource.hpp: execute", "src/AlignmentAverageTask.hpp: execute"]}
{"id": "C86", "title": "Energy conservation for spheres", "statement": "A sphere of a material that does not amplify light (imaginary part of the dielectric function not negative) always has a T-matrix, whatever its size; its scattering sum is not negative and never exceeds its extinction sum, they are equal if the material is transparent, and the extinction is greater if the material absorbs. The average absorption cross section is therefore not negative up to the known error of the azimuthal quadrature.", "quantifier": "all sizes, wavelengths, passive refractive indices, orders, numbers of quadrature points", "why_tests_cant": "absence of singular matrices and a sign for all sizes and materials cannot be established by trying some of them", "anchors": ["src/TMatrix.hpp: TMatrix, compute_additional_elements, get_extinction_coefficient, get_scattering_coefficient, get_average_absorption_cross_section", "src/SpecialFunctions.hpp: spherical_j_jdj_array, spherical_y_ydy_array", "src/DraineDustProperties.hpp: get_refractive_index"]}
{"id": "C87", "title": "Spheres scatter and extinguish as in Mie theory in every direction", "statement": "For a sphere, whatever orientation is asked for: the field scattered from any incident into any other direction has the Mie amplitudes S1 (perpendicular to the scattering plane) and S2 (in it), the scattered intensity depends on the angle between the directions only, and the extinction matrix is the same multiple of the identity for all directions, with the Mie extinction cross section. Accordingly, every run of the table computation for spheres, with any number of threads and any schedule and any orientation distribution, returns the Mie extinction efficiency (also as absorption efficiency if scattering is neglected), no dichroism and no birefringence at every angle, and the Mie scattered intensity in every direction of the grid.", "quantifier": "all spheres with a T-matrix, orientations, incident and scattered directions that are a pole of the particle or at least 1e-10 (in the cosine) away from one, wavenumbers; for the tables all parameter points, schedules, thread counts", "why_tests_cant": "an identity between continuous functions of four angles, two orientations and all sizes, and all interleavings of the tasks", "anchors": ["src/TMatrix.hpp: get_forward_scattering_matrix, get_extinction_matrix, get_scattering_matrix", "src/ExtinctionCoefficientTask.hpp: ExtinctionCoefficientTask", "src/AbsorptionCoefficientTask.hpp: AbsorptionCoefficientTask", "src/ScatteringMatrixTask.hpp: ScatteringMatrixTask", "src/TaskManager.hpp: generate_tasks", "src/AlignmentAverageTask.hpp"]}
{"id": "C88", "title": "get_table as a whole", "statement": "A call of get_table reads its four argument arrays as Python sees them, whatever their strides or if they are plain numbers. When all tasks have run, on any number of threads and under any schedule, it never touches a result that was not computed and returns: the array of coefficients (type, size, wavelength, angle, column), the array of scattering matrices, both, or a null pointer if nothing was asked for. The element for the i-th type, j-th smallest size and k-th smallest wavelength is the mean over the shapes, with their weights, of the observable of the particle with that size, that wavelength and the refractive index of the dust object for that type, size and wavelength; for spheres it is the Mie value. Dimensions of length 1 are dropped, and nothing else changes the position of an element.", "quantifier": "all argument arrays that are one-dimensional or plain numbers of the right element type, all parameter grids, request flags, orders, numbers of threads, queues and slots, and schedules", "why_tests_cant": "composition of argument parsing, a concurrent computation and an index calculation, for arrays of every size and layout", "anchors": ["src/CTMModule.cpp: get_table", "src/PyHelperFunctions.hpp: unpack_numpy_array", "src/TaskManager.hpp: add_composition, add_size, add_wavelength, generate_tasks", "src/ResultKey.hpp: get_result_index"]}
{"id": "C89", "title": "Averaging is over turned particles", "statement": "The T-matrix that alignment averaging returns is, element by element, the mean of the T-matrices of the particle turned to every orientation: azimuth uniform and zenith angle with the density of the orientation distribution. For a Mishchenko distribution the density is the documented one; for Davis-Greenstein alignment oblate grains keep their axis along the alignment axis and prolate grains have it perpendicular with every azimuth equally likely. (The scattered power of the averaged T-matrix is however not the mean of the scattered powers.)", "quantifier": "all T-matrices of an axisymmetric particle, all orders, all orientation densities with the given Legendre moments", "why_tests_cant": "an identity between a finite sum of products of Clebsch-Gordan coefficients and an integral over rotations, for all orders", "anchors": ["src/AlignmentAverageTask.hpp: execute", "src/TMatrixCalculator.hpp: apply_orientation_distribution", "src/SpecialFunctions.hpp: get_clebsch_gordan_coefficients", "src/MishchenkoOrientationDistribution.hpp", "src/DavisGreensteinOrientationDistribution.hpp"]}
{"id": "C90", "title": "Tables are for the documented ensemble of grains", "statement": "When get_table is given a SizeBasedAlignmentDistribution, the T-matrix of every grain in the table is the mean over the documented orientations: grains not larger than minimum_size are randomly oriented (density within 1/10 of uniform, whatever the tolerances of the quadrature), larger grains are perfectly aligned (type 0: oblate along the axis, prolate perpendicular to it), imperfectly aligned with the Mishchenko density (type 1: <cos^2> = 3/5 for oblate and 1/5 for prolate), not averaged (type 2), or distributed as the given distributions (type 3), provided that the object has coefficients up to twice the order of the T-matrix. (With fewer coefficients the averaging reads outside of its array: custom distributions have 101 coefficients by default, too few for order 51.)", "quantifier": "all alignment objects, grain sizes, axis ratios, orders, argument arrays and schedules", "why_tests_cant": "composition of numerical integration of the coefficients, selection by size and shape, sums over Clebsch-Gordan coefficients and a concurrent computation", "anchors": ["src/PyAlignmentDistribution.hpp: init", "src/SizeBasedAlignmentDistribution.hpp", "src/OrientationDistribution.hpp", "src/AlignmentAverageTask.hpp: execute", "src/TaskManager.hpp: generate_tasks", "src/CTMModule.cpp: get_table"]}
{"id": "C91", "title": "Extinction by an aligned cloud is the mean over its particles", "statement": "The amplitude matrix returned for a T-matrix is the textbook double series of vector spherical harmonics with that T-matrix, in every direction and orientation. The extinction matrix computed from an orientation-averaged T-matrix (AlignmentAverageTask, the Python TMatrix object with cos2beta, and the efficiencies written by get_table for a SizeBasedAlignmentDistribution) is the mean, over the documented orientations of the grains, of the extinction matrices of the single grains turned to those orientations; so are the extinction efficiencies of get_table, and its absorption efficiencies when no light is scattered.", "quantifier": "all T-matrices without mixed parity or azimuthal order, alignment laws, directions, orientations, wavelengths, sizes, argument arrays and schedules", "why_tests_cant": "an integral over a continuum of orientations has to equal a finite sum over Clebsch-Gordan coefficients in every direction", "anchors": ["src/TMatrix.hpp: get_forward_scattering_matrix, get_extinction_matrix", "src/AlignmentAverageTask.hpp: execute", "src/TMatrixCalculator.hpp", "src/PyTMatrix.hpp", "src/CTMModule.cpp: get_table"]}
{"id": "C92", "title": "Numbers in parameter files are read and written faithfully", "statement": "A decimal number in a parameter file (sign, digits, point, exponent; leading blanks; a unit or nothing behind it) is read as the nearest double. A number that the program writes to its file of used values has six significant digits: reading it again gives a number within 5.001 millionths of the original, exactly the same number if that has at most six significant digits, and what is written for the number that was read is the same text again, so that values do not drift. Complex numbers, numbers with units and unsigned integers of 64 bits likewise (integers exactly). (Other doubles are not reproduced exactly; complex numbers with a minus sign between their parts are rejected.)", "quantifier": "all decimal texts and all doubles between 10^-200 and 10^200 in absolute value and zero", "why_tests_cant": "rounding of every double to decimal and back", "anchors": ["src/Utilities.hpp: convert<double>, convert<std::complex<double>>, to_string, split_value"]}
{"id": "C93", "title": "The command line program computes what its parameter file says", "statement": "The program CosTuuM takes the name of a parameter file (--params, -p) and of an output file (--output, -o). It reads fifteen parameters with the documented keys, with units converted to SI, and the documented defaults for those that are not given (or given as the words 'default value'). It writes the values it uses to parameters-usedvalues.param before it starts the calculation, computes the T-matrix of the described particle and writes the extinction matrix for the given orientation and direction of incidence to the output file: the numbers of rows, columns and bytes per element as 32-bit numbers and then the elements row by row. Without a readable, well-formed parameter file, with --help or with unknown options nothing is written. A second run with the file of used values uses the same values up to 5.001 millionths; a third run with the file of the second uses exactly the values of the second, writes the same bytes and ends in the same way. (The second run need not use exactly the values of the first: the default wavelength changes.)", "quantifier": "all command lines of accepted settings, all parameter files, all contents of the file system, all results of the calculation", "why_tests_cant": "unbounded texts and values, sequences of runs", "anchors": ["src/CosTuuM.cpp: main", "src/ParameterFile.cpp: ParameterFile, print_contents", "src/YAMLDictionary.hpp: get_physical_value", "src/Matrix.hpp: binary_dump"]}
{"id": "C94", "title": "The radial functions used in the calculation of T-matrices are spherical Bessel functions", "statement": "For every quadrature point and every order the calculation of a T-matrix (by the tasks of get_table and by TMatrix objects) uses y_n and j_n at the size parameter of the surface point, j_n at that size parameter times the refractive index, and the corresponding derivatives: y_n exactly, j_n up to 10^-1000 for arguments up to 20 and orders up to 400 at which j_0 does not vanish. The values do not depend on the order at which the calculation stops, on the number of points, on the size or earlier contents of the shared resource, or on uninitialised memory; rows of the shared arrays do not disturb each other although the routine for y_n writes two elements when only one is asked for. (With a maximum order of 1 it writes behind the end of the array for the last point; with more than 800 orders the routine for j_n reads behind the end of its table.)", "quantifier": "all orders from 2 to 800, all numbers of points, all sizes, wavelengths and refractive indices at which the recursion for j_n does not divide by zero, all earlier contents of the arrays", "why_tests_cant": "all positions in shared flat arrays, all arguments of the functions", "anchors": ["src/InteractionResource.hpp: InteractionTask, ResetInteractionResourceTask, get_jkr, get_ykr, get_djkr, get_dykr, get_jkrmr, get_djkrmr", "src/TMatrix.hpp: TMatrix", "src/Matrix.hpp: get_row", "src/SpecialFunctions.hpp: spherical_j_jdj_array, spherical_y_ydy_array"]}
{"id": "C95", "title": "Python functions given to custom objects live as long as they are needed", "statement": "A CustomDustProperties or CustomOrientationDistribution object keeps the function and the additional arguments it was made with: they exist as long as the object exists, and as long as a running get_table call (or a nested call of the function) uses the object, even if the program drops its own references while the calculation runs, in any order and from any thread. Nothing that has been freed is ever used or freed again. An alignment object made from an orientation object does not depend on it afterwards. When nothing is held any more and no calculation runs, everything has been freed, provided that no object was initialised twice. An object whose initialisation failed, or an object of another type given in its place, must not be used.", "quantifier": "all histories of creating, initialising, copying references, dropping, starting and finishing calculations, and calls of the function, interleaved in any order", "why_tests_cant": "ownership errors show only in particular histories of references; use after free need not crash", "anchors": ["src/PyDustProperties.hpp: dealloc, alloc, init, CustomDustProperties", "src/PyOrientationDistribution.hpp: dealloc, alloc, init, CustomOrientationDistribution", "src/PyAlignmentDistribution.hpp: init", "src/SizeBasedAlignmentDistribution.hpp: SizeBasedAlignmentDistribution", "src/CTMModule.cpp: get_table"]}
{"id": "C96", "title": "Python functions are called with the documented arguments, once per combination, and their results are used", "statement": "get_table calls the function of custom dust properties once for every grain type, size and wavelength of its arguments, with wavelength, size and type (and the additional arguments, if given) in this order: types in the order given, for each type the sizes and for each size the wavelengths in increasing order. A complex number that the function returns (a Python complex or a NumPy array without dimensions of type complex128) is the refractive index used for the rows of the result with this type, size and wavelength, also if the function depends on earlier calls. The same holds for the get_refractive_index method and for the densities returned by the function of a custom orientation distribution (float or float64 array without dimensions). A result that is no number ends the program with the call that returned it.", "quantifier": "all functions (depending on their arguments and on earlier calls), all lists of types, sizes and wavelengths, all returned objects and memory contents", "why_tests_cant": "tests use one function and sorted arrays with few elements; the order of calls and the treatment of other result types concern all functions", "anchors": ["src/PyDustProperties.hpp: CustomDustProperties::get_refractive_index, PyDustProperties::get_refractive_index", "src/PyOrientationDistribution.hpp: CustomOrientationDistribution::operator()", "src/TaskManager.hpp: generate_tasks"]}
{"id": "C97", "title": "In double precision the direction of the light relative to a tilted particle is found up to rounding, except along its axis", "statement": "For every orientation of a particle and every direction of incoming or outgoing light, the amplitude, scattering and extinction matrices of the T-matrix object start from the direction of the light relative to the particle. Computed in double precision, the three components of this direction are within 2^-49 of the exact ones, and the sine and cosine of the angle with the axis belong together within 2^-50, for every light direction whose cosine with the axis is not within 2^-49 of 1 or -1. (Closer to the axis the result may be NaN: light along the axis of a particle tilted by 85/128 is an example.)", "quantifier": "all angles of the particle and of the light (real numbers)", "why_tests_cant": "rounding errors depend on every bit of the angles; tests compare a few angles with a tolerance", "anchors": ["src/TMatrix.hpp: get_forward_scattering_matrix", "src/ScatteringMatrixResource.hpp: execute", "src/ExtinctionMatrixResource.hpp: execute"]}
{"id": "C98", "title": "Shape averages in double precision are weighted means up to rounding, exact for a single shape", "statement": "The averages of coefficients over a shape distribution, as computed in double precision, differ from the weighted mean of the coefficients of the shapes by at most (2n+4) 2^-53 times the weighted mean of their sizes (plus 2^-1075), n the number of shapes; if all shapes have the same coefficient, the average is this coefficient up to (2n+4) roundings; averages of coefficients that are not negative are not negative; the average over the distribution with a single shape is the coefficient of that shape, bit for bit.", "quantifier": "all numbers of shapes up to 2^20, all weights (doubles, not negative, not all zero) and coefficients whose products with the weights do not underflow", "why_tests_cant": "rounding errors depend on every bit of the inputs; tests compare with a tolerance", "anchors": ["src/ShapeAveragingTask.hpp: AbsorptionShapeAveragingTask::execute, ExtinctionShapeAveragingTask::execute, ScatteringMatrixShapeAveragingTask::execute", "src/SingleShapeShapeDistribution.hpp: SingleShapeShapeDistribution"]}
{"id": "C99", "title": "Task objects for one scattering event give the matrices of the class TMatrix when executed once", "statement": "A scattering matrix task object, made for at least the order of its T-matrix and executed once, holds for all orientations and directions exactly the matrix TMatrix::get_scattering_matrix returns; a smaller object writes past the end of its arrays, and only then. An extinction matrix task object holds the matrix of TMatrix::get_extinction_matrix for a particle with its axis along z, however often it is executed. Executing a scattering matrix object a second time gives a different matrix.", "quantifier": "all T-matrices of all orders, all wavenumbers, orientations and directions, all earlier contents of the objects", "why_tests_cant": "equality of two independent implementations for all angles and orders; a second execution of the same object is never tested", "anchors": ["src/ScatteringMatrixResource.hpp: ScatteringMatrixResource::execute", "src/ExtinctionMatrixResource.hpp: ExtinctionMatrixResource::execute", "src/TMatrix.hpp: get_scattering_matrix, get_extinction_matrix"]}
{"id": "C100", "title": "Helper functions: memory sizes, times, prime factors, binary digits, ends of names, numbered file names", "statement": "The memory sizes the verbose mode prints are the size in the largest unit not above it, to half a hundredth, below 2^50 bytes (from there on the program ends); a time is split into years, days, hours, minutes and seconds that add up to it, each below its limit; decompose returns the prime factors in ascending order, ends for every number and never overflows; the binary digits written are those of the number, in groups of four; string_ends_with is true exactly if the text ends with the other one; file names with different counters differ.", "quantifier": "all 64-bit sizes, all times that are not negative, all numbers of all unsigned types, all texts and counters", "why_tests_cant": "quantifies over all numbers and texts; termination and absence of overflow cannot be tested exhaustively", "anchors": ["src/Utilities.hpp: human_readable_bytes, byte_unit, human_readable_time, decompose, as_binary_sequence, string_ends_with, compose_filename", "src/CTMModule.cpp: get_table", "src/TaskManager.hpp: generate_tasks"]}
{"id": "C101", "title": "Shape distributions made in Python", "statement": "SingleShapeShapeDistribution(axis_ratio) is a distribution of one shape whose limits are this axis ratio; DraineHensleyShapeDistribution(npoints = 20, cutoff = 0.15, fraction = -1) accepts its arguments by position and by name and refuses every other call; get_limits then gives axis ratios at which the density falls below the cutoff (within half a percent) or, for a positive fraction, limits that enclose this fraction of the prolate and of the oblate shapes whatever the cutoff; get_limits always refers to the last distribution that was made.", "quantifier": "all positional and named arguments, all cutoffs and fractions in range, all sequences of initialisations", "why_tests_cant": "quantifies over all calls and all real cutoffs and fractions", "anchors": ["src/PyShapeDistribution.hpp: PySingleShapeShapeDistribution::init, PyDraineHensleyShapeDistribution::init, get_limits", "src/DraineHensleyShapeDistribution.hpp", "src/SingleShapeShapeDistribution.hpp"]}
{"id": "C102", "title": "Shape factors of spheroids in double precision", "statement": "get_shape_factor in double precision is the correctly rounded 1/3 for a sphere. It is not accurate for every spheroid: next to the sphere its error exceeds 0.08 whatever the functions log and asin return, and for axis ratios up to 2^-28 it is not a number.", "quantifier": "all functions log and asin, all axis ratios up to 2^-28", "why_tests_cant": "quantifies over all implementations of the C library and over all axis ratios of an interval", "anchors": ["src/DraineHensleyShapeDistribution.hpp: get_shape_factor"]}
