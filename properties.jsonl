{"id": "C01", "title": "A bounds-constructed BlockIterator visits every position once", "statement": "Looping `for (BlockIterator it(bounds); !it.is_end(); it.step())` over any non-empty vector of non-empty half-open ranges terminates, and the as_position() values seen are exactly the integer vectors of the box, each exactly once.", "quantifier": "every vector of bounds (any length, any ranges that fit the word size)", "why_tests_cant": "unit tests enumerate two or three fixed boxes; the claim is about all lengths and all bounds", "anchors": ["src/block_iterator.cc: BlockIterator::BlockIterator(bounds)", "src/block_iterator.cc: step, step_, as_position"]}
{"id": "C02", "title": "Packages partition the described set of positions", "statement": "For any blocks, sets and dependent sets obeying the documented preconditions and any positive package size, iterating and calling as_block() terminates and yields boxes such that every described position lies in exactly one box, and no box contains a position that was not described.", "quantifier": "every combination of blocks, sets, dependent sets and package sizes satisfying the constructor's documented preconditions", "why_tests_cant": "the number of configurations and of positions is unbounded; tests check two package sizes", "anchors": ["src/block_iterator.cc: initialize_blocks, set_initial_position, as_block, step_"]}
{"id": "C03", "title": "A package never holds more than package_size positions", "statement": "Each box returned by as_block() of an iterator built with package size n contains at most n and at least one position.", "quantifier": "every iterator configuration and every reachable iterator state", "why_tests_cant": "universally quantified over configurations and all steps of the iteration", "anchors": ["src/block_iterator.cc: initialize_blocks, as_block"]}
{"id": "C04", "title": "as_block_enumerator enumerates exactly the current as_block box", "statement": "At every reachable non-end state, iterating the BlockIterator returned by as_block_enumerator() visits exactly the positions of the box returned by as_block(), each once.", "quantifier": "every configuration and reachable state", "why_tests_cant": "tests compare two states of one iterator", "anchors": ["src/block_iterator.cc: as_block_enumerator, as_block"]}
{"id": "C05", "title": "The end state is absorbing and reached after a predictable number of steps", "statement": "The number of step() calls until is_end() equals the product of the numbers of values/packages of all indices; after that further step() calls change nothing. A zero-length iterator is at the end immediately.", "quantifier": "every configuration, any number of additional steps", "why_tests_cant": "unbounded number of steps and configurations", "anchors": ["src/block_iterator.cc: step, set_initial_position"]}
{"id": "C06", "title": "BlockIterator rejects or survives every bad argument", "statement": "A block whose lower bound is not below its upper bound terminates the program; package size zero never causes a division by zero; iteration terminates for all 32-bit bounds.", "quantifier": "all constructor arguments including package_size 0 and bounds near the top of the unsigned range", "why_tests_cant": "boundary values of a 2^32-sized domain", "anchors": ["src/block_iterator.cc: initialize_blocks (89-104), step_ (277-279)"]}
{"id": "C07", "title": "FqElementTable lists every field element exactly once by discrete logarithm", "statement": "After construction, entry e<q-1 is the e-th power of a fixed multiplicative generator, entry q-1 is zero, and every field element occurs exactly once, whatever sequence of candidate generators the random generator produces.", "quantifier": "every finite field and every sequence of random candidates", "why_tests_cant": "depends on random candidates and on every field; tests see only fields with a Conway polynomial", "anchors": ["src/fq_element_table.cc: FqElementTable::FqElementTable"]}
{"id": "C08", "title": "power_coset_representatives(n) represents every n-th power class once", "statement": "Every non-zero field element is the product of an n-th power and the element indexed by exactly one of the returned indices.", "quantifier": "every finite field and every n", "why_tests_cant": "all fields, all n", "anchors": ["src/fq_element_table.cc: power_coset_representatives"]}
{"id": "C09", "title": "The exponent reduction table reduces modulo q-1", "statement": "For every index i below 2(q-1) the table entry is i mod (q-1), and the table has exactly 2(q-1) entries.", "quantifier": "every q and every index", "why_tests_cant": "all sizes", "anchors": ["src/reduction_table.cc: compute_exponent_reduction_table"]}
{"id": "C10", "title": "The incrementation table is the Zech logarithm", "statement": "For every i<=q-1, with g^(q-1) read as 0, the entry at i is the index of 1+g^i; every entry is written and every index used is in range.", "quantifier": "every finite field, every sequence of random candidates", "why_tests_cant": "all fields and all entries", "anchors": ["src/reduction_table.cc: compute_incrementation_table"]}
{"id": "C11", "title": "Curve construction only strips zero leading coefficients", "statement": "For every non-zero coefficient vector, the constructed curve has the same right-hand-side polynomial, its last stored coefficient is non-zero and degree() is the degree of that polynomial.", "quantifier": "every table and every coefficient vector", "why_tests_cant": "unbounded input vectors", "anchors": ["src/curve.cc: Curve::Curve", "src/curve.hh: degree"]}
{"id": "C12", "title": "genus() is the genus of y^2=f(x)", "statement": "For a curve of degree d>=1, genus() is the g with d=2g+1 or d=2g+2, and the point at infinity is ramified exactly when d is odd.", "quantifier": "every degree", "why_tests_cant": "unbounded", "anchors": ["src/curve.cc: genus, count (201-207)"]}
{"id": "C13", "title": "Coefficient conversion realises the field embedding", "statement": "convert_poly_coeff_exponents to an extension of degree k maps the coefficient vector to the vector of the same polynomial with coefficients embedded in the extension, provided the two generators are norm-compatible; a different prime or non-multiple exponent terminates the program.", "quantifier": "every pair of fields, every coefficient vector", "why_tests_cant": "all fields and vectors", "anchors": ["src/curve.cc: convert_poly_coeff_exponents"]}
{"id": "C14", "title": "count() returns the true number of points", "statement": "After count(table) for the extension field of size Q, number_of_points()[k] is (2 * #x with f(x) a non-zero square, plus 2 if the degree is even and the leading coefficient is a square; #roots of f, plus 1 if the degree is odd), so its sum is the number of points of the smooth model of y^2=f(x) over that field.", "quantifier": "every finite field of odd order, every extension with norm-compatible generators, every polynomial", "why_tests_cant": "tests check two curves over two fields", "anchors": ["src/curve.cc: count, count_cpu"]}
{"id": "C15", "title": "count() never reads a table out of bounds", "statement": "For every coefficient vector with entries at most q-1, every table access performed by count() is within bounds and no intermediate value leaves the 32-bit range when 2q fits.", "quantifier": "every field size and coefficient vector", "why_tests_cant": "memory safety for all inputs", "anchors": ["src/curve.cc: count_cpu (261-295)"]}
{"id": "C16", "title": "All counting implementations agree", "statement": "count (CPU), count_naive_nmod and count_naive_zech (and the OpenCL evaluation kernel with the host accumulation) give the same number_of_points entry for the same curve and extension.", "quantifier": "every curve, every extension with norm-compatible generators", "why_tests_cant": "all inputs", "anchors": ["src/curve.cc: count_cpu, count_naive_nmod, count_naive_zech", "src/opencl/evaluation.cl"]}
{"id": "C17", "title": "Counting is idempotent and order independent", "statement": "Counting the same extension again changes nothing; counting a set of extensions in any order yields the same number_of_points map; counting one extension never alters the entry of another.", "quantifier": "every sequence of count calls", "why_tests_cant": "all histories of calls", "anchors": ["src/curve.cc: count (175-179), count_naive_nmod (314), count_naive_zech (438)"]}
{"id": "C18", "title": "Hasse-Weil offsets are q^k+1 minus the point count, in order", "statement": "hasse_weil_offsets(max_prime_exponent()) lists, for k=1,2,... up to the first uncounted extension, the value q^k+1-#points.", "quantifier": "every set of counted extensions", "why_tests_cant": "all histories", "anchors": ["src/curve.cc: hasse_weil_offsets, max_prime_exponent, number_of_points"]}
{"id": "C19", "title": "ramification_type() is the factorisation pattern of the right-hand side", "statement": "For a squarefree right-hand side, whatever extensions have been counted so far, ramification_type() is the sorted list of degrees of the irreducible factors, with an additional 1 when the degree is odd; its sum is 2*genus+2.", "quantifier": "every finite field, every squarefree polynomial, every set of already counted extensions", "why_tests_cant": "the shortcut via point counts must agree with factorisation for all inputs and all call histories", "anchors": ["src/curve.cc: ramification_type"]}
{"id": "C20", "title": "twist() gives the data of the quadratic twist", "statement": "The key returned by twist() is the (ramification type, Hasse-Weil offsets) of the curve c*y^2=f(x) for any non-square c, and twisting twice gives back the original.", "quantifier": "every curve and non-square", "why_tests_cant": "all curves", "anchors": ["src/store/curve_data.cc: twist"]}
{"id": "C21", "title": "Enumerated curves are well formed, of the requested degrees and never repeated", "statement": "Iterating the CurveIterator and expanding every block yields coefficient vectors of length degree+1 with a non-zero leading coefficient for degree 2g+1 and (unless with_marked_point) 2g+2, all entries valid indices, no vector twice, for every package size.", "quantifier": "every odd prime power q, every genus, every package size", "why_tests_cant": "all q, g, package sizes", "anchors": ["src/curve_iterator.cc: CurveIterator::CurveIterator, step"]}
{"id": "C22", "title": "Every hyperelliptic equation is equivalent to an enumerated one", "statement": "Every polynomial f over F_q of degree 2g+1 or 2g+2 is of the form c*e(ax+b) with a,c non-zero for some enumerated e.", "quantifier": "every odd prime power q, genus and polynomial", "why_tests_cant": "completeness over an infinite family", "anchors": ["src/curve_iterator.cc: CurveIterator::CurveIterator"]}
{"id": "C23", "title": "Multiplicities weight representatives correctly", "statement": "For every classification of polynomials that is invariant under f(x) -> c^2 f(ax+b) and transforms by an involution under non-square scalars, the sum over enumerated curves of multiplicity, credited to the class and to the twisted class, equals the number of all polynomials of the degree in the class.", "quantifier": "every odd prime power q, every degree 2g+1 or 2g+2, every such classification", "why_tests_cant": "an orbit-counting identity over all fields and degrees", "anchors": ["src/curve_iterator.cc: multiplicity"]}
{"id": "C24", "title": "The divisions in multiplicity() are exact", "statement": "Every fmpz_divexact_ui in multiplicity() divides without remainder and every right shift drops only zero bits for odd q.", "quantifier": "every odd q and every support occurring in the enumeration", "why_tests_cant": "all q, all supports", "anchors": ["src/curve_iterator.cc: multiplicity"]}
{"id": "C25", "title": "CurveIterator refuses characteristic two and genus zero", "statement": "Constructing a CurveIterator for prime 2 or genus 0 terminates the program; for every other input construction succeeds and is_end() is reached.", "quantifier": "all primes, genera, package sizes", "why_tests_cant": "all inputs", "anchors": ["src/curve_iterator.cc: CurveIterator::CurveIterator (41-51)"]}
{"id": "C26", "title": "Squarefree total matches the closed formula", "statement": "The doubled multiplicities of the enumerated squarefree curves of genus g sum to the number of squarefree polynomials, (q-1)(q^(2g+1)-q^(2g)) + (q-1)(q^(2g+2)-q^(2g+1)).", "quantifier": "every odd prime power q and genus", "why_tests_cant": "test checks q=13,g=2 only", "anchors": ["test/curve_iterator.cc: blocks_f13_g2", "src/curve_iterator.cc: multiplicity"]}
{"id": "C27", "title": "Registering curves credits the key and its twist exactly once each", "statement": "After registering any sequence of curves, the count stored under a key is the sum of the multiplicities of the curves with that key plus the sum of those whose twisted key it is; no other key is present.", "quantifier": "every sequence of curves", "why_tests_cant": "all histories; depends on an invariant of the map across calls", "anchors": ["src/store/store.cc: register_curve"]}
{"id": "C28", "title": "Flushing a worker store adds it to the shared store and empties it", "statement": "flush_to_static_store(block) adds the worker's counts pointwise to the shared counts, adds the block to the shared record, and leaves the worker store empty.", "quantifier": "every pair of stores", "why_tests_cant": "all stores", "anchors": ["src/store/store.cc: flush_to_static_store"]}
{"id": "C29", "title": "Shared-store flushes lose and duplicate nothing", "statement": "For every interleaving of flush_to_static_store and flush_static_store calls, the pointwise sum of all flushed tables plus what is still shared equals the sum of all contributions, and each flushed record lists exactly the blocks whose counts are in the flushed table.", "quantifier": "every interleaving of calls from any number of threads", "why_tests_cant": "all schedules", "anchors": ["src/store/store.cc: flush_to_static_store, flush_static_store"]}
{"id": "C30", "title": "Key text round-trips", "statement": "Printing a (ramification type, Hasse-Weil offsets) value with non-empty lists of 32-bit values and parsing the text gives back the value.", "quantifier": "every pair of non-empty lists of in-range integers", "why_tests_cant": "unbounded lists and integers", "anchors": ["src/store/curve_data.cc: operator<<, ValueType(string)"]}
{"id": "C31", "title": "Store text round-trips", "statement": "Extracting the text inserted for any store into an empty store gives the same store; into a non-empty store it adds pointwise.", "quantifier": "every store", "why_tests_cant": "unbounded maps and big integers", "anchors": ["src/store/store.cc: insert, extract", "src/store/store_data.cc: ValueType(string)"]}
{"id": "C32", "title": "Record text round-trips", "statement": "Reading a written record file gives back exactly the set of blocks that was written.", "quantifier": "every set of blocks", "why_tests_cant": "unbounded sets", "anchors": ["src/store/file_store.cc: insert, extract"]}
{"id": "C33", "title": "Keys are totally ordered", "statement": "The less functor on keys is a strict total order whose equivalence is equality, so that a std::map keyed by it has one entry per distinct key.", "quantifier": "every triple of keys", "why_tests_cant": "all keys", "anchors": ["src/store/curve_data.cc: less::operator()"]}
{"id": "C34", "title": "Merging is the pointwise sum of the recorded stores, independent of directory order", "statement": "hycu-merger writes a store that is the pointwise sum of exactly those store files that have a record file, whatever order the directory is listed in; a record without a store file makes it fail without writing; a store without a record is ignored.", "quantifier": "every directory content and every listing order", "why_tests_cant": "all directory contents and orders", "anchors": ["src/executables/merger.cc: merge"]}
{"id": "C35", "title": "Counts survive decimal text", "statement": "Writing a curve count of any size in decimal and reading it back yields the same number.", "quantifier": "every non-negative integer", "why_tests_cant": "unbounded", "anchors": ["src/store/store_data.hh: operator<<", "src/store/store_data.cc: ValueType(string)"]}
{"id": "C36", "title": "Copying counts is memory safe", "statement": "No sequence of store operations reads a freed big integer or frees one twice.", "quantifier": "every sequence of copies, assignments, additions and destructions of counts of any size", "why_tests_cant": "all histories; needs counts above 2^62", "anchors": ["src/store/store_data.hh: Count::ValueType", "src/store/store.cc: register_curve, flush_to_static_store, extract"]}
{"id": "C37", "title": "The pool never hands a block to a missing or wrong-kind thread", "statement": "Whatever the interleaving of worker completions with the dispatcher, assign finds an idle thread of the requested kind, never takes from an empty queue, and every thread is in exactly one of the idle, ready or busy states.", "quantifier": "every schedule, any number of CPU and GPU threads, any sequence of blocks", "why_tests_cant": "all schedules", "anchors": ["src/threaded/thread_pool.cc: assign, finished_block, flush_ready_threads", "src/worker_pool/standalone.cc: assign, fill_idle_queues"]}
{"id": "C38", "title": "Every assigned block is computed exactly once and reported after its counts are shared", "statement": "In every schedule, the blocks reported finished are distinct assigned blocks, and when a block is reported its contribution has been added to the shared store exactly once.", "quantifier": "every schedule and every sequence of distinct blocks", "why_tests_cant": "all schedules", "anchors": ["src/threaded/thread.cc: main_thread", "src/threaded/thread_pool.cc: finished_block", "src/worker_pool/standalone.cc: finished_block"]}
{"id": "C39", "title": "Shutting down or reconfiguring loses no results", "statement": "When update_config or the destructor of the worker pool has returned, the files written for a configuration contain exactly one contribution for each assigned block of that configuration, whatever the schedule and whatever periodic saves happened.", "quantifier": "every schedule, every number of periodic saves", "why_tests_cant": "all schedules and timings", "anchors": ["src/worker_pool/standalone.cc: ~StandaloneWorkerPool, update_config, wait_for_assigned_blocks, save_global_stores_to_file"]}
{"id": "C40", "title": "A dispatched block is always eventually picked up", "statement": "No schedule leaves a worker asleep for ever while a block (or the shutdown request) is waiting for it.", "quantifier": "every schedule", "why_tests_cant": "depends on a narrow race window between testing the queue and waiting", "anchors": ["src/threaded/thread.cc: main_thread (59-73), assign, shutdown"]}
{"id": "C41", "title": "Every saved record and store file pair is consistent", "statement": "In every execution, each pair of files written by one save describes the same set of blocks: the store file's counts are the sum of the contributions of the blocks in the record file.", "quantifier": "every schedule", "why_tests_cant": "all schedules", "anchors": ["src/store/store.cc: flush_static_store", "src/store/file_store.cc: save"]}
{"id": "C42", "title": "A crash while saving never leaves a record without its data", "statement": "Whatever point the process is killed at during a save, a record file on disk implies that the complete store file of the same name is on disk.", "quantifier": "every crash point", "why_tests_cant": "all crash points", "anchors": ["src/store/file_store.cc: save"]}
{"id": "C43", "title": "Restarting after crashes and completing yields the exact result", "statement": "For every history of runs of the same configuration, each interrupted by a crash at an arbitrary point, followed by one run that completes, merging the result directory gives each block's contribution exactly once.", "quantifier": "every crash history and every schedule", "why_tests_cant": "all histories", "anchors": ["src/store/file_store.cc: FileStore::FileStore, contains, save", "src/worker_pool/standalone.cc: assign", "src/executables/merger.cc: merge"]}
{"id": "C44", "title": "Restarting with another package size keeps results exact", "statement": "Resuming an interrupted computation with a different PackageSize still counts every curve once.", "quantifier": "every pair of package sizes", "why_tests_cant": "all histories", "anchors": ["src/store/file_store.hh: contains", "src/config/config_node.hh"]}
{"id": "C45", "title": "End to end: the merged table equals brute-force counting", "statement": "For every odd prime power q, genus, count exponent, package size, number of threads and schedule, the table obtained by running to completion and merging assigns to every key (ramification type, offsets) the number of squarefree polynomials over F_q of degree 2g+1 or 2g+2 (only 2g+1 with_marked_point) with that factorisation pattern and those point counts.", "quantifier": "every configuration and schedule", "why_tests_cant": "tests compare three configurations with reference tables", "anchors": ["src/executables/threaded.cc: main", "test/create_reference_store.sage", "test/threaded.cc"]}
{"id": "C46", "title": "MPI: every block is processed exactly once across processes", "statement": "For every interleaving of master and worker processes and threads, each assigned block is computed by exactly one process and its contribution is written exactly once.", "quantifier": "every schedule, any number of processes", "why_tests_cant": "all schedules", "anchors": ["src/worker_pool/mpi.cc", "src/worker_pool/mpi_worker.cc"]}
{"id": "C47", "title": "MPI: a finished block is always credited to the process it was assigned to", "statement": "The master never hits the error branch for a block that was not assigned to the reporting process.", "quantifier": "every schedule", "why_tests_cant": "all schedules", "anchors": ["src/worker_pool/mpi.cc: finished_block, flush_finished_blocks"]}
{"id": "C48", "title": "Configuration nodes round-trip through YAML and the documented fields suffice", "statement": "Decoding the encoding of a configuration gives the configuration back; a node with the fields documented in the README decodes; CountExponent defaults to Genus; a missing required field is reported.", "quantifier": "every configuration", "why_tests_cant": "all configurations", "anchors": ["src/config/config_node.cc: encode, decode", "README.md"]}
{"id": "C49", "title": "MPI serialisation round-trips", "statement": "Loading the serialised form of any configuration, block or tuple yields the original.", "quantifier": "every value", "why_tests_cant": "all values", "anchors": ["src/config/config_node.hh: serialize", "src/utils/serialization_tuple.hh"]}
{"id": "C50", "title": "verify() accepts exactly the usable configurations", "statement": "verify() returns true iff prime, prime exponent, genus, count exponent and package size are non-zero and the result directory exists or was created, and then neither iterating nor table construction divides by zero.", "quantifier": "every configuration", "why_tests_cant": "all configurations", "anchors": ["src/config/config_node.hh: verify"]}
{"id": "C51", "title": "hycu-single counts points of the polynomial that was typed", "statement": "For prime p and integer coefficients, the counts printed are those of y^2=sum c_i x^i modulo p.", "quantifier": "every prime and every list of coefficients", "why_tests_cant": "all inputs", "anchors": ["src/single_curve_fp.cc: single_curve_fp", "src/executables/single.cc"]}
{"id": "C52", "title": "The requested number of workers is started", "statement": "spark_threads starts one GPU thread per GPU slot plus the requested CPU threads reduced by one per eight GPU threads, and dispatching can proceed.", "quantifier": "every number of devices and threads", "why_tests_cant": "all parameters", "anchors": ["src/threaded/thread_pool.cc: spark_threads", "src/worker_pool/standalone.cc: fill_idle_queues"]}
{"id": "C53", "title": "The OpenCL evaluation kernel computes the CPU count", "statement": "Summing the kernel outputs over all work items in any order gives the same pair as the CPU loop.", "quantifier": "every table, polynomial and execution order of work items", "why_tests_cant": "all inputs and orders", "anchors": ["src/opencl/evaluation.cl: evaluate", "src/opencl/kernel_reduction.cc: _reduce"]}
{"id": "C54", "title": "The OpenCL reduction kernel preserves the sum", "statement": "For a power-of-two work-group size the kernel's partial sums add up to the sum of the input, and the kernel terminates.", "quantifier": "every input length, group size and partial size", "why_tests_cant": "all sizes", "anchors": ["src/opencl/reduction.cl: reduce", "src/opencl/program_reduction.hh: SIZE_PARTIAL_REDUCTION"]}
{"id": "C55", "title": "Workers count exactly the configured extensions", "statement": "update_config gives every thread the tables for exponents r, 2r, ..., n*r (prime exponent r, count exponent n), so every stored key has exactly n offsets.", "quantifier": "every configuration", "why_tests_cant": "all configurations", "anchors": ["src/threaded/thread.cc: update_config, main_thread"]}
{"id": "C56", "title": "Record files are read or reported", "statement": "Starting with a result directory that contains a record file always ends, with the record read or an error reported, even if a record file cannot be opened.", "quantifier": "every directory content and every set of permissions", "why_tests_cant": "needs unreadable files; a hang cannot be observed as a failure", "anchors": ["src/store/file_store.cc: FileStore::FileStore, extract", "src/executables/merger.cc: merge"]}
{"id": "C57", "title": "Merging can be repeated", "statement": "Running hycu-merger twice with the same arguments gives the same output table, even when the output file lies in the input directory.", "quantifier": "every directory and output name", "why_tests_cant": "all directories", "anchors": ["src/executables/merger.cc: main, merge"]}
{"id": "C58", "title": "Saving adds one new pair of files and touches nothing else", "statement": "Whatever random numbers are drawn and whatever files exist, a save leaves every existing file as it is and adds exactly one record and one store file, which the merger will read back.", "quantifier": "every directory and sequence of random numbers", "why_tests_cant": "needs collisions of random 63-bit names", "anchors": ["src/store/file_store.cc: save, new_filenames"]}
{"id": "C59", "title": "The record read at the start consists of the saved blocks", "statement": "Starting a configuration reads from its result directory exactly the blocks of all saves (and the empty block, which no configuration produces), whatever other files there are and whatever the order of the directory.", "quantifier": "every directory and listing order", "why_tests_cant": "all directories", "anchors": ["src/store/file_store.cc: FileStore::FileStore, extract", "src/store/file_store.hh: contains"]}
{"id": "C60", "title": "Configurations with the same result directory do not interfere", "statement": "If two configurations of one input file name the same result directory, the computation still produces the counts of both.", "quantifier": "every pair of configurations", "why_tests_cant": "all histories", "anchors": ["src/store/file_store.cc: FileStore::FileStore", "src/store/file_store.hh: contains", "src/executables/threaded.cc: main"]}
{"id": "C61", "title": "Counting on a device does not depend on its timing", "statement": "With an OpenCL device the coefficients the kernel sees are those of the curve, whenever the device carries out the copy it was asked for.", "quantifier": "every curve and every timing of the device", "why_tests_cant": "depends on when the driver copies memory that the host has already freed", "anchors": ["src/opencl/kernel_evaluation.cc: enqueue", "src/curve.cc: count_opencl"]}
{"id": "C62", "title": "An interrupted computation may be resumed with the other program", "statement": "Runs of hycu and hycu-mpi on the same configurations are killed at arbitrary points, in any order, each with its own number of processes and threads; when a further run of either program ends, every block of every configuration is in exactly one record file and the tables add up to the contributions of all blocks.", "quantifier": "every sequence of interrupted runs and every schedule of each", "why_tests_cant": "all schedules and crash points", "anchors": ["src/worker_pool/standalone.cc", "src/worker_pool/mpi.cc", "src/executables/mpi.cc"]}
{"id": "C63", "title": "A crash while saving never makes a later run lose counts", "statement": "For every history of runs of the same configurations, each killed at an arbitrary point, including in the middle of writing a record file, followed by a run that completes: the contribution of every block of every configuration is in the tables at least once, and at most once more than the number of crashes within the writing of a record file.", "quantifier": "every crash history, every position at which the text of a record file is cut, every schedule", "why_tests_cant": "all histories and cut positions", "anchors": ["src/store/file_store.cc: save", "src/block_iterator.cc: as_block", "src/worker_pool/standalone.cc: assign"]}
{"id": "C64", "title": "A thread with an OpenCL device contributes the same as one without", "statement": "For every block of a configuration with odd q and q^n at most 2^30, every order in which the device runs its work items and all previous contents of its buffers, a thread whose device copies the coefficients before the call returns adds the same table to the shared store as a thread that counts on the CPU.", "quantifier": "every configuration, block, schedule of the work items and contents of device memory", "why_tests_cant": "needs a device; all schedules of work items", "anchors": ["src/curve.cc: Curve::count, Curve::count_opencl", "src/opencl/evaluation.cl", "src/threaded/thread.cc: main_thread"]}
{"id": "C65", "title": "Locks protect all shared data, and interrupting a critical section changes nothing", "statement": "In every interleaving of single accesses (locking, every read and write of the queues, thread lists and the shared table, unlocking), no thread accesses shared data without holding its mutex or misuses a mutex; files, dispatched and reported blocks are those of an execution with uninterrupted critical sections, also when the program is killed within one; and from every state all critical sections can be completed (no deadlock).", "quantifier": "every configuration, every number of threads and every interleaving of single accesses", "why_tests_cant": "all interleavings at the level of single accesses", "anchors": ["src/threaded/thread.cc: main_thread, assign, shutdown", "src/threaded/thread_pool.cc: assign, finished_block, flush_ready_threads, flush_finished_blocks", "src/store/store.cc: flush_to_static_store, flush_static_store"]}
{"id": "C66", "title": "A thread that keeps running is not kept out of a critical section for ever", "statement": "If the main thread and every worker run again and again, every worker that has finished a block eventually reports it and the program ends, whatever the order in which they find mutexes free.", "quantifier": "every fair schedule", "why_tests_cant": "depends on the scheduler", "anchors": ["src/worker_pool/standalone.cc: wait_for_assigned_blocks, fill_idle_queues", "src/threaded/thread_pool.cc: finished_block, flush_finished_blocks"]}
{"id": "C67", "title": "The MPI program ends", "statement": "If the processes started by mpirun have at least one worker thread between them and every process and every thread runs again and again, hycu-mpi ends: the master returns after the last configuration and every worker process returns after its shutdown message.", "quantifier": "every list of configurations, every number of processes and threads, every interleaving of processes, threads and messages, every choice of the points at which results are saved", "why_tests_cant": "deadlock of processes and threads depends on the schedule and on the order of messages", "anchors": ["src/worker_pool/mpi.cc: fill_idle_queues, flush_finished_blocks, wait_for_assigned_blocks, ~MPIWorkerPool", "src/worker_pool/mpi_worker.cc: main_mpi_worker", "src/threaded/thread.cc: main_thread", "src/threaded/thread_pool.cc: assign, shutdown_threads"]}
{"id": "C68", "title": "The exit code tells which configurations are done, over any sequence of runs", "statement": "A run of hycu-threaded or hycu-mpi that returns 0 without having printed the help has worked on every configuration of its file, and merging the result directory of each gives the numbers of curves that brute force over the definition gives. If it returns 1 after having started, this holds for all configurations before the first incorrect one, and no other directory has been touched; if it returns 1 otherwise, no result file was written. If it is terminated by an exception, this holds for all configurations before the one at which that happened. All this holds regardless of what earlier runs of either program, finished or killed, with this or other configuration files, have left on disk, as long as a result directory was always used for the same configuration.", "quantifier": "every command line and configuration file, every history of runs of both programs, every number of processes and threads, every interleaving", "why_tests_cant": "a test sees one history; the claim is about all of them and about schedules", "anchors": ["src/executables/threaded.cc: main", "src/executables/mpi.cc: main", "src/config/config_node.hh: verify, prepend_output_path", "src/worker_pool/standalone.cc", "src/worker_pool/mpi.cc", "src/executables/merger.cc: main"]}
{"id": "C69", "title": "All processes of hycu-mpi start alike, and none is left behind", "statement": "When hycu-mpi starts, every process gets the store type and the numbers of threads of the command line before it uses them, whichever process is fast or slow, so that each starts the threads that are right for its machine; results do not depend on which processes have started when the master begins to work; and every process that was started returns in the end, also if the command line is refused.", "quantifier": "every number of processes and machine, every command line, every interleaving of the processes, whether or not a broadcast holds its sender", "why_tests_cant": "the order in which processes start is not under the control of a test", "anchors": ["src/executables/mpi.cc: main", "src/worker_pool/mpi.cc: MPIWorkerPool, broadcast_initialization", "src/worker_pool/mpi_worker.cc: main_mpi_worker", "src/threaded/thread_pool.cc: spark_threads"]}
{"id": "C70", "title": "Every merged table passes the consistency checks that mathematics offers", "statement": "When a run is through, the table merged from a result directory satisfies, for the number q of elements of the field, genus g and n extensions: its counts are positive and sum up to (q-1)(q^(2g+1)-q^(2g)), plus (q-1)(q^(2g+2)-q^(2g+1)) without marked points; a key and its quadratic twist have the same count; in every row the degrees of the ramification points are in order, positive and sum up to 2g+2, with a 1 among them for marked points; there are n Hasse-Weil offsets, the j-th at most q^j+1 in absolute value and of the parity of the number of ramification points over the extension of degree j; and for odd j the offsets weighted by the counts sum up to 0. The table does not depend on which extension fields are used to define it.", "quantifier": "every configuration, history of runs and schedule", "why_tests_cant": "tables of realistic size cannot be recomputed by other means; the identities hold for all fields and genera", "anchors": ["src/executables/merger.cc: main", "src/curve_iterator.cc: multiplicity", "src/curve.cc: ramification_type, hasse_weil_offsets", "src/store/store.cc: register_curve", "src/store/curve_data.cc: twist"]}
{"id": "C71", "title": "Store files that were cut lose counts and never add any, and the sum of the counts tells", "statement": "If any store files of a result directory are cut at any places, as when the disk is full, reading them is defined, the merger succeeds with the same record, and no count in the merged table is larger than without the damage; cut keys give rows with count 0 only. After complete runs, the merged table of a damaged directory is right if and only if its counts sum up to the number of equations, which is known in advance (C70). In contrast, neither the program nor the merger notices a failed write: a record whose store could not be written is taken for complete, its blocks are never computed again, and their counts are missing.", "quantifier": "every table, place of the cut, set of damaged files, listing order, history of runs and schedule", "why_tests_cant": "full disks and cut files at every position cannot be enumerated; the text format has no redundancy, so that absence of wrong counts depends on every branch of the parsers", "anchors": ["src/store/file_store.cc: save", "src/store/store.cc: extract", "src/store/curve_data.cc: ValueType(string)", "src/store/store_data.cc: ValueType(string)", "src/executables/merger.cc: merge"]}
{"id": "C72", "title": "What the exit code of the merger means", "statement": "hycu-merger returns 0 or 1. It returns 1 exactly if the input or the output is not given, the input is not a directory, or some record file has no store file; then no file is changed. For a directory of complete results and an output in an existing directory it returns 0 and has written the sum of all tables and the blocks of all records to the two output files; no other file is touched, whatever the order of the directory listing. If the result is 0, the output was written.", "quantifier": "every command line, set of directories, contents and listing order", "why_tests_cant": "all directories and listing orders", "anchors": ["src/executables/merger.cc: main, merge"]}
{"id": "C73", "title": "Results can be merged in stages", "statement": "Merging several result directories one after the other into one directory, with different output names, and then merging that directory gives the same texts as merging all results at once, whatever the listing orders.", "quantifier": "every number of stages, every set of results, every listing order", "why_tests_cant": "all partitions of the results into stages and all listing orders", "anchors": ["src/executables/merger.cc: main, merge", "src/store/store.cc: extract, insert", "src/store/file_store.cc: extract, insert"]}
{"id": "C74", "title": "Results may be merged and replaced by the output of the merger between runs", "statement": "Between runs, as often as desired and whether or not the runs were complete, a user may replace all files of the result directory of a configuration by the two files that the merger makes of them, and may delete store files without a record. Merging is possible at any such point, later runs skip exactly the same blocks, and when a run is through, merging gives the numbers of curves that brute force over all polynomials gives. The checks of C70 hold for that table, and the total certifies it as in C71.", "quantifier": "every history of runs of both programs, every point at which they are killed, every choice of the points at which directories are merged, names and listing orders, every schedule", "why_tests_cant": "combines crash points, restarts and merges in arbitrary order", "anchors": ["src/executables/merger.cc: merge", "src/store/file_store.cc: FileStore, save", "src/worker_pool/standalone.cc", "src/worker_pool/mpi.cc"]}
{"id": "C75", "title": "Tables of large fields are either right or not built", "statement": "With the integer types of the code, the reduction tables of a field are those specified as long as it has at most 2^31 elements. A field with more elements, less than 2^32, ends the process by an exception while the tables are built; from 2^32 elements on the conversion of the number of elements is undefined. Verification of a configuration does not exclude either case. For the other cases the threads work with exactly the tables the remaining properties are about.", "quantifier": "every finite field, its coordinates and stream of candidates for a generator; every configuration with an odd prime", "why_tests_cant": "tables of this size cannot be built in a test, and the cause is a conversion that looks harmless", "anchors": ["src/reduction_table.cc: ReductionTable, compute_exponent_reduction_table, compute_incrementation_table", "src/fq_element_table.hh: block_non_zero, block_complete", "src/threaded/thread.cc: update_config", "src/config/config_node.hh: verify"]}
{"id": "C76", "title": "Every device is used, and every curve is counted by a kernel for its degree", "statement": "The list of devices contains every GPU and accelerator of every platform. A reduction table that is given an OpenCL interface, in whichever way, counts every curve on that device by a kernel that evaluates exactly the coefficients of the curve; programs are built once per degree and interface, also if several tables need them.", "quantifier": "every list of platforms, every number of tables, every sequence of curves of any degrees", "why_tests_cant": "depends on caches, on the order of curves, on pointers that were moved from and on hardware that is not there", "anchors": ["src/opencl/interface.cc: devices", "src/opencl/interface.hh: program_evaluation", "src/reduction_table.cc: ReductionTable", "src/reduction_table.hh: kernel_evaluation", "src/opencl/kernel_evaluation.cc: OpenCLKernelEvaluation, enqueue", "src/curve.cc: count_opencl"]}
{"id": "C77", "title": "The numbers of curves with given ramification are the expected ones", "statement": "When a run is through, then in the table merged from a result directory the counts of the rows with ramification degrees r sum up to (q-1) times the product over e of the binomial coefficients 'number of closed points of degree e of the projective line over the field with q elements, choose number of entries e of r'; with a marked point, which is the point at infinity, to (q-1) times the same product for the affine line and r without one 1. The numbers of closed points are the numbers of monic irreducible polynomials, plus one for degree 1, and are determined by q.", "quantifier": "every odd prime power q, genus and number of extensions within the range of C45, every ramification type, every history of earlier runs and merges, both programs", "why_tests_cant": "a statement about sums over astronomically many curves; a wrong distribution over the ramification types can have the right total", "anchors": ["src/curve.cc: ramification_type", "src/curve_iterator.cc: CurveIterator, multiplicity", "src/store/store.hh: register_curve", "src/executables/merger.cc: main"]}
{"id": "C78", "title": "The mean square of the first offset and the mean of the second are the expected ones", "statement": "When a run is through, then in the table merged from a result directory the mean over all counted equations of the square of the first offset (q+1 minus the number of points over the field with q elements) is q - q^(1-2g), and the mean of the second offset (the same over the quadratic extension) is (-1)^g q^(1-2g) - q, where g is the genus. For equations with a marked point at infinity the sums are (q-1)^2 q (q^(2g+1) + 1 + (q+1)((q-1)g - 1)) / (q+1) and -(q-1)^2 q (q^(2g+1) + 1 + (q+1)u) / (q+1) with u = q for odd and u = -1 for even genus.", "quantifier": "every odd prime power q, genus and number of extensions within the range of C45, every history of earlier runs and merges, both programs", "why_tests_cant": "a statement about sums over astronomically many curves; point counts that are wrong for some curves, symmetrically under twists, pass every other check of the table", "anchors": ["src/curve.cc: count, hasse_weil_offsets", "src/curve_iterator.cc: CurveIterator, multiplicity", "src/store/store.hh: register_curve", "src/executables/merger.cc: main"]}
{"id": "C79", "title": "The offsets of every row come from numbers of closed points", "statement": "When a run is through, then for every row of the table merged from a result directory there are natural numbers U(e) such that, for every j up to the number of extensions, q^j + 1 minus the j-th offset is the sum of e U(e) over the divisors e of j plus the number of ramification points over the extension of degree j that the ramification type of the row gives. So the numbers of points are never negative or smaller than over a smaller field, contain the ramification points, and satisfy the congruences between extensions that the action of Frobenius forces.", "quantifier": "every odd prime power q, genus and number of extensions within the range of C45, every history of earlier runs and merges, both programs", "why_tests_cant": "it relates the offsets over different fields, which the program counts independently of each other with different tables, for every curve; tests compare three small tables", "anchors": ["src/curve.cc: count, hasse_weil_offsets, ramification_type", "src/reduction_table.cc: ReductionTable", "src/threaded/thread.cc: update_config", "src/executables/merger.cc: main"]}
{"id": "C80", "title": "A thread may run ahead of its device", "statement": "A thread that counts curves with all its tables on an OpenCL device gets for every curve the numbers that the CPU would give, however far the device is behind the thread, whatever its buffers contain when they are made, and although all tables share one queue and all curves the buffers of a table. This needs the device to copy the coefficients of a curve before the call that passes them returns, and the tables of a configuration before the next one replaces them, since the host frees them then.", "quantifier": "every sequence of configurations and of curves over a field of odd order, every list of tables of its extensions, every timing of the device that copies coefficients and tables in time, every order of the work items, any initial contents of the buffers", "why_tests_cant": "tests of the project do not use a device, and a test sees one timing, mostly one in which the device is idle", "anchors": ["src/opencl/buffer_evaluation.cc: OpenCLBufferEvaluation", "src/opencl/kernel_evaluation.cc: enqueue", "src/opencl/kernel_reduction.cc: _reduce, reduce", "src/curve.cc: count, count_opencl", "src/threaded/thread.cc: main_thread"]}
