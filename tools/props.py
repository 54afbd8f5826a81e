#!/usr/bin/env python3
"""Source of properties.jsonl (one tuple per property); run to regenerate it."""
import json, os
P = []
def p(id, title, statement, quantifier, why, anchors):
    P.append(dict(id=id, title=title, statement=statement, quantifier=quantifier, why_tests_cant=why, anchors=anchors))

BI = "src/block_iterator.cc"; CI = "src/curve_iterator.cc"; CU = "src/curve.cc"
p("C01", "A bounds-constructed BlockIterator visits every position once",
  "Looping `for (BlockIterator it(bounds); !it.is_end(); it.step())` over any non-empty vector of non-empty half-open ranges terminates, and the as_position() values seen are exactly the integer vectors of the box, each exactly once.",
  "every vector of bounds (any length, any ranges that fit the word size)",
  "unit tests enumerate two or three fixed boxes; the claim is about all lengths and all bounds",
  [f"{BI}: BlockIterator::BlockIterator(bounds)", f"{BI}: step, step_, as_position"])
p("C02", "Packages partition the described set of positions",
  "For any blocks, sets and dependent sets obeying the documented preconditions and any positive package size, iterating and calling as_block() terminates and yields boxes such that every described position lies in exactly one box, and no box contains a position that was not described.",
  "every combination of blocks, sets, dependent sets and package sizes satisfying the constructor's documented preconditions",
  "the number of configurations and of positions is unbounded; tests check two package sizes",
  [f"{BI}: initialize_blocks, set_initial_position, as_block, step_"])
p("C03", "A package never holds more than package_size positions",
  "Each box returned by as_block() of an iterator built with package size n contains at most n and at least one position.",
  "every iterator configuration and every reachable iterator state",
  "universally quantified over configurations and all steps of the iteration",
  [f"{BI}: initialize_blocks, as_block"])
p("C04", "as_block_enumerator enumerates exactly the current as_block box",
  "At every reachable non-end state, iterating the BlockIterator returned by as_block_enumerator() visits exactly the positions of the box returned by as_block(), each once.",
  "every configuration and reachable state",
  "tests compare two states of one iterator",
  [f"{BI}: as_block_enumerator, as_block"])
p("C05", "The end state is absorbing and reached after a predictable number of steps",
  "The number of step() calls until is_end() equals the product of the numbers of values/packages of all indices; after that further step() calls change nothing. A zero-length iterator is at the end immediately.",
  "every configuration, any number of additional steps",
  "unbounded number of steps and configurations",
  [f"{BI}: step, set_initial_position"])
p("C06", "BlockIterator rejects or survives every bad argument",
  "A block whose lower bound is not below its upper bound terminates the program; package size zero never causes a division by zero; iteration terminates for all 32-bit bounds.",
  "all constructor arguments including package_size 0 and bounds near the top of the unsigned range",
  "boundary values of a 2^32-sized domain",
  [f"{BI}: initialize_blocks (89-104), step_ (277-279)"])
p("C07", "FqElementTable lists every field element exactly once by discrete logarithm",
  "After construction, entry e<q-1 is the e-th power of a fixed multiplicative generator, entry q-1 is zero, and every field element occurs exactly once, whatever sequence of candidate generators the random generator produces.",
  "every finite field and every sequence of random candidates",
  "depends on random candidates and on every field; tests see only fields with a Conway polynomial",
  ["src/fq_element_table.cc: FqElementTable::FqElementTable"])
p("C08", "power_coset_representatives(n) represents every n-th power class once",
  "Every non-zero field element is the product of an n-th power and the element indexed by exactly one of the returned indices.",
  "every finite field and every n",
  "all fields, all n",
  ["src/fq_element_table.cc: power_coset_representatives"])
p("C09", "The exponent reduction table reduces modulo q-1",
  "For every index i below 2(q-1) the table entry is i mod (q-1), and the table has exactly 2(q-1) entries.",
  "every q and every index", "all sizes", ["src/reduction_table.cc: compute_exponent_reduction_table"])
p("C10", "The incrementation table is the Zech logarithm",
  "For every i<=q-1, with g^(q-1) read as 0, the entry at i is the index of 1+g^i; every entry is written and every index used is in range.",
  "every finite field, every sequence of random candidates",
  "all fields and all entries",
  ["src/reduction_table.cc: compute_incrementation_table"])
p("C11", "Curve construction only strips zero leading coefficients",
  "For every non-zero coefficient vector, the constructed curve has the same right-hand-side polynomial, its last stored coefficient is non-zero and degree() is the degree of that polynomial.",
  "every table and every coefficient vector", "unbounded input vectors",
  [f"{CU}: Curve::Curve", "src/curve.hh: degree"])
p("C12", "genus() is the genus of y^2=f(x)",
  "For a curve of degree d>=1, genus() is the g with d=2g+1 or d=2g+2, and the point at infinity is ramified exactly when d is odd.",
  "every degree", "unbounded", [f"{CU}: genus, count (201-207)"])
p("C13", "Coefficient conversion realises the field embedding",
  "convert_poly_coeff_exponents to an extension of degree k maps the coefficient vector to the vector of the same polynomial with coefficients embedded in the extension, provided the two generators are norm-compatible; a different prime or non-multiple exponent terminates the program.",
  "every pair of fields, every coefficient vector", "all fields and vectors",
  [f"{CU}: convert_poly_coeff_exponents"])
p("C14", "count() returns the true number of points",
  "After count(table) for the extension field of size Q, number_of_points()[k] is (2 * #x with f(x) a non-zero square, plus 2 if the degree is even and the leading coefficient is a square; #roots of f, plus 1 if the degree is odd), so its sum is the number of points of the smooth model of y^2=f(x) over that field.",
  "every finite field of odd order, every extension with norm-compatible generators, every polynomial",
  "tests check two curves over two fields",
  [f"{CU}: count, count_cpu"])
p("C15", "count() never reads a table out of bounds",
  "For every coefficient vector with entries at most q-1, every table access performed by count() is within bounds and no intermediate value leaves the 32-bit range when 2q fits.",
  "every field size and coefficient vector", "memory safety for all inputs",
  [f"{CU}: count_cpu (261-295)"])
p("C16", "All counting implementations agree",
  "count (CPU), count_naive_nmod and count_naive_zech (and the OpenCL evaluation kernel with the host accumulation) give the same number_of_points entry for the same curve and extension.",
  "every curve, every extension with norm-compatible generators", "all inputs",
  [f"{CU}: count_cpu, count_naive_nmod, count_naive_zech", "src/opencl/evaluation.cl"])
p("C17", "Counting is idempotent and order independent",
  "Counting the same extension again changes nothing; counting a set of extensions in any order yields the same number_of_points map; counting one extension never alters the entry of another.",
  "every sequence of count calls", "all histories of calls",
  [f"{CU}: count (175-179), count_naive_nmod (314), count_naive_zech (438)"])
p("C18", "Hasse-Weil offsets are q^k+1 minus the point count, in order",
  "hasse_weil_offsets(max_prime_exponent()) lists, for k=1,2,... up to the first uncounted extension, the value q^k+1-#points.",
  "every set of counted extensions", "all histories",
  [f"{CU}: hasse_weil_offsets, max_prime_exponent, number_of_points"])
p("C19", "ramification_type() is the factorisation pattern of the right-hand side",
  "For a squarefree right-hand side, whatever extensions have been counted so far, ramification_type() is the sorted list of degrees of the irreducible factors, with an additional 1 when the degree is odd; its sum is 2*genus+2.",
  "every finite field, every squarefree polynomial, every set of already counted extensions",
  "the shortcut via point counts must agree with factorisation for all inputs and all call histories",
  [f"{CU}: ramification_type"])
p("C20", "twist() gives the data of the quadratic twist",
  "The key returned by twist() is the (ramification type, Hasse-Weil offsets) of the curve c*y^2=f(x) for any non-square c, and twisting twice gives back the original.",
  "every curve and non-square", "all curves",
  ["src/store/curve_data.cc: twist"])
p("C21", "Enumerated curves are well formed, of the requested degrees and never repeated",
  "Iterating the CurveIterator and expanding every block yields coefficient vectors of length degree+1 with a non-zero leading coefficient for degree 2g+1 and (unless with_marked_point) 2g+2, all entries valid indices, no vector twice, for every package size.",
  "every odd prime power q, every genus, every package size", "all q, g, package sizes",
  [f"{CI}: CurveIterator::CurveIterator, step"])
p("C22", "Every hyperelliptic equation is equivalent to an enumerated one",
  "Every polynomial f over F_q of degree 2g+1 or 2g+2 is of the form c*e(ax+b) with a,c non-zero for some enumerated e.",
  "every odd prime power q, genus and polynomial", "completeness over an infinite family",
  [f"{CI}: CurveIterator::CurveIterator"])
p("C23", "Multiplicities weight representatives correctly",
  "For every classification of polynomials that is invariant under f(x) -> c^2 f(ax+b) and transforms by an involution under non-square scalars, the sum over enumerated curves of multiplicity, credited to the class and to the twisted class, equals the number of all polynomials of the degree in the class.",
  "every odd prime power q, every degree 2g+1 or 2g+2, every such classification",
  "an orbit-counting identity over all fields and degrees",
  [f"{CI}: multiplicity"])
p("C24", "The divisions in multiplicity() are exact",
  "Every fmpz_divexact_ui in multiplicity() divides without remainder and every right shift drops only zero bits for odd q.",
  "every odd q and every support occurring in the enumeration", "all q, all supports",
  [f"{CI}: multiplicity"])
p("C25", "CurveIterator refuses characteristic two and genus zero",
  "Constructing a CurveIterator for prime 2 or genus 0 terminates the program; for every other input construction succeeds and is_end() is reached.",
  "all primes, genera, package sizes", "all inputs",
  [f"{CI}: CurveIterator::CurveIterator (41-51)"])
p("C26", "Squarefree total matches the closed formula",
  "The doubled multiplicities of the enumerated squarefree curves of genus g sum to the number of squarefree polynomials, (q-1)(q^(2g+1)-q^(2g)) + (q-1)(q^(2g+2)-q^(2g+1)).",
  "every odd prime power q and genus", "test checks q=13,g=2 only",
  ["test/curve_iterator.cc: blocks_f13_g2", f"{CI}: multiplicity"])
p("C27", "Registering curves credits the key and its twist exactly once each",
  "After registering any sequence of curves, the count stored under a key is the sum of the multiplicities of the curves with that key plus the sum of those whose twisted key it is; no other key is present.",
  "every sequence of curves", "all histories; depends on an invariant of the map across calls",
  ["src/store/store.cc: register_curve"])
p("C28", "Flushing a worker store adds it to the shared store and empties it",
  "flush_to_static_store(block) adds the worker's counts pointwise to the shared counts, adds the block to the shared record, and leaves the worker store empty.",
  "every pair of stores", "all stores", ["src/store/store.cc: flush_to_static_store"])
p("C29", "Shared-store flushes lose and duplicate nothing",
  "For every interleaving of flush_to_static_store and flush_static_store calls, the pointwise sum of all flushed tables plus what is still shared equals the sum of all contributions, and each flushed record lists exactly the blocks whose counts are in the flushed table.",
  "every interleaving of calls from any number of threads", "all schedules",
  ["src/store/store.cc: flush_to_static_store, flush_static_store"])
p("C30", "Key text round-trips",
  "Printing a (ramification type, Hasse-Weil offsets) value with non-empty lists of 32-bit values and parsing the text gives back the value.",
  "every pair of non-empty lists of in-range integers", "unbounded lists and integers",
  ["src/store/curve_data.cc: operator<<, ValueType(string)"])
p("C31", "Store text round-trips",
  "Extracting the text inserted for any store into an empty store gives the same store; into a non-empty store it adds pointwise.",
  "every store", "unbounded maps and big integers",
  ["src/store/store.cc: insert, extract", "src/store/store_data.cc: ValueType(string)"])
p("C32", "Record text round-trips",
  "Reading a written record file gives back exactly the set of blocks that was written.",
  "every set of blocks", "unbounded sets",
  ["src/store/file_store.cc: insert, extract"])
p("C33", "Keys are totally ordered",
  "The less functor on keys is a strict total order whose equivalence is equality, so that a std::map keyed by it has one entry per distinct key.",
  "every triple of keys", "all keys", ["src/store/curve_data.cc: less::operator()"])
p("C34", "Merging is the pointwise sum of the recorded stores, independent of directory order",
  "hycu-merger writes a store that is the pointwise sum of exactly those store files that have a record file, whatever order the directory is listed in; a record without a store file makes it fail without writing; a store without a record is ignored.",
  "every directory content and every listing order", "all directory contents and orders",
  ["src/executables/merger.cc: merge"])
p("C35", "Counts survive decimal text",
  "Writing a curve count of any size in decimal and reading it back yields the same number.",
  "every non-negative integer", "unbounded",
  ["src/store/store_data.hh: operator<<", "src/store/store_data.cc: ValueType(string)"])
p("C36", "Copying counts is memory safe",
  "No sequence of store operations reads a freed big integer or frees one twice.",
  "every sequence of copies, assignments, additions and destructions of counts of any size", "all histories; needs counts above 2^62",
  ["src/store/store_data.hh: Count::ValueType", "src/store/store.cc: register_curve, flush_to_static_store, extract"])
p("C37", "The pool never hands a block to a missing or wrong-kind thread",
  "Whatever the interleaving of worker completions with the dispatcher, assign finds an idle thread of the requested kind, never takes from an empty queue, and every thread is in exactly one of the idle, ready or busy states.",
  "every schedule, any number of CPU and GPU threads, any sequence of blocks", "all schedules",
  ["src/threaded/thread_pool.cc: assign, finished_block, flush_ready_threads", "src/worker_pool/standalone.cc: assign, fill_idle_queues"])
p("C38", "Every assigned block is computed exactly once and reported after its counts are shared",
  "In every schedule, the blocks reported finished are distinct assigned blocks, and when a block is reported its contribution has been added to the shared store exactly once.",
  "every schedule and every sequence of distinct blocks", "all schedules",
  ["src/threaded/thread.cc: main_thread", "src/threaded/thread_pool.cc: finished_block", "src/worker_pool/standalone.cc: finished_block"])
p("C39", "Shutting down or reconfiguring loses no results",
  "When update_config or the destructor of the worker pool has returned, the files written for a configuration contain exactly one contribution for each assigned block of that configuration, whatever the schedule and whatever periodic saves happened.",
  "every schedule, every number of periodic saves", "all schedules and timings",
  ["src/worker_pool/standalone.cc: ~StandaloneWorkerPool, update_config, wait_for_assigned_blocks, save_global_stores_to_file"])
p("C40", "A dispatched block is always eventually picked up",
  "No schedule leaves a worker asleep for ever while a block (or the shutdown request) is waiting for it.",
  "every schedule", "depends on a narrow race window between testing the queue and waiting",
  ["src/threaded/thread.cc: main_thread (59-73), assign, shutdown"])
p("C41", "Every saved record and store file pair is consistent",
  "In every execution, each pair of files written by one save describes the same set of blocks: the store file's counts are the sum of the contributions of the blocks in the record file.",
  "every schedule", "all schedules", ["src/store/store.cc: flush_static_store", "src/store/file_store.cc: save"])
p("C42", "A crash while saving never leaves a record without its data",
  "Whatever point the process is killed at during a save, a record file on disk implies that the complete store file of the same name is on disk.",
  "every crash point", "all crash points", ["src/store/file_store.cc: save"])
p("C43", "Restarting after crashes and completing yields the exact result",
  "For every history of runs of the same configuration, each interrupted by a crash at an arbitrary point, followed by one run that completes, merging the result directory gives each block's contribution exactly once.",
  "every crash history and every schedule", "all histories",
  ["src/store/file_store.cc: FileStore::FileStore, contains, save", "src/worker_pool/standalone.cc: assign", "src/executables/merger.cc: merge"])
p("C44", "Restarting with another package size keeps results exact",
  "Resuming an interrupted computation with a different PackageSize still counts every curve once.",
  "every pair of package sizes", "all histories", ["src/store/file_store.hh: contains", "src/config/config_node.hh"])
p("C45", "End to end: the merged table equals brute-force counting",
  "For every odd prime power q, genus, count exponent, package size, number of threads and schedule, the table obtained by running to completion and merging assigns to every key (ramification type, offsets) the number of squarefree polynomials over F_q of degree 2g+1 or 2g+2 (only 2g+1 with_marked_point) with that factorisation pattern and those point counts.",
  "every configuration and schedule", "tests compare three configurations with reference tables",
  ["src/executables/threaded.cc: main", "test/create_reference_store.sage", "test/threaded.cc"])
p("C46", "MPI: every block is processed exactly once across processes",
  "For every interleaving of master and worker processes and threads, each assigned block is computed by exactly one process and its contribution is written exactly once.",
  "every schedule, any number of processes", "all schedules",
  ["src/worker_pool/mpi.cc", "src/worker_pool/mpi_worker.cc"])
p("C47", "MPI: a finished block is always credited to the process it was assigned to",
  "The master never hits the error branch for a block that was not assigned to the reporting process.",
  "every schedule", "all schedules", ["src/worker_pool/mpi.cc: finished_block, flush_finished_blocks"])
p("C48", "Configuration nodes round-trip through YAML and the documented fields suffice",
  "Decoding the encoding of a configuration gives the configuration back; a node with the fields documented in the README decodes; CountExponent defaults to Genus; a missing required field is reported.",
  "every configuration", "all configurations", ["src/config/config_node.cc: encode, decode", "README.md"])
p("C49", "MPI serialisation round-trips",
  "Loading the serialised form of any configuration, block or tuple yields the original.",
  "every value", "all values", ["src/config/config_node.hh: serialize", "src/utils/serialization_tuple.hh"])
p("C50", "verify() accepts exactly the usable configurations",
  "verify() returns true iff prime, prime exponent, genus, count exponent and package size are non-zero and the result directory exists or was created, and then neither iterating nor table construction divides by zero.",
  "every configuration", "all configurations", ["src/config/config_node.hh: verify"])
p("C51", "hycu-single counts points of the polynomial that was typed",
  "For prime p and integer coefficients, the counts printed are those of y^2=sum c_i x^i modulo p.",
  "every prime and every list of coefficients", "all inputs",
  ["src/single_curve_fp.cc: single_curve_fp", "src/executables/single.cc"])
p("C52", "The requested number of workers is started",
  "spark_threads starts one GPU thread per GPU slot plus the requested CPU threads reduced by one per eight GPU threads, and dispatching can proceed.",
  "every number of devices and threads", "all parameters", ["src/threaded/thread_pool.cc: spark_threads", "src/worker_pool/standalone.cc: fill_idle_queues"])
p("C53", "The OpenCL evaluation kernel computes the CPU count",
  "Summing the kernel outputs over all work items in any order gives the same pair as the CPU loop.",
  "every table, polynomial and execution order of work items", "all inputs and orders",
  ["src/opencl/evaluation.cl: evaluate", "src/opencl/kernel_reduction.cc: _reduce"])
p("C54", "The OpenCL reduction kernel preserves the sum",
  "For a power-of-two work-group size the kernel's partial sums add up to the sum of the input, and the kernel terminates.",
  "every input length, group size and partial size", "all sizes", ["src/opencl/reduction.cl: reduce", "src/opencl/program_reduction.hh: SIZE_PARTIAL_REDUCTION"])
p("C55", "Workers count exactly the configured extensions",
  "update_config gives every thread the tables for exponents r, 2r, ..., n*r (prime exponent r, count exponent n), so every stored key has exactly n offsets.",
  "every configuration", "all configurations", ["src/threaded/thread.cc: update_config, main_thread"])
p("C56", "Record files are read or reported",
  "Starting with a result directory that contains a record file always ends, with the record read or an error reported, even if a record file cannot be opened.",
  "every directory content and every set of permissions", "needs unreadable files; a hang cannot be observed as a failure",
  ["src/store/file_store.cc: FileStore::FileStore, extract", "src/executables/merger.cc: merge"])
p("C57", "Merging can be repeated",
  "Running hycu-merger twice with the same arguments gives the same output table, even when the output file lies in the input directory.",
  "every directory and output name", "all directories", ["src/executables/merger.cc: main, merge"])
p("C58", "Saving adds one new pair of files and touches nothing else",
  "Whatever random numbers are drawn and whatever files exist, a save leaves every existing file as it is and adds exactly one record and one store file, which the merger will read back.",
  "every directory and sequence of random numbers", "needs collisions of random 63-bit names",
  ["src/store/file_store.cc: save, new_filenames"])
p("C59", "The record read at the start consists of the saved blocks",
  "Starting a configuration reads from its result directory exactly the blocks of all saves (and the empty block, which no configuration produces), whatever other files there are and whatever the order of the directory.",
  "every directory and listing order", "all directories", ["src/store/file_store.cc: FileStore::FileStore, extract", "src/store/file_store.hh: contains"])
p("C60", "Configurations with the same result directory do not interfere",
  "If two configurations of one input file name the same result directory, the computation still produces the counts of both.",
  "every pair of configurations", "all histories", ["src/store/file_store.cc: FileStore::FileStore", "src/store/file_store.hh: contains", "src/executables/threaded.cc: main"])
p("C61", "Counting on a device does not depend on its timing",
  "With an OpenCL device the coefficients the kernel sees are those of the curve, whenever the device carries out the copy it was asked for.",
  "every curve and every timing of the device", "depends on when the driver copies memory that the host has already freed",
  ["src/opencl/kernel_evaluation.cc: enqueue", "src/curve.cc: count_opencl"])
p("C62", "An interrupted computation may be resumed with the other program",
  "Runs of hycu and hycu-mpi on the same configurations are killed at arbitrary points, in any order, each with its own number of processes and threads; when a further run of either program ends, every block of every configuration is in exactly one record file and the tables add up to the contributions of all blocks.",
  "every sequence of interrupted runs and every schedule of each", "all schedules and crash points",
  ["src/worker_pool/standalone.cc", "src/worker_pool/mpi.cc", "src/executables/mpi.cc"])
p("C63", "A crash while saving never makes a later run lose counts",
  "For every history of runs of the same configurations, each killed at an arbitrary point, including in the middle of writing a record file, followed by a run that completes: the contribution of every block of every configuration is in the tables at least once, and at most once more than the number of crashes within the writing of a record file.",
  "every crash history, every position at which the text of a record file is cut, every schedule", "all histories and cut positions",
  ["src/store/file_store.cc: save", "src/block_iterator.cc: as_block", "src/worker_pool/standalone.cc: assign"])
p("C64", "A thread with an OpenCL device contributes the same as one without",
  "For every block of a configuration with odd q and q^n at most 2^30, every order in which the device runs its work items and all previous contents of its buffers, a thread whose device copies the coefficients before the call returns adds the same table to the shared store as a thread that counts on the CPU.",
  "every configuration, block, schedule of the work items and contents of device memory", "needs a device; all schedules of work items",
  ["src/curve.cc: Curve::count, Curve::count_opencl", "src/opencl/evaluation.cl", "src/threaded/thread.cc: main_thread"])
p("C65", "Locks protect all shared data, and interrupting a critical section changes nothing",
  "In every interleaving of single accesses (locking, every read and write of the queues, thread lists and the shared table, unlocking), no thread accesses shared data without holding its mutex or misuses a mutex; files, dispatched and reported blocks are those of an execution with uninterrupted critical sections, also when the program is killed within one; and from every state all critical sections can be completed (no deadlock).",
  "every configuration, every number of threads and every interleaving of single accesses", "all interleavings at the level of single accesses",
  ["src/threaded/thread.cc: main_thread, assign, shutdown", "src/threaded/thread_pool.cc: assign, finished_block, flush_ready_threads, flush_finished_blocks", "src/store/store.cc: flush_to_static_store, flush_static_store"])
p("C66", "A thread that keeps running is not kept out of a critical section for ever",
  "If the main thread and every worker run again and again, every worker that has finished a block eventually reports it and the program ends, whatever the order in which they find mutexes free.",
  "every fair schedule", "depends on the scheduler", ["src/worker_pool/standalone.cc: wait_for_assigned_blocks, fill_idle_queues", "src/threaded/thread_pool.cc: finished_block, flush_finished_blocks"])
p("C67", "The MPI program ends",
  "If the processes started by mpirun have at least one worker thread between them and every process and every thread runs again and again, hycu-mpi ends: the master returns after the last configuration and every worker process returns after its shutdown message.",
  "every list of configurations, every number of processes and threads, every interleaving of processes, threads and messages, every choice of the points at which results are saved", "deadlock of processes and threads depends on the schedule and on the order of messages",
  ["src/worker_pool/mpi.cc: fill_idle_queues, flush_finished_blocks, wait_for_assigned_blocks, ~MPIWorkerPool", "src/worker_pool/mpi_worker.cc: main_mpi_worker", "src/threaded/thread.cc: main_thread", "src/threaded/thread_pool.cc: assign, shutdown_threads"])
p("C68", "The exit code tells which configurations are done, over any sequence of runs",
  "A run of hycu-threaded or hycu-mpi that returns 0 without having printed the help has worked on every configuration of its file, and merging the result directory of each gives the numbers of curves that brute force over the definition gives. If it returns 1 after having started, this holds for all configurations before the first incorrect one, and no other directory has been touched; if it returns 1 otherwise, no result file was written. If it is terminated by an exception, this holds for all configurations before the one at which that happened. All this holds regardless of what earlier runs of either program, finished or killed, with this or other configuration files, have left on disk, as long as a result directory was always used for the same configuration.",
  "every command line and configuration file, every history of runs of both programs, every number of processes and threads, every interleaving", "a test sees one history; the claim is about all of them and about schedules",
  ["src/executables/threaded.cc: main", "src/executables/mpi.cc: main", "src/config/config_node.hh: verify, prepend_output_path", "src/worker_pool/standalone.cc", "src/worker_pool/mpi.cc", "src/executables/merger.cc: main"])
p("C69", "All processes of hycu-mpi start alike, and none is left behind",
  "When hycu-mpi starts, every process gets the store type and the numbers of threads of the command line before it uses them, whichever process is fast or slow, so that each starts the threads that are right for its machine; results do not depend on which processes have started when the master begins to work; and every process that was started returns in the end, also if the command line is refused.",
  "every number of processes and machine, every command line, every interleaving of the processes, whether or not a broadcast holds its sender", "the order in which processes start is not under the control of a test",
  ["src/executables/mpi.cc: main", "src/worker_pool/mpi.cc: MPIWorkerPool, broadcast_initialization", "src/worker_pool/mpi_worker.cc: main_mpi_worker", "src/threaded/thread_pool.cc: spark_threads"])
p("C70", "Every merged table passes the consistency checks that mathematics offers",
  "When a run is through, the table merged from a result directory satisfies, for the number q of elements of the field, genus g and n extensions: its counts are positive and sum up to (q-1)(q^(2g+1)-q^(2g)), plus (q-1)(q^(2g+2)-q^(2g+1)) without marked points; a key and its quadratic twist have the same count; in every row the degrees of the ramification points are in order, positive and sum up to 2g+2, with a 1 among them for marked points; there are n Hasse-Weil offsets, the j-th at most q^j+1 in absolute value and of the parity of the number of ramification points over the extension of degree j; and for odd j the offsets weighted by the counts sum up to 0. The table does not depend on which extension fields are used to define it.",
  "every configuration, history of runs and schedule", "tables of realistic size cannot be recomputed by other means; the identities hold for all fields and genera",
  ["src/executables/merger.cc: main", "src/curve_iterator.cc: multiplicity", "src/curve.cc: ramification_type, hasse_weil_offsets", "src/store/store.cc: register_curve", "src/store/curve_data.cc: twist"])
p("C71", "Store files that were cut lose counts and never add any, and the sum of the counts tells",
  "If any store files of a result directory are cut at any places, as when the disk is full, reading them is defined, the merger succeeds with the same record, and no count in the merged table is larger than without the damage; cut keys give rows with count 0 only. After complete runs, the merged table of a damaged directory is right if and only if its counts sum up to the number of equations, which is known in advance (C70). In contrast, neither the program nor the merger notices a failed write: a record whose store could not be written is taken for complete, its blocks are never computed again, and their counts are missing.",
  "every table, place of the cut, set of damaged files, listing order, history of runs and schedule",
  "full disks and cut files at every position cannot be enumerated; the text format has no redundancy, so that absence of wrong counts depends on every branch of the parsers",
  ["src/store/file_store.cc: save", "src/store/store.cc: extract", "src/store/curve_data.cc: ValueType(string)", "src/store/store_data.cc: ValueType(string)", "src/executables/merger.cc: merge"])
p("C72", "What the exit code of the merger means",
  "hycu-merger returns 0 or 1. It returns 1 exactly if the input or the output is not given, the input is not a directory, or some record file has no store file; then no file is changed. For a directory of complete results and an output in an existing directory it returns 0 and has written the sum of all tables and the blocks of all records to the two output files; no other file is touched, whatever the order of the directory listing. If the result is 0, the output was written.",
  "every command line, set of directories, contents and listing order", "all directories and listing orders",
  ["src/executables/merger.cc: main, merge"])
p("C73", "Results can be merged in stages",
  "Merging several result directories one after the other into one directory, with different output names, and then merging that directory gives the same texts as merging all results at once, whatever the listing orders.",
  "every number of stages, every set of results, every listing order", "all partitions of the results into stages and all listing orders",
  ["src/executables/merger.cc: main, merge", "src/store/store.cc: extract, insert", "src/store/file_store.cc: extract, insert"])
p("C74", "Results may be merged and replaced by the output of the merger between runs",
  "Between runs, as often as desired and whether or not the runs were complete, a user may replace all files of the result directory of a configuration by the two files that the merger makes of them, and may delete store files without a record. Merging is possible at any such point, later runs skip exactly the same blocks, and when a run is through, merging gives the numbers of curves that brute force over all polynomials gives. The checks of C70 hold for that table, and the total certifies it as in C71.",
  "every history of runs of both programs, every point at which they are killed, every choice of the points at which directories are merged, names and listing orders, every schedule", "combines crash points, restarts and merges in arbitrary order",
  ["src/executables/merger.cc: merge", "src/store/file_store.cc: FileStore, save", "src/worker_pool/standalone.cc", "src/worker_pool/mpi.cc"])
p("C75", "Tables of large fields are either right or not built",
  "With the integer types of the code, the reduction tables of a field are those specified as long as it has at most 2^31 elements. A field with more elements, less than 2^32, ends the process by an exception while the tables are built; from 2^32 elements on the conversion of the number of elements is undefined. Verification of a configuration does not exclude either case. For the other cases the threads work with exactly the tables the remaining properties are about.",
  "every finite field, its coordinates and stream of candidates for a generator; every configuration with an odd prime", "tables of this size cannot be built in a test, and the cause is a conversion that looks harmless",
  ["src/reduction_table.cc: ReductionTable, compute_exponent_reduction_table, compute_incrementation_table", "src/fq_element_table.hh: block_non_zero, block_complete", "src/threaded/thread.cc: update_config", "src/config/config_node.hh: verify"])
p("C76", "Every device is used, and every curve is counted by a kernel for its degree",
  "The list of devices contains every GPU and accelerator of every platform. A reduction table that is given an OpenCL interface, in whichever way, counts every curve on that device by a kernel that evaluates exactly the coefficients of the curve; programs are built once per degree and interface, also if several tables need them.",
  "every list of platforms, every number of tables, every sequence of curves of any degrees", "depends on caches, on the order of curves, on pointers that were moved from and on hardware that is not there",
  ["src/opencl/interface.cc: devices", "src/opencl/interface.hh: program_evaluation", "src/reduction_table.cc: ReductionTable", "src/reduction_table.hh: kernel_evaluation", "src/opencl/kernel_evaluation.cc: OpenCLKernelEvaluation, enqueue", "src/curve.cc: count_opencl"])
p("C77", "The numbers of curves with given ramification are the expected ones",
  "When a run is through, then in the table merged from a result directory the counts of the rows with ramification degrees r sum up to (q-1) times the product over e of the binomial coefficients 'number of closed points of degree e of the projective line over the field with q elements, choose number of entries e of r'; with a marked point, which is the point at infinity, to (q-1) times the same product for the affine line and r without one 1. The numbers of closed points are the numbers of monic irreducible polynomials, plus one for degree 1, and are determined by q.",
  "every odd prime power q, genus and number of extensions within the range of C45, every ramification type, every history of earlier runs and merges, both programs", "a statement about sums over astronomically many curves; a wrong distribution over the ramification types can have the right total",
  ["src/curve.cc: ramification_type", "src/curve_iterator.cc: CurveIterator, multiplicity", "src/store/store.hh: register_curve", "src/executables/merger.cc: main"])
p("C78", "The mean square of the first offset and the mean of the second are the expected ones",
  "When a run is through, then in the table merged from a result directory the mean over all counted equations of the square of the first offset (q+1 minus the number of points over the field with q elements) is q - q^(1-2g), and the mean of the second offset (the same over the quadratic extension) is (-1)^g q^(1-2g) - q, where g is the genus. For equations with a marked point at infinity the sums are (q-1)^2 q (q^(2g+1) + 1 + (q+1)((q-1)g - 1)) / (q+1) and -(q-1)^2 q (q^(2g+1) + 1 + (q+1)u) / (q+1) with u = q for odd and u = -1 for even genus.",
  "every odd prime power q, genus and number of extensions within the range of C45, every history of earlier runs and merges, both programs", "a statement about sums over astronomically many curves; point counts that are wrong for some curves, symmetrically under twists, pass every other check of the table",
  ["src/curve.cc: count, hasse_weil_offsets", "src/curve_iterator.cc: CurveIterator, multiplicity", "src/store/store.hh: register_curve", "src/executables/merger.cc: main"])
p("C79", "The offsets of every row come from numbers of closed points",
  "When a run is through, then for every row of the table merged from a result directory there are natural numbers U(e) such that, for every j up to the number of extensions, q^j + 1 minus the j-th offset is the sum of e U(e) over the divisors e of j plus the number of ramification points over the extension of degree j that the ramification type of the row gives. So the numbers of points are never negative or smaller than over a smaller field, contain the ramification points, and satisfy the congruences between extensions that the action of Frobenius forces.",
  "every odd prime power q, genus and number of extensions within the range of C45, every history of earlier runs and merges, both programs", "it relates the offsets over different fields, which the program counts independently of each other with different tables, for every curve; tests compare three small tables",
  ["src/curve.cc: count, hasse_weil_offsets, ramification_type", "src/reduction_table.cc: ReductionTable", "src/threaded/thread.cc: update_config", "src/executables/merger.cc: main"])
p("C80", "A thread may run ahead of its device",
  "A thread that counts curves with all its tables on an OpenCL device gets for every curve the numbers that the CPU would give, however far the device is behind the thread, whatever its buffers contain when they are made, and although all tables share one queue and all curves the buffers of a table. This needs the device to copy the coefficients of a curve before the call that passes them returns, and the tables of a configuration before the next one replaces them, since the host frees them then.",
  "every sequence of configurations and of curves over a field of odd order, every list of tables of its extensions, every timing of the device that copies coefficients and tables in time, every order of the work items, any initial contents of the buffers", "tests of the project do not use a device, and a test sees one timing, mostly one in which the device is idle",
  ["src/opencl/buffer_evaluation.cc: OpenCLBufferEvaluation", "src/opencl/kernel_evaluation.cc: enqueue", "src/opencl/kernel_reduction.cc: _reduce, reduce", "src/curve.cc: count, count_opencl", "src/threaded/thread.cc: main_thread"])
out = os.path.join(os.path.dirname(os.path.dirname(os.path.abspath(__file__))), "properties.jsonl")
if __name__ == "__main__":
    with open(out, "w") as f:
        for x in P: f.write(json.dumps(x) + "\n")
    print(len(P))
