# Design: a machine-checked model of hycu in Rocq (Coq 8.16.1)

The model lives in `rocq/theories`. It follows the C++ source in `/repo` function by
function. Every definition of a model file cites the file and lines it models and says
where it simplifies.

## Trusted base

* Coq's kernel (and `coqchk`, which re-checks the compiled files).
* The axioms listed by `Print Assumptions` under each property theorem. See the section
  *Assumptions per theorem* at the end. No axiom is declared in this development.
* The hand translation from C++ to Gallina. Simplifications are listed below and in the
  comments of the model files.
* Contracts of external libraries, which appear as explicit hypotheses or arguments of
  theorems, never as axioms: FLINT (field arithmetic, Conway polynomials, factorisation,
  squarefree test, big integers), the C++ standard library (containers, `stringstream`,
  mutexes, condition variables), boost::filesystem, boost::serialization, boost::mpi,
  yaml-cpp.

## Outcomes

`res A` has four constructors: `Ok a`, `Undef` (C++ undefined behaviour: out-of-range
access, division by zero, `back()` of an empty vector), `Term` (`throw;` without active
exception, i.e. `std::terminate`, or an uncaught exception), `OutOfFuel` (explicit fuel of a
loop exhausted). A theorem saying a call yields `Ok` therefore says it is free of the
modelled undefined behaviour, does not terminate the program and does terminate itself.

`unsigned int` arithmetic that may wrap is modelled modulo an explicit parameter `W`
(`2^32` on the target); all theorems hold for every `W` and state the bound they need.
`size_t` and `int` quantities that cannot overflow before memory is exhausted are unbounded.

## What is modelled

| Area | Source | Model file(s) |
| --- | --- | --- |
| Containers, outcomes | (C++ standard library) | `Res.v`, `OMap.v` |
| Odometer over packages | `block_iterator.{hh,cc}` | `BlockIter.v` |
| Discrete logarithm tables | `fq_element_table.{hh,cc}`, `reduction_table.{hh,cc}` | `Tables.v`; with machine types: `Words.v` |
| Enumeration of curves, multiplicities | `curve_iterator.{hh,cc}` | `CurveIter.v` |
| Curves, point counts, ramification | `curve.{hh,cc}` | `Curve.v` |
| Keys, counts, stores | `store/*.{hh,cc}` | `Store.v` |
| Printing and reading of stores and records | `store/*.{hh,cc}` | `Text.v` |
| Result directories, merger | `store/file_store.cc`, `executables/merger.cc` | `Files.v`; writes that fail: `Disk.v`; `main` of the merger: `Merger.v` |
| Threads and thread pool | `threaded/thread.cc`, `threaded/thread_pool.cc` | `Pool.v` |
| Standalone worker pool and main program | `worker_pool/standalone.cc`, `executables/threaded.cc` | `Standalone.v` |
| The same with single locks, accesses and unlocks | `threaded/*.cc`, `store/store.cc` | `Fine.v` |
| Heap behaviour of `fmpz` copies | `store/store_data.hh` | `FmpzHeap.v` |
| MPI master and workers | `worker_pool/mpi*.cc` | `Mpi.v` |
| Configuration and serialisation | `config/*`, `utils/serialization_tuple.hh` | `Config.v` |
| What one thread computes for one block | `threaded/thread.cc` | `Worker.v` |
| `main` of both programs | `executables/threaded.cc`, `executables/mpi.cc` | `Main.v` |
| Start of `hycu-mpi` | `executables/mpi.cc`, `worker_pool/mpi.cc`, `worker_pool/mpi_worker.cc` | `Boot.v` |
| OpenCL kernels | `opencl/*.cl`, `opencl/kernel_*.cc` | `OpenCL.v` |
| OpenCL devices, programs, kernels of a table | `opencl/interface.{hh,cc}`, `reduction_table.{hh,cc}`, `opencl/kernel_evaluation.cc` | `Setup.v` |
| OpenCL queue and buffers | `opencl/buffer_evaluation.{hh,cc}`, `opencl/kernel_*.cc` | `Queue.v` |
| Thread with OpenCL device | `threaded/thread.cc`, `curve.cc` | `Device.v` |
| `hycu-single` | `single_curve_fp.cc`, `executables/single.cc` | `Single.v` |

Not modelled: command line parsing (boost::program_options; `Main.v` starts from the options found), reading of YAML text, logging, what OpenCL makes of a program text,
the build system, performance.  Files of `/repo/src` that nothing in the model cites hold no behaviour of their own:
`worker_pool/mpi_worker.hh` and `opencl/program.hh` declare what other files define, `opencl/program_evaluation.cc` and
`opencl/program_reduction.cc` hold the name of a kernel and include its text (the texts are cited in `OpenCL.v`), and
`CMakeLists.txt` belongs to the build system.

## Plan per property

Mathematics is done with mathcomp for an arbitrary `F : finFieldType` of odd order; nothing
is specialised to prime fields.

* **C01-C05** `BlockIter.v`: the iterator state is a record of maps plus a position vector.
  The proof abstracts the position to a digit list in update order; a generic odometer lemma
  for digits whose radix may depend on slower digits shows that iteration visits the list of
  all digit vectors in order. Boxes and positions are then read off.
* **C06** the empty range is `Term`. Package size 0 divides by zero, and a block ending near
  the top of the word wraps and never ends: both refuted by a witness.
* **C07, C08, C09, C10** `Tables.v`: construction loops over an oracle stream of random
  candidates. Proved for every stream in which no zero candidate precedes a generator; the
  unrestricted claim is refuted by the zero candidate, which the loop accepts.
  C08 by cyclicity and gcd arithmetic. C10 for every field with base-p coordinates.
* **C11-C18** `Curve.v`: exponent vectors and tables as in the code; the theorems relate
  them to `{poly F}` and to point sets over an extension `L` given by a field morphism
  `F -> L` compatible with the generators (the assumption of the code's `fixme`).
* **C19** needs: an irreducible polynomial of degree d has d roots in F_{q^k} if d|k and none
  otherwise. The shortcut loop is then a Moebius-like recursion. Factorisation (FLINT) is an
  argument with a contract.
* **C20** counting points of `c y^2=f(x)` over even and odd extensions.
* **C21, C25** from C02 applied to the blocks built by the constructor.
* **C22, C23, C24, C26** group G of substitutions and scalings acts on polynomials of degree
  d. Core lemma: the sum of the weights over the G-translates of any f equals |G|. Proved
  directly for each enumeration case by counting the (a,b,c) that normalise f. C23 follows by
  double counting, C22 because the sum is positive, C26 with the count of squarefree
  polynomials.
* **C27, C28, C29, C33** `Store.v`: maps as sorted association lists; the invariant of
  `register_curve` is that the key set is closed under twist.
* **C30, C31, C32, C35** `Text.v`: a model of the used part of `stringstream`
  (`>> int`, `peek`, `ignore`, `getline`, eof/fail bits). C32 is false as stated: the reader
  adds the empty block; the exact result is proved and the claim refuted.
* **C34, C42, C57-C59** `Files.v`: a directory is the list of its entries; save is modelled
  with every intermediate content of both files.
* **C43, C44, C60** `Standalone.v`: histories of runs, each under any schedule and killed at any
  step. There a save is two atomic writes; C43 is proved for these crash points, and refuted in
  `Files.v` for a crash within the writing of the record text. C44 and C60 are refuted.
* **C36** `FmpzHeap.v`: heap with explicit allocation; proved safe below 2^62 and refuted
  above.
* **C37, C38, C39, C41** `Pool.v`, `Standalone.v`: a transition system whose steps are the
  critical sections and file operations; the scheduler is an arbitrary list of actions. One
  inductive invariant (`StandaloneProofs.v`, per process in `PoolProofs.v` and `Account.v`).
* **C40** the same system separates testing the queue, waiting and notifying. The lost wake-up is
  a reachable state that only a spurious wakeup can leave (refuted).  What remains is proved with a measure that
  no action increases and every round of a fair schedule decreases (`Progress.v`, `Lost.v`): with wakeups the
  program ends, without them it ends or a notification has been lost for good.
* **C45** combination of C02, C14, C19, C20, C21, C23, C27, C34, C43 (`EndToEnd.v`): blocks of the enumeration,
  work of a thread on a block, pool, files, merger, compared with counting all polynomials.  The contract of FLINT
  (compatible generators, coordinates, factorisation) is a hypothesis; `FlintExists.v` proves that it can be met
  for every prime and exponent.  Partial: see the comment above the theorem.
* **C63** `TornSpec.v`: histories as for C43 that include runs killed while the text of a record file is written; what
  a later run reads is given by the functions of `Text.v` applied to the first characters of the text. A block
  that was cut is not another block of the configuration if there is a marked point or p does not divide 2g+2 (normal
  forms of the two degrees differ in the last coefficient but one); then the completed result has every block
  (`TornProofs.v`, `TornConfig.v`). For p = 3 and g = 2 a block is lost (`TornLost.v`).
* **C46, C47, C62** `Mpi.v`: transition system with a message queue to and from every worker process; sends complete
  into unbounded queues.  An invariant per process relative to what the master has given to it and heard from it
  (`MpiNode.v`), and one for the master (`MpiProofs.v`).
* **C48, C49, C50** `Config.v`. The documented example lacks `WithMarkedPoint`: refuted. A prime
  above `2^31` does not survive the YAML reader, which reads it as a signed number: refuted for
  such primes, proved below. `verify` accepts the prime 2, for which the enumeration is not
  defined: refuted for 2, proved for odd primes.
* **C51** `Single.v`: proved for odd primes and coefficients in [0,p): the conversion map is the discrete
  logarithm, then C11-C19 apply. Refuted for larger coefficients and for the prime 2.
* **C52** arithmetic of `spark_threads`; zero threads make dispatch diverge (refuted).
* **C53, C54** `OpenCL.v`. With the shipped constant `1 >> 2` the kernel is never launched;
  the general kernel is proved for positive sizes and refuted for 0.  The items of a kernel run in an arbitrary
  order between two barriers.  The source does not compile with WITH_OPENCL (`vector<int>` against
  `vector<unsigned int>`); the model passes the values unchanged.
* **C61** whether the device copies the coefficients before `enqueue` returns is an argument of the model: refuted.
* **C64** `Device.v`: the loop of a thread with the device behaviour of every call as an argument; C53 for every call in
  turn (`DeviceProofs.v`).
* **C65** `Fine.v`: the system of C37 with every lock, access and unlock as a step of its own, an access without the
  mutex being undefined behaviour.  Simulation by the system of C37: the data behind a mutex is related through what its
  holder has done so far, and unlocking is the step of the coarse system (`FineProofs.v`, `FineTheorems.v`).
* **C66** a cycle of `Fine.v` in which everyone runs and nothing changes (refuted). Rounds in which everyone is served are
  rounds of the coarse system, so that C40 applies (`FineEnds.v`).
* **C67** a measure on the states of `Mpi.v`: work of the master, then work on its way to and in the threads, then the
  position of the master in its polling loop. Every step decreases it or leaves enabled what would (`MpiProgress.v`,
  `MpiRounds.v`). A lost notification gives a cycle in which everyone runs (refuted); that there is no other
  obstacle is proved by following the threads of one process at a time (`MpiLost.v`).
* **C68** `Main.v` gives the calls that `main` makes to a worker pool and the exit code for an arbitrary file system and YAML
  document.  The invariants of C42 and C43 are extended to histories in which each run has its own list of configurations
  (`MainRuns.v`): what a run with other configurations adds to a directory is what a run with these would have added there.
  A program that is terminated has made a prefix of the calls of one that goes on.  Then C45 per directory.  Paths
  are appended as in boost::filesystem version 3; `dir` maps a path to the number of its directory.
* **C69** `Boot.v` has the three broadcasts in front of the model of C46. The master does not look into the threads of other
  processes, so a process without a pool can be replaced by one with its pool that has not run yet
  (`graft_step`); this gives a simulation by the executions of `Mpi.v`. The start ends by a measure; then C67. A refused
  command line leaves the other processes in their first broadcast (refuted).
* **C70** No new model: the table of C68 is characterised by counting polynomials; `TableProofs.v` sums over all squarefree polynomials
  (bijection by scaling with a non-square, number of squarefree polynomials, parity from pairs of unramified points). Towers of extension
  fields are constructed for every finite field, so that the characterisation in C45 and C68 is never vacuous.
* **C71** `Disk.v`: `save` when only parts of the two texts can be written. Reading of a cut store text is characterised completely
  (entries before the cut, and possibly one with a part of the count, or the count 0), so no count grows; the merger is followed
  in lock-step on the whole and the damaged directory. With the total of C70, a table with the right sum is right. That failures
  are noticed is refuted.
* **C72** `Merger.v`: `main` of the merger on numbered directories; paths are given a meaning by an arbitrary function. By cases on
  the options and on the result of `merge` (C44); that 0 means that the output exists is refuted.
* **C73** induction over the stages with the list of the groups of results that each file in the output directory stands for; sums
  and sets of blocks of groups are those of the union (with care for the empty block, which reading adds).
* **C74** `TidySpec.v`: histories in which directories are merged between runs. Files with the same records read and the same sums
  of tables are called similar; a run that starts from similar files is simulated step by step (`TidyProofs.v`), so that every such
  history is similar to one without merges, for which C68 holds. The checks of C70 and the certificate of C71 carry over
  (`TidyChecks.v`).
* **C75** `Words.v`: the constructor of ReductionTable written again with `int32_t`, `unsigned int` and `size_t`. The two maps of
  generator powers hold the same entries; refinement of the loops up to 2^31 elements, and the first write fails beyond. The counter example
  3^20 is compared with 2^31 without computing either.
* **C76** `Setup.v`: pointers that are null or not, caches as maps. Invariant: a cached program or kernel is the one for its key; induction over
  the counts. The list of devices is characterised by induction over the platforms. Refuted: moved pointers, two platforms of one vendor.
* **C55** list computation in `update_config`, and the keys that result (`WorkerProofs.v`).
* **C77** No new model. A squarefree polynomial is a leading coefficient and a set of monic irreducible polynomials; `Choices.v` counts the
  sets with given degrees by induction over the list of irreducible polynomials (Pascal's rule for a product of binomial coefficients),
  and the irreducible polynomials by the degree of the squarefree polynomial X^(q^e)-X. `RamCount.v` sums over the rows of the table.
* **C78** No new model. An offset is a sum of quadratic characters of values of the polynomial. `Moments.v`: sums over squarefree polynomials
  follow from sums over all monic polynomials, as every polynomial is a squarefree one times a square; the values of monic polynomials at
  one or two points are equidistributed. `Moments2.v`: the same at the points of the quadratic extension. `MomentProofs.v` sums over the rows.
* **C79** No new model. `Closed.v`: in one extension that contains all the fields, the points over the field with q^j elements are the
  fixed points of the j-th power of Frobenius; these are counted by the lengths of its orbits. `ClosedProofs.v` applies this to the rows.
  `PropReference.v` confronts the specifications of C70, C77 and C78 with the three reference tables of the test suite of the project,
  which other software computed: all checks pass (tests of the specifications, by computation).
  `PropReplay.v` runs the tests of `/repo/test` on the model: all of `block_iterator.cc`, the curves of `small_curves.cc` (CPU
  variant only, with addition tables for F_25 and F_49 computed from explicit quadratic equations), and
  `threaded_q5_g1` and `threaded_q7_g1` of `threaded.cc`. The model gives exactly the expected tables. The functions of `Replay.v`
  stand for FLINT there; they are not part of the model and no theorem uses them. `threaded_q7_g2` was run the same way
  outside of the build, with the same result; it is left out since `coqchk` takes eleven minutes for it.
  `curve_iterator.cc` (blocks_f13_g2) is not run; the total it tests is the subject of C26. These runs are tests, not proofs.
* **C80** `Queue.v`: the commands that wait, the contents of the buffers; the device executes commands in order, and numbers given by an
  oracle say how many between any two steps of the host. Invariant: every buffer has its size, and holds its table or a command to write
  it waits; after a blocking read nothing waits. The result of a call then does not depend on the timing. Late copies read freed memory:
  refuted for every device that is late at the first call, and for every thread without work in a configuration whose tables are
  replaced before they are copied.

## Simplifications and conventions, per model file

* `Queue.v`: OpenCL calls succeed, except writes that do not fit. A queue belongs to one thread. All curves of a configuration are counted
  before the next one comes (in the code, blocks that wait keep their tables alive); the curves are over one field throughout.
* `Setup.v`: OpenCL calls succeed except the building of programs, for which an arbitrary predicate tells whether it succeeds.
* `Words.v`: conversions keep the value modulo 2^32 or 2^64; memory is unbounded; `pow` is exact below 2^53.
* `Merger.v`: a path stands for one directory, the output file names are split at the last slash; the two output files are created
  together or not at all; messages to `cerr` are left out.
* `Disk.v`: a failing write leaves a prefix of the text, of any length; other programs do not change the files meanwhile.
* `Tables.v`. A field of FLINT is a `finFieldType`; random candidates are a stream given to the constructor. Discrete
  logarithms are unbounded naturals below q. The reduction table is built from FLINT's generator (contract: the
  generators of the fields of a tower are compatible, i.e. Conway polynomials are in FLINT's table).
* `CurveIter.v`. For odd p all unsigned subtractions in `multiplicity` are exact, so truncated subtraction on naturals
  agrees with the code.
* `Curve.v`. The `double` result of `pow` in `hasse_weil_offsets` and its conversion to `int` are an exact power; the
  theorems that use it assume q^n+1 < 2^31. Squarefreeness and factorisation are FLINT calls with contracts.
* `Store.v`, `OMap.v`. `std::map` and `std::set` are strictly sorted lists.
* `FmpzHeap.v`. FLINT's limit for small numbers is a parameter; cleared heap numbers may be handed out again.
* `Text.v`. The part of `istream` that the code uses, with its eof and fail bits; `int` range is a parameter.
* `Files.v`. A directory is a list of entries; the order in which it is listed and the random stems are arguments.
* `Pool.v`, `Standalone.v`. One step is one critical section, one file operation or one test of a flag. That
  finer interleavings do not change what can be observed is C65.
* `Fine.v`. Memory is sequentially consistent, which race-free programs may assume. `Thread::main_mutex` is left out: only
  its own thread locks it. What the main thread does to its own members after a call is one step with the unlock.
* `Pool.v`, `Standalone.v`, further:
  Configurations carry a number that stands for the objects of the parameters; that distinct configurations have
  distinct numbers is a convention. That distinct configurations have distinct result directories is a real
  hypothesis, see C60.
* `Config.v`. yaml-cpp is a finite map from keys to texts with its integer conversion; a boost archive is a queue of
  numbers.
* `Single.v`. The product of the running power and the generator is assumed not to wrap. A constant polynomial makes
  the genus wrap and is excluded.
* `OpenCL.v`. Work items of a group run in any order between two barriers; groups run in any order. The macro
  SIZE_PARTIAL_REDUCTION is used as the number it expands to in the places where it occurs.
* `Mpi.v`. Sends complete immediately into unbounded first-in first-out queues, one per process and direction.

## Assumptions per theorem

`Print Assumptions` follows every property theorem in the files `Prop*.v`. For every one of them it answers *Closed
under the global context*: no axiom of the standard library, of mathcomp or of this development is used.

`coqchk -o` and the gate list some constants of mathcomp that are sealed in modules (among them those of the algebraic
numbers, loaded by `finfield`). They are opaque definitions inside mathcomp, not axioms.

## How to read seeded/LOG.jsonl

A line is made by editing one definition in a scratch copy and rebuilding. A lemma whose script no longer runs is admitted
there, so that the build goes on; `theorems_failed` are the property theorems that then rest on an admitted lemma, found
with `Print Assumptions`. For most model files only the property files named after it and a few that use it are rebuilt.

* A theorem in `theorems_failed` need not be false of the edited model: its script, or that of a lemma below it, may only
  be tied to the form of the definition. The line on `Text.parse_count` that accepts the empty text is an example; the
  edit does no harm and ten theorems are listed. The log shows that no listed edit goes unnoticed, not that each listed
  theorem was refuted.
* `failing_examples` is stronger where it names an example that computes, since a closed computation then gives another
  value. About three quarters of the lines have one.
* Five lines list no theorem. Three edits have no observable effect (`Curve.genus`, `Text.dec_rec`, `FmpzHeap.f_store`). The other
  two, `Text.parse_count` (a count that cannot be read is 1) and `OpenCL.acc_loop`, were repeated later and noticed, the
  former by C71, the latter by C54 (in the first run the tool kept admitting the same lemmas).
* `theorems_tightened` is empty throughout: no line records that a theorem was changed because of the edit.
