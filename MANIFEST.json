{
 "claims": [
  {
   "property": "C01",
   "status": "proved",
   "theorems": [
    "C01_bounds_iterator_visits_box_once"
   ],
   "note": ""
  },
  {
   "property": "C02",
   "status": "proved",
   "theorems": [
    "C02_packages_partition_described_positions"
   ],
   "note": ""
  },
  {
   "property": "C03",
   "status": "proved",
   "theorems": [
    "C02_packages_partition_described_positions"
   ],
   "note": "last conjunct of the theorem"
  },
  {
   "property": "C04",
   "status": "proved",
   "theorems": [
    "C04_block_enumerator_matches_block"
   ],
   "note": ""
  },
  {
   "property": "C05",
   "status": "proved",
   "theorems": [
    "C05_end_state_absorbing",
    "C05_zero_length_starts_at_end",
    "C01_bounds_iterator_visits_box_once"
   ],
   "note": "the step count is the size of the visited list in C01"
  },
  {
   "property": "C06",
   "status": "partial",
   "theorems": [
    "C06_empty_range_terminates_partial",
    "C06_package_size_zero_refuted",
    "C06_termination_refuted"
   ],
   "note": "FALSE of the code as stated: package size 0 divides by zero and blocks at the top of the word loop for ever; the rejection of empty ranges is proved"
  },
  {
   "property": "C07",
   "status": "partial",
   "theorems": [
    "C07_element_table_partial",
    "C07_zero_candidate_refuted"
   ],
   "note": "FALSE of the code for streams in which a zero candidate precedes the first generator; proved for all other streams"
  },
  {
   "property": "C08",
   "status": "proved",
   "theorems": [
    "C08_coset_representatives"
   ],
   "note": ""
  },
  {
   "property": "C09",
   "status": "proved",
   "theorems": [
    "C09_exponent_reduction_table"
   ],
   "note": ""
  },
  {
   "property": "C10",
   "status": "proved",
   "theorems": [
    "C10_incrementation_table"
   ],
   "note": "fields with more than two elements; FLINT coordinates by contract"
  },
  {
   "property": "C11",
   "status": "proved",
   "theorems": [
    "C11_construction",
    "C11_zero_polynomial_undefined"
   ],
   "note": ""
  },
  {
   "property": "C12",
   "status": "proved",
   "theorems": [
    "C12_genus",
    "C14_count"
   ],
   "note": ""
  },
  {
   "property": "C13",
   "status": "proved",
   "theorems": [
    "C13_conversion",
    "C13_refuses_unrelated_fields"
   ],
   "note": ""
  },
  {
   "property": "C14",
   "status": "proved",
   "theorems": [
    "C14_count",
    "C17_histories"
   ],
   "note": "every finite field of odd order and every extension with compatible generators; odd characteristic is required throughout the program"
  },
  {
   "property": "C15",
   "status": "proved",
   "theorems": [
    "C15_always_defined",
    "C17_histories"
   ],
   "note": ""
  },
  {
   "property": "C16",
   "status": "proved",
   "theorems": [
    "C16_implementations_agree"
   ],
   "note": "the OpenCL kernel is treated in C53"
  },
  {
   "property": "C17",
   "status": "proved",
   "theorems": [
    "C17_histories",
    "C17_order_independent"
   ],
   "note": ""
  },
  {
   "property": "C18",
   "status": "proved",
   "theorems": [
    "C18_offsets"
   ],
   "note": ""
  },
  {
   "property": "C19",
   "status": "proved",
   "theorems": [
    "C19_ramification_type"
   ],
   "note": "FLINT's factorisation is an oracle with the contract 'factorisation' of RamSpec.v"
  },
  {
   "property": "C20",
   "status": "proved",
   "theorems": [
    "C20_twist",
    "C20_involution"
   ],
   "note": "FLINT's factorisation is an oracle with the contract 'factorisation' of RamSpec.v"
  },
  {
   "property": "C21",
   "status": "proved",
   "theorems": [
    "C21_well_formed"
   ],
   "note": ""
  },
  {
   "property": "C22",
   "status": "proved",
   "theorems": [
    "C22_every_equation_covered"
   ],
   "note": "every finite field of odd order"
  },
  {
   "property": "C23",
   "status": "proved",
   "theorems": [
    "C23_multiplicities"
   ],
   "note": "every finite field of odd order"
  },
  {
   "property": "C24",
   "status": "proved",
   "theorems": [
    "C24_exact_divisions"
   ],
   "note": ""
  },
  {
   "property": "C25",
   "status": "proved",
   "theorems": [
    "C25_refuses_two_and_genus_zero",
    "C25_iteration_ends"
   ],
   "note": "package size 0 excluded (see C06)"
  },
  {
   "property": "C26",
   "status": "proved",
   "theorems": [
    "C26_squarefree_total"
   ],
   "note": ""
  },
  {
   "property": "C27",
   "status": "proved",
   "theorems": [
    "C27_register"
   ],
   "note": "counts are natural numbers; the memory behaviour of FLINT's integers is treated in C36"
  },
  {
   "property": "C28",
   "status": "proved",
   "theorems": [
    "C28_flush"
   ],
   "note": ""
  },
  {
   "property": "C29",
   "status": "proved",
   "theorems": [
    "C29_segments",
    "C29_conservation"
   ],
   "note": "calls are serialised by the mutex, which is held for the whole of each call"
  },
  {
   "property": "C30",
   "status": "proved",
   "theorems": [
    "C30_key_round_trip"
   ],
   "note": "lists must be non-empty, as the property says; with no offsets the round trip fails, see C30_empty_offsets"
  },
  {
   "property": "C31",
   "status": "proved",
   "theorems": [
    "C31_store_round_trip"
   ],
   "note": ""
  },
  {
   "property": "C32",
   "status": "partial",
   "theorems": [
    "C32_record_partial",
    "C32_record_refuted"
   ],
   "note": "FALSE of the code: reading back a non-empty record adds the empty block; that is all it adds"
  },
  {
   "property": "C33",
   "status": "proved",
   "theorems": [
    "C33_key_order"
   ],
   "note": ""
  },
  {
   "property": "C34",
   "status": "proved",
   "theorems": [
    "C34_merge_sum",
    "C34_missing_store"
   ],
   "note": "files as written by the program"
  },
  {
   "property": "C35",
   "status": "proved",
   "theorems": [
    "C35_decimal"
   ],
   "note": ""
  },
  {
   "property": "C42",
   "status": "proved",
   "theorems": [
    "C42_crash_safe"
   ],
   "note": "the process is killed; loss of data in the operating system's caches is not modelled"
  },
  {
   "property": "C36",
   "status": "partial",
   "theorems": [
    "C36_below_partial",
    "C36_register_refuted",
    "C36_extract_refuted",
    "C36_sum_refuted"
   ],
   "note": "FALSE of the code for counts from FLINT's limit 2^62 on: implicit copies share the heap number and clear it twice; below the limit proved, with the same results as the store of plain numbers"
  },
  {
   "property": "C37",
   "status": "proved",
   "theorems": [
    "C37_threads"
   ],
   "note": "an empty queue, a thread of the wrong kind or an unknown block would end the run with an error; no run does"
  },
  {
   "property": "C38",
   "status": "proved",
   "theorems": [
    "C38_reported_once"
   ],
   "note": ""
  },
  {
   "property": "C39",
   "status": "proved",
   "theorems": [
    "C39_nothing_lost"
   ],
   "note": "configurations have different result directories (see C60)"
  },
  {
   "property": "C40",
   "status": "partial",
   "theorems": [
    "C40_lost_notification_refuted",
    "C40_woken_partial",
    "C40_ends_or_lost_partial",
    "C40_lost_for_ever"
   ],
   "note": "FALSE of the code: the queue is tested and the condition variable waited on under different mutexes, so a notification can be lost; proved for every configuration with a block to compute. C40_woken_partial: if every wait returns from time to time (spurious wakeups) every fair execution with at least one thread ends. C40_ends_or_lost_partial, C40_lost_for_ever: without wakeups every fair execution ends or loses a notification for good"
  },
  {
   "property": "C41",
   "status": "proved",
   "theorems": [
    "C41_consistent_files"
   ],
   "note": ""
  },
  {
   "property": "C43",
   "status": "partial",
   "theorems": [
    "C43_restart_partial",
    "C43_torn_record_refuted"
   ],
   "note": "proved for crashes at every point except within the writing of a record file; there it is FALSE: the blocks are computed and counted again (C63 says what remains true)"
  },
  {
   "property": "C44",
   "status": "partial",
   "theorems": [
    "C44_other_blocks",
    "C44_package_size_refuted"
   ],
   "note": "FALSE of the code: blocks with other bounds are computed again and counted twice"
  },
  {
   "property": "C52",
   "status": "partial",
   "theorems": [
    "C52_threads_started",
    "C52_no_threads_refuted",
    "C40_woken_partial"
   ],
   "note": "the numbers are proved; 'dispatching can proceed' is FALSE if zero threads result, the program then waits for ever; with at least one thread it proceeds up to the lost notification of C40"
  },
  {
   "property": "C60",
   "status": "partial",
   "theorems": [
    "C60_shared_directory_refuted"
   ],
   "note": "FALSE of the code: the second configuration skips the blocks recorded for the first"
  },
  {
   "property": "C56",
   "status": "partial",
   "theorems": [
    "C56_unreadable_record_refuted"
   ],
   "note": "FALSE of the code: a record file that cannot be opened is read for ever"
  },
  {
   "property": "C57",
   "status": "partial",
   "theorems": [
    "C57_merge_again_refuted"
   ],
   "note": "FALSE of the code: the output of the first run is an input of the second, so the table doubles"
  },
  {
   "property": "C58",
   "status": "proved",
   "theorems": [
    "C58_save"
   ],
   "note": ""
  },
  {
   "property": "C59",
   "status": "proved",
   "theorems": [
    "C59_initial_record"
   ],
   "note": ""
  },
  {
   "property": "C48",
   "status": "partial",
   "theorems": [
    "C48_decode_partial",
    "C48_round_trip_partial",
    "C48_missing_field",
    "C48_documented_fields_refuted",
    "C48_large_prime_refuted"
   ],
   "note": "FALSE of the code for nodes with exactly the documented fields (WithMarkedPoint is required but not documented) and for numbers above 2^31-1; proved otherwise"
  },
  {
   "property": "C49",
   "status": "proved",
   "theorems": [
    "C49_round_trips"
   ],
   "note": "tuples of length two, the only ones sent; Boost's archives are sequences of primitive values"
  },
  {
   "property": "C50",
   "status": "partial",
   "theorems": [
    "C50_verified_partial",
    "C50_two_refuted"
   ],
   "note": "the equivalence is proved; 'usable' is FALSE for prime 2 (and nothing checks that the prime is one)"
  },
  {
   "property": "C45",
   "status": "partial",
   "theorems": [
    "C45_end_to_end_partial",
    "C45_restart_reads"
   ],
   "note": "proved for configurations with q^n+1 below 2^31 and fields for which FLINT has Conway polynomials, with OpenCL devices only as in C64, for runs not killed while a record file is written (where C43 is false)"
  },
  {
   "property": "C55",
   "status": "proved",
   "theorems": [
    "C55_tables",
    "C55_offsets"
   ],
   "note": "configurations with q^n+1 below 2^31"
  },
  {
   "property": "C51",
   "status": "partial",
   "theorems": [
    "C51_residues_partial",
    "C51_large_coefficients",
    "C51_large_coefficients_refuted",
    "C51_two_refuted"
   ],
   "note": "FALSE of the code for coefficients that are not below the prime (each is treated as 1, also -1, which is read as 2^32-1) and for the prime 2; proved for odd primes and residues, all implementations without OpenCL, p^genus+1 below 2^31 and fields for which FLINT has Conway polynomials"
  },
  {
   "property": "C53",
   "status": "proved",
   "theorems": [
    "C53_evaluation",
    "C53_count"
   ],
   "note": "fields of at most half as many elements as int has non-negative values; the coefficients having been copied in time, see C61"
  },
  {
   "property": "C54",
   "status": "partial",
   "theorems": [
    "C54_reduction_partial",
    "C54_shipped_constant_refuted",
    "C54_other_sizes_refuted"
   ],
   "note": "proved for positive partial sizes dividing the group size by a power of two; FALSE for the shipped constant 0 (the kernel would not end; the host does not start it) and for other sizes (entries are lost)"
  },
  {
   "property": "C61",
   "status": "partial",
   "theorems": [
    "C61_timing_refuted",
    "C61_late_copy_undefined"
   ],
   "note": "FALSE of the code: the source of the non-blocking copy is destroyed when enqueue returns; with a copy made in time C53 applies"
  },
  {
   "property": "C46",
   "status": "proved",
   "theorems": [
    "C46_once",
    "C46_nothing_lost",
    "C46_consistent_files"
   ],
   "note": "for runs that were given at least one process; sends complete into unbounded queues; termination is not part of it"
  },
  {
   "property": "C47",
   "status": "proved",
   "theorems": [
    "C47_credited"
   ],
   "note": "also shows that no step of any schedule ends in an error or undefined behaviour"
  },
  {
   "property": "C62",
   "status": "partial",
   "theorems": [
    "C62_either_program_partial"
   ],
   "note": "proved for crashes at every point except within the writing of a record file (see C43)"
  },
  {
   "property": "C63",
   "status": "partial",
   "theorems": [
    "C63_torn_text",
    "C63_nothing_lost_partial",
    "C63_lost_refuted"
   ],
   "note": "proved for configurations with a marked point or with a prime that does not divide 2g+2; FALSE otherwise: the first bounds of a block can be those of another block, which is then taken for computed and missing from the result"
  },
  {
   "property": "C64",
   "status": "proved",
   "theorems": [
    "C64_same_contribution"
   ],
   "note": "for devices that copy in time (otherwise see C61); the source does not compile with WITH_OPENCL because of vectors of int and unsigned int, the model passes the values unchanged"
  },
  {
   "property": "C65",
   "status": "proved",
   "theorems": [
    "C65_no_race",
    "C65_same_as_uninterrupted",
    "C65_no_deadlock",
    "C65_restart"
   ],
   "note": "the standalone program; crashes within the writing of a record file excepted, see C43"
  },
  {
   "property": "C66",
   "status": "partial",
   "theorems": [
    "C66_starved_refuted",
    "C66_served_partial",
    "C66_served_or_lost_partial"
   ],
   "note": "FALSE of the code as far as the language goes: mutexes need not be fair and the main thread polls; proved: being kept out at a mutex and the lost notifications of C40 are the only obstacles to ending"
  },
  {
   "property": "C67",
   "status": "partial",
   "theorems": [
    "C67_woken_partial",
    "C67_ends_or_lost_partial",
    "C67_lost_for_ever",
    "C67_lost_refuted"
   ],
   "note": "FALSE of the code as it is: a notification of a thread of a worker process can be lost as in C40 and then nothing changes any more; proved: if waiting threads are woken again and again, all processes return, and lost notifications are the only obstacle to that"
  },
  {
   "property": "C68",
   "status": "partial",
   "theorems": [
    "C68_exit_code",
    "C68_refused",
    "C68_results_partial",
    "C68_untouched",
    "C68_runs",
    "C68_ends_partial"
   ],
   "note": "proved for configurations with q^n+1 below 2^31 and fields for which FLINT has Conway polynomials, for runs not killed while a record file is written (where C43 is false), and with directories that do not change in between; that the run ends is proved if waiting threads are woken (C40, C67)"
  },
  {
   "property": "C69",
   "status": "partial",
   "theorems": [
    "C69_same_arguments",
    "C69_total",
    "C69_as_if_started",
    "C69_results_partial",
    "C69_ends_partial",
    "C69_refused_refuted"
   ],
   "note": "FALSE of the code for command lines that are refused (also --help): the master returns without a broadcast and the other processes wait for ever; all else is proved, that all return if waiting threads are woken (C67)"
  },
  {
   "property": "C70",
   "status": "partial",
   "theorems": [
    "C70_checks_partial",
    "C70_well_defined"
   ],
   "note": "under the hypotheses of C68: configurations with q^n+1 below 2^31 and so on"
  },
  {
   "property": "C71",
   "status": "partial",
   "theorems": [
    "C71_torn_store",
    "C71_loss_only",
    "C71_total_certifies_partial",
    "C71_full_disk_refuted"
   ],
   "note": "the converse use of the total is under the hypotheses of C68; that failed writes are noticed is refuted"
  },
  {
   "property": "C72",
   "status": "partial",
   "theorems": [
    "C72_exit_codes",
    "C72_touches",
    "C72_success",
    "C72_unwritable_refuted"
   ],
   "note": "all proved except the last sentence, which is FALSE of the code: failed writes of the output are not noticed and the merger returns 0"
  },
  {
   "property": "C73",
   "status": "proved",
   "theorems": [
    "C73_stages",
    "C73_same_directory_refuted"
   ],
   "note": "for outputs in a directory without other records; merging into the directory that is merged is not part of the claim, and it is shown that a later merge then counts everything twice"
  },
  {
   "property": "C74",
   "status": "partial",
   "theorems": [
    "C74_results_partial",
    "C74_checks_partial",
    "C74_any_time_partial"
   ],
   "note": "under the hypotheses of C68: configurations with q^n+1 below 2^31 and so on"
  },
  {
   "property": "C75",
   "status": "proved",
   "theorems": [
    "C75_tables",
    "C75_blocks",
    "C75_threads",
    "C75_configurations_refuted"
   ],
   "note": "the statement names the three cases; the refuted theorem shows that configurations accepted by verify fall into the last two; conversions to signed types as the compilers in use define them"
  },
  {
   "property": "C76",
   "status": "partial",
   "theorems": [
    "C76_kernels",
    "C76_moved_refuted",
    "C76_devices",
    "C76_devices_partial",
    "C76_devices_refuted"
   ],
   "note": "holds for tables built from a pointer by reference, as the threads do, and for platforms of different vendors; false for a moved pointer and for a second platform of the same vendor; the devices in use are characterised in general"
  },
  {
   "property": "C77",
   "status": "partial",
   "theorems": [
    "C77_ramification_partial",
    "C77_numbers"
   ],
   "note": "under the hypotheses of C68: configurations with q^n+1 below 2^31 and so on"
  },
  {
   "property": "C78",
   "status": "partial",
   "theorems": [
    "C78_moments_partial"
   ],
   "note": "under the hypotheses of C68: configurations with q^n+1 below 2^31 and so on"
  },
  {
   "property": "C79",
   "status": "partial",
   "theorems": [
    "C79_closed_points_partial"
   ],
   "note": "under the hypotheses of C68: configurations with q^n+1 below 2^31 and so on"
  },
  {
   "property": "C80",
   "status": "partial",
   "theorems": [
    "C80_queue_partial",
    "C80_late_refuted",
    "C80_stale_refuted"
   ],
   "note": "for the timings in which the coefficients are copied before the call returns and the tables before they are replaced; the copies are not blocking and their sources are freed, so the rest is refuted"
  }
 ]
}
