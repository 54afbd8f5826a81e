#!/usr/bin/env python3
"""Source of MANIFEST.json; run to regenerate it."""
import json, os
C = []
def c(prop, status, theorems, note=""):
    C.append(dict(property=prop, status=status, theorems=theorems.split(), note=note))

c("C01", "proved", "C01_bounds_iterator_visits_box_once")
c("C02", "proved", "C02_packages_partition_described_positions")
c("C03", "proved", "C02_packages_partition_described_positions", "last conjunct of the theorem")
c("C04", "proved", "C04_block_enumerator_matches_block")
c("C05", "proved", "C05_end_state_absorbing C05_zero_length_starts_at_end C01_bounds_iterator_visits_box_once",
  "the step count is the size of the visited list in C01")
c("C06", "partial", "C06_empty_range_terminates_partial C06_package_size_zero_refuted C06_termination_refuted",
  "FALSE of the code as stated: package size 0 divides by zero and blocks at the top of the word loop for ever; the rejection of empty ranges is proved")
c("C07", "partial", "C07_element_table_partial C07_zero_candidate_refuted",
  "FALSE of the code for streams in which a zero candidate precedes the first generator; proved for all other streams")
c("C08", "proved", "C08_coset_representatives")
c("C09", "proved", "C09_exponent_reduction_table")
c("C10", "proved", "C10_incrementation_table", "fields with more than two elements; FLINT coordinates by contract")
c("C11", "proved", "C11_construction C11_zero_polynomial_undefined")
c("C12", "proved", "C12_genus C14_count")
c("C13", "proved", "C13_conversion C13_refuses_unrelated_fields")
c("C14", "proved", "C14_count C17_histories", "every finite field of odd order and every extension with compatible generators; odd characteristic is required throughout the program")
c("C15", "proved", "C15_always_defined C17_histories")
c("C16", "proved", "C16_implementations_agree", "the OpenCL kernel is treated in C53")
c("C17", "proved", "C17_histories C17_order_independent")
c("C18", "proved", "C18_offsets")
c("C19", "proved", "C19_ramification_type", "FLINT's factorisation is an oracle with the contract 'factorisation' of RamSpec.v")
c("C20", "proved", "C20_twist C20_involution", "FLINT's factorisation is an oracle with the contract 'factorisation' of RamSpec.v")
c("C21", "proved", "C21_well_formed")
c("C22", "proved", "C22_every_equation_covered", "every finite field of odd order")
c("C23", "proved", "C23_multiplicities", "every finite field of odd order")
c("C24", "proved", "C24_exact_divisions")
c("C25", "proved", "C25_refuses_two_and_genus_zero C25_iteration_ends",
  "package size 0 excluded (see C06)")
c("C26", "proved", "C26_squarefree_total")
c("C27", "proved", "C27_register", "counts are natural numbers; the memory behaviour of FLINT's integers is treated in C36")
c("C28", "proved", "C28_flush")
c("C29", "proved", "C29_segments C29_conservation", "calls are serialised by the mutex, which is held for the whole of each call")
c("C30", "proved", "C30_key_round_trip", "lists must be non-empty, as the property says; with no offsets the round trip fails, see C30_empty_offsets")
c("C31", "proved", "C31_store_round_trip")
c("C32", "partial", "C32_record_partial C32_record_refuted", "FALSE of the code: reading back a non-empty record adds the empty block; that is all it adds")
c("C33", "proved", "C33_key_order")
c("C34", "proved", "C34_merge_sum C34_missing_store", "files as written by the program")
c("C35", "proved", "C35_decimal")
c("C42", "proved", "C42_crash_safe", "the process is killed; loss of data in the operating system's caches is not modelled")
c("C36", "partial", "C36_below_partial C36_register_refuted C36_extract_refuted C36_sum_refuted", "FALSE of the code for counts from FLINT's limit 2^62 on: implicit copies share the heap number and clear it twice; below the limit proved, with the same results as the store of plain numbers")
c("C37", "proved", "C37_threads", "an empty queue, a thread of the wrong kind or an unknown block would end the run with an error; no run does")
c("C38", "proved", "C38_reported_once")
c("C39", "proved", "C39_nothing_lost", "configurations have different result directories (see C60)")
c("C40", "partial", "C40_lost_notification_refuted C40_woken_partial C40_ends_or_lost_partial C40_lost_for_ever", "FALSE of the code: the queue is tested and the condition variable waited on under different mutexes, so a notification can be lost; proved for every configuration with a block to compute. C40_woken_partial: if every wait returns from time to time (spurious wakeups) every fair execution with at least one thread ends. C40_ends_or_lost_partial, C40_lost_for_ever: without wakeups every fair execution ends or loses a notification for good")
c("C41", "proved", "C41_consistent_files")
c("C43", "partial", "C43_restart_partial C43_torn_record_refuted", "proved for crashes at every point except within the writing of a record file; there it is FALSE: the blocks are computed and counted again (C63 says what remains true)")
c("C44", "partial", "C44_other_blocks C44_package_size_refuted", "FALSE of the code: blocks with other bounds are computed again and counted twice")
c("C52", "partial", "C52_threads_started C52_no_threads_refuted C40_woken_partial", "the numbers are proved; 'dispatching can proceed' is FALSE if zero threads result, the program then waits for ever; with at least one thread it proceeds up to the lost notification of C40")
c("C60", "partial", "C60_shared_directory_refuted", "FALSE of the code: the second configuration skips the blocks recorded for the first")
c("C56", "partial", "C56_unreadable_record_refuted", "FALSE of the code: a record file that cannot be opened is read for ever")
c("C57", "partial", "C57_merge_again_refuted", "FALSE of the code: the output of the first run is an input of the second, so the table doubles")
c("C58", "proved", "C58_save")
c("C59", "proved", "C59_initial_record")
c("C48", "partial", "C48_decode_partial C48_round_trip_partial C48_missing_field C48_documented_fields_refuted C48_large_prime_refuted", "FALSE of the code for nodes with exactly the documented fields (WithMarkedPoint is required but not documented) and for numbers above 2^31-1; proved otherwise")
c("C49", "proved", "C49_round_trips", "tuples of length two, the only ones sent; Boost's archives are sequences of primitive values")
c("C50", "partial", "C50_verified_partial C50_two_refuted", "the equivalence is proved; 'usable' is FALSE for prime 2 (and nothing checks that the prime is one)")
c("C45", "partial", "C45_end_to_end_partial C45_restart_reads", "proved for configurations with q^n+1 below 2^31 and fields for which FLINT has Conway polynomials, with OpenCL devices only as in C64, for runs not killed while a record file is written (where C43 is false)")
c("C55", "proved", "C55_tables C55_offsets", "configurations with q^n+1 below 2^31")
c("C51", "partial", "C51_residues_partial C51_large_coefficients C51_large_coefficients_refuted C51_two_refuted", "FALSE of the code for coefficients that are not below the prime (each is treated as 1, also -1, which is read as 2^32-1) and for the prime 2; proved for odd primes and residues, all implementations without OpenCL, p^genus+1 below 2^31 and fields for which FLINT has Conway polynomials")
c("C53", "proved", "C53_evaluation C53_count", "fields of at most half as many elements as int has non-negative values; the coefficients having been copied in time, see C61")
c("C54", "partial", "C54_reduction_partial C54_shipped_constant_refuted C54_other_sizes_refuted", "proved for positive partial sizes dividing the group size by a power of two; FALSE for the shipped constant 0 (the kernel would not end; the host does not start it) and for other sizes (entries are lost)")
c("C61", "partial", "C61_timing_refuted C61_late_copy_undefined", "FALSE of the code: the source of the non-blocking copy is destroyed when enqueue returns; with a copy made in time C53 applies")
c("C46", "proved", "C46_once C46_nothing_lost C46_consistent_files", "for runs that were given at least one process; sends complete into unbounded queues; termination is not part of it")
c("C47", "proved", "C47_credited", "also shows that no step of any schedule ends in an error or undefined behaviour")
c("C62", "partial", "C62_either_program_partial", "proved for crashes at every point except within the writing of a record file (see C43)")
c("C63", "partial", "C63_torn_text C63_nothing_lost_partial C63_lost_refuted", "proved for configurations with a marked point or with a prime that does not divide 2g+2; FALSE otherwise: the first bounds of a block can be those of another block, which is then taken for computed and missing from the result")
c("C64", "proved", "C64_same_contribution", "for devices that copy in time (otherwise see C61); the source does not compile with WITH_OPENCL because of vectors of int and unsigned int, the model passes the values unchanged")
c("C65", "proved", "C65_no_race C65_same_as_uninterrupted C65_no_deadlock C65_restart", "the standalone program; crashes within the writing of a record file excepted, see C43")
c("C66", "partial", "C66_starved_refuted C66_served_partial C66_served_or_lost_partial", "FALSE of the code as far as the language goes: mutexes need not be fair and the main thread polls; proved: being kept out at a mutex and the lost notifications of C40 are the only obstacles to ending")
c("C67", "partial", "C67_woken_partial C67_ends_or_lost_partial C67_lost_for_ever C67_lost_refuted", "FALSE of the code as it is: a notification of a thread of a worker process can be lost as in C40 and then nothing changes any more; proved: if waiting threads are woken again and again, all processes return, and lost notifications are the only obstacle to that")
c("C68", "partial", "C68_exit_code C68_refused C68_results_partial C68_untouched C68_runs C68_ends_partial", "proved for configurations with q^n+1 below 2^31 and fields for which FLINT has Conway polynomials, for runs not killed while a record file is written (where C43 is false), and with directories that do not change in between; that the run ends is proved if waiting threads are woken (C40, C67)")
c("C69", "partial", "C69_same_arguments C69_total C69_as_if_started C69_results_partial C69_ends_partial C69_refused_refuted", "FALSE of the code for command lines that are refused (also --help): the master returns without a broadcast and the other processes wait for ever; all else is proved, that all return if waiting threads are woken (C67)")
c("C70", "partial", "C70_checks_partial C70_well_defined", "under the hypotheses of C68: configurations with q^n+1 below 2^31 and so on")
c("C71", "partial", "C71_torn_store C71_loss_only C71_total_certifies_partial C71_full_disk_refuted", "the converse use of the total is under the hypotheses of C68; that failed writes are noticed is refuted")
c("C72", "partial", "C72_exit_codes C72_touches C72_success C72_unwritable_refuted", "all proved except the last sentence, which is FALSE of the code: failed writes of the output are not noticed and the merger returns 0")
c("C73", "proved", "C73_stages C73_same_directory_refuted", "for outputs in a directory without other records; merging into the directory that is merged is not part of the claim, and it is shown that a later merge then counts everything twice")
c("C74", "partial", "C74_results_partial C74_checks_partial C74_any_time_partial", "under the hypotheses of C68: configurations with q^n+1 below 2^31 and so on")
c("C75", "proved", "C75_tables C75_blocks C75_threads C75_configurations_refuted", "the statement names the three cases; the refuted theorem shows that configurations accepted by verify fall into the last two; conversions to signed types as the compilers in use define them")
c("C76", "partial", "C76_kernels C76_moved_refuted C76_devices C76_devices_partial C76_devices_refuted", "holds for tables built from a pointer by reference, as the threads do, and for platforms of different vendors; false for a moved pointer and for a second platform of the same vendor; the devices in use are characterised in general")
c("C77", "partial", "C77_ramification_partial C77_numbers", "under the hypotheses of C68: configurations with q^n+1 below 2^31 and so on")
c("C78", "partial", "C78_moments_partial", "under the hypotheses of C68: configurations with q^n+1 below 2^31 and so on")
c("C79", "partial", "C79_closed_points_partial", "under the hypotheses of C68: configurations with q^n+1 below 2^31 and so on")
c("C80", "partial", "C80_queue_partial C80_late_refuted C80_stale_refuted", "for the timings in which the coefficients are copied before the call returns and the tables before they are replaced; the copies are not blocking and their sources are freed, so the rest is refuted")
root = os.path.dirname(os.path.dirname(os.path.abspath(__file__)))
if __name__ == "__main__":
    with open(os.path.join(root, "MANIFEST.json"), "w") as f:
        json.dump(dict(claims=C), f, indent=1); f.write("\n")
    print(len(C))
