{
 "claims": [
  {
   "property": "C01",
   "status": "proved",
   "theorems": [
    "C01_load_untorn",
    "C01_load_silent"
   ],
   "note": "all targets (src/arch and src/arch_legacy) and sizes; every schedule of interference"
  },
  {
   "property": "C02",
   "status": "proved",
   "theorems": [
    "C02_store_atomic",
    "C02_store_running"
   ],
   "note": ""
  },
  {
   "property": "C03",
   "status": "proved",
   "theorems": [
    "C03_swap_atomic"
   ],
   "note": ""
  },
  {
   "property": "C04",
   "status": "partial",
   "theorems": [
    "C04_compare_exchange_partial",
    "C04_sign_extended",
    "C04_upper_bits_still_weak",
    "C04_m68k_modulo_promise",
    "C04_riscv64_refuted",
    "C04_loongarch64_refuted",
    "C04_mips64_refuted",
    "C19_m68k_refuted"
   ],
   "note": "proved except 32-bit compare_exchange on riscv64/loongarch64/mips64 and m68k, where the claim is refuted for the code as written; for those the theorems state exactly what does hold"
  },
  {
   "property": "C05",
   "status": "partial",
   "theorems": [
    "C05_compare_exchange_weak_partial",
    "C19_m68k_refuted",
    "C04_m68k_modulo_promise"
   ],
   "note": "all targets but m68k (refuted there: false promise to the optimizer)"
  },
  {
   "property": "C06",
   "status": "proved",
   "theorems": [
    "C06_neighbours_untouched"
   ],
   "note": "all targets without exclusions"
  },
  {
   "property": "C07",
   "status": "proved",
   "theorems": [
    "system_linearizable",
    "system_progress",
    "C07_irq_linearizable",
    "C07_irq_progress",
    "C07_irq_schedulable",
    "op_atomic_any"
   ],
   "note": "every call on every target (AVR and MSP430: main program and interrupt handlers on one core); the 4-byte compare_exchange calls for which C04 is refuted are recorded as compare_exchange_weak (as_done), and an m68k compare_exchange takes effect at one instant but, if it succeeds, ends in the undefined behaviour of C19_m68k_refuted instead of returning (system_progress excludes it)"
  },
  {
   "property": "C08",
   "status": "proved",
   "theorems": [
    "C08_bytes_transported",
    "C08_irq_bytes_transported"
   ],
   "note": "every call on every target, any number of threads or handlers; as_done as in C07"
  },
  {
   "property": "C09",
   "status": "proved",
   "theorems": [
    "C09_panic_iff_senseless",
    "fetch_update_correct"
   ],
   "note": ""
  },
  {
   "property": "C10",
   "status": "proved",
   "theorems": [
    "C10_accepted_orderings_implemented"
   ],
   "note": ""
  },
  {
   "property": "C11",
   "status": "proved",
   "theorems": [
    "C11_upgrade_least"
   ],
   "note": ""
  },
  {
   "property": "C12",
   "status": "proved",
   "theorems": [
    "fetch_update_correct",
    "fetch_update_fresh"
   ],
   "note": ""
  },
  {
   "property": "C13",
   "status": "proved",
   "theorems": [
    "no_lost_updates",
    "C13_irq_no_lost_updates",
    "counter_exact"
   ],
   "note": ""
  },
  {
   "property": "C14",
   "status": "proved",
   "theorems": [
    "helper_correct",
    "helper_two_attempts"
   ],
   "note": ""
  },
  {
   "property": "C15",
   "status": "proved",
   "theorems": [
    "C15_layout",
    "C15_into_inner",
    "C15_as_ptr",
    "C15_write_through",
    "C15_from_ptr"
   ],
   "note": ""
  },
  {
   "property": "C16",
   "status": "proved",
   "theorems": [
    "C16_sub_word",
    "C16_sub_word_s390x"
   ],
   "note": ""
  },
  {
   "property": "C17",
   "status": "proved",
   "theorems": [
    "C17_zero_extend",
    "C17_zero_extend64_ptr",
    "C17_pair_bytes",
    "C17_pair_fields",
    "C17_pair_join",
    "C17_pair_split",
    "C17_halves"
   ],
   "note": ""
  },
  {
   "property": "C18",
   "status": "proved",
   "theorems": [
    "C18_s390x",
    "C18_powerpc"
   ],
   "note": ""
  },
  {
   "property": "C19",
   "status": "partial",
   "theorems": [
    "C19_no_false_promise_partial",
    "C19_m68k_refuted"
   ],
   "note": "false on m68k (refuted), proved everywhere else"
  },
  {
   "property": "C20",
   "status": "partial",
   "theorems": [
    "C20_independent_of_garbage_partial",
    "C04_riscv64_refuted",
    "C04_loongarch64_refuted",
    "C04_mips64_refuted"
   ],
   "note": "the C04 exceptions are exactly the dependencies on garbage"
  },
  {
   "property": "C21",
   "status": "proved",
   "theorems": [
    "C21_operand_contract"
   ],
   "note": ""
  },
  {
   "property": "C22",
   "status": "proved",
   "theorems": [
    "C22_solo_termination",
    "C22_interrupt_targets_terminate"
   ],
   "note": "51 instructions"
  },
  {
   "property": "C23",
   "status": "proved",
   "theorems": [
    "C23_steps_paid_for_by_interference"
   ],
   "note": ""
  },
  {
   "property": "C24",
   "status": "proved",
   "theorems": [
    "C24_acquire"
   ],
   "note": "every target; ordering rules of the instruction sets as in MemModel.v"
  },
  {
   "property": "C25",
   "status": "proved",
   "theorems": [
    "C25_release"
   ],
   "note": ""
  },
  {
   "property": "C26",
   "status": "proved",
   "theorems": [
    "C26_interleaving",
    "C26_irq_interleaving",
    "C26_sequential",
    "C26_store_buffering_results",
    "C26_acyclic",
    "C26_store_buffering",
    "C26_reads_latest",
    "C26_reads_initial",
    "C26_access_order"
   ],
   "note": "every execution of a client whose calls are all SeqCst has the results and final cell contents of an interleaving of its calls; in C26_interleaving the 4-byte compare_exchange calls refuted under C04 count as weak ones (C26_sequential: without them, the sequential specification)"
  },
  {
   "property": "C27",
   "status": "proved",
   "theorems": [
    "C27_failure_acquire"
   ],
   "note": ""
  },
  {
   "property": "C28",
   "status": "proved",
   "theorems": [
    "C28_write_read",
    "C28_write_write",
    "C28_read_read",
    "C28_read_write",
    "C28_message",
    "C28_flag",
    "C28_message_passing"
   ],
   "note": "in every execution the axioms of Graph.v allow, release sequences (through read-modify-writes of any thread) included"
  },
  {
   "property": "C29",
   "status": "proved",
   "theorems": [
    "C29_small_loads_never_write"
   ],
   "note": ""
  },
  {
   "property": "C31",
   "status": "proved",
   "theorems": [
    "C31_interrupt_atomic",
    "C22_interrupt_targets_terminate"
   ],
   "note": ""
  },
  {
   "property": "C32",
   "status": "proved",
   "theorems": [
    "C32_no_helper_panics",
    "C32_helper_atomic"
   ],
   "note": ""
  },
  {
   "property": "C33",
   "status": "partial",
   "theorems": [
    "C33_one_module",
    "C33_has_xor_no",
    "C33_ptr_alias",
    "C33_sized_partial",
    "C33_cas_partial",
    "C33_model",
    "C33_covered",
    "C33_arm_linux_refuted",
    "C33_i386_refuted"
   ],
   "note": "every configuration of every architecture, from the #[cfg] attributes transcribed mechanically; false for 64 bits on pre-v6 Arm Linux and for cas on an i386 without cmpxchg, refuted there; C33_model (src/arch and src/arch_legacy) ties the compiled implementations to the ones the other theorems are about"
  },
  {
   "property": "C30",
   "status": "proved",
   "theorems": [
    "C30_store",
    "C30_swap",
    "C30_load64",
    "C30_load64_legacy"
   ],
   "note": "every plain load of a store or swap block (and of the 64-bit load of arm_linux.rs) replaced by an arbitrary value; the LDXP pair of aarch64 is torn in the machine model itself (Machine.v, LLp) and covered by C01-C04"
  },
  {
   "property": "C34",
   "status": "proved",
   "theorems": [
    "C34_probe",
    "C34_probe_monotone",
    "C34_flags_monotone",
    "C34_parse",
    "C34_unreadable",
    "C34_last_flag_wins",
    "C34_last_cpu_wins",
    "C34_no_cpu",
    "C34_last_allow_wins",
    "C34_allow_default",
    "C34_experimental",
    "C34_asm_available",
    "C34_arm_versions",
    "C34_arm_target",
    "C34_zabha",
    "C34_nightly"
   ],
   "note": "all of build.rs but its warnings"
  },
  {
   "property": "C35",
   "status": "proved",
   "theorems": [
    "C35_same_behaviour",
    "C35_operand_contract",
    "C35_progress",
    "C35_same_executions",
    "C35_linearizable",
    "C35_irq_same_executions",
    "C35_irq_linearizable",
    "C35_temporary_in_saved_register",
    "C35_same_items",
    "C35_weak_executions",
    "C35_accessed"
   ],
   "note": "every allocation the operand rules permit, also for executions under weak memory (met by Ex_alloc.v); that a wrong lateout would be caught is C35_early_clobber_matters"
  },
  {
   "property": "C36",
   "status": "proved",
   "theorems": [
    "C36_register_combinations",
    "C36_base_register"
   ],
   "note": "any permitted allocation; that a wrong lateout would be caught is C36_late_am"
  },
  {
   "property": "C37",
   "status": "proved",
   "theorems": [
    "C37_write_read",
    "C37_write_write",
    "C37_read_read",
    "C37_read_write",
    "C37_message",
    "C37_irreflexive",
    "C37_transitive"
   ],
   "note": "release sequences go through read-modify-writes of any thread"
  },
  {
   "property": "C38",
   "status": "proved",
   "theorems": [
    "C38_ordered",
    "C38_mutual_exclusion",
    "C38_load"
   ],
   "note": "32-bit compare_exchange of riscv64, loongarch64, mips64 (C04_*_refuted) not used for taking the lock; loads up to a pointer's width"
  },
  {
   "property": "C39",
   "status": "proved",
   "theorems": [
    "C39_race_free_data",
    "C39_locked_data"
   ],
   "note": "the code outside the library does not use load-linked/store-conditional pairs and leaves the cells to the library"
  },
  {
   "property": "C40",
   "status": "proved",
   "theorems": [
    "C40_drf_sc",
    "C40_sequential"
   ],
   "note": "C40_drf_sc holds for all calls: 32-bit compare_exchange of riscv64, loongarch64, mips64 may fail as in C04_*_refuted; C40_sequential, without these calls, has the full specification"
  },
  {
   "property": "C41",
   "status": "proved",
   "theorems": [
    "C41_no_races",
    "C41_drf_sc_program",
    "C41_sequential",
    "C41_in_time_needed"
   ],
   "note": "executions with values out of thin air (a read of a write that the program order and earlier reads put later, in_time) are excluded: the model keeps no dependencies of code outside the library; C41_in_time_needed shows that the theorems would be false otherwise. C41_sequential is in terms of the specification alone, for programs without 32-bit compare_exchange on riscv64, loongarch64, mips64; C41_drf_sc_program covers these"
  },
  {
   "property": "C42",
   "status": "proved",
   "theorems": [
    "C42_locks",
    "C42_no_race",
    "C42_guarded",
    "C42_program_no_races",
    "C42_program",
    "C42_own_locks",
    "C42_program_apart"
   ],
   "note": "the program-level theorems exclude executions in which values come out of thin air (in_time, as in C41); failed attempts and looks are erased from the interleaving: with Acquire and Release alone they may report an earlier state. All calls of the program are on locks"
  },
  {
   "property": "C43",
   "status": "proved",
   "theorems": [
    "C43_own_cell",
    "C43_aligned"
   ],
   "note": "sizes of the integer types of the crate; shared memory (the private buffers through which arch_legacy passes values are pseudo registers of the model)"
  },
  {
   "property": "C44",
   "status": "proved",
   "theorems": [
    "C44_interleaving",
    "C44_sequential",
    "C44_taken_once",
    "C44_never_taken"
   ],
   "note": "machine assumed to obey the axioms of Graph.v; single-core targets by C20-C22; the compare_exchange calls of the C04 refutations may fail spuriously (C44_sequential excludes them)"
  },
  {
   "property": "C45",
   "status": "proved",
   "theorems": [
    "C45_sum",
    "C45_tickets",
    "C45_no_ticket_twice"
   ],
   "note": "executions as in C44; holds also where compare_exchange may fail spuriously (C04 refutations), since only successes count"
  },
  {
   "property": "C46",
   "status": "proved",
   "theorems": [
    "C46_last",
    "C46_ordered",
    "C46_no_use_after_free",
    "C46_once"
   ],
   "note": "executions as in C44; the release sequences run through read-modify-writes of the library in any thread, with any ordering"
  },
  {
   "property": "C47",
   "status": "proved",
   "theorems": [
    "C47_publisher",
    "C47_visible",
    "C47_once"
   ],
   "note": "executions as in C44; the release sequences run through read-modify-writes of the library in any thread, with any ordering"
  },
  {
   "property": "C48",
   "status": "proved",
   "theorems": [
    "C48_history",
    "C48_ordered"
   ],
   "note": "executions as in C44; a failed strong compare_exchange says nothing about the value where C04 is refuted"
  },
  {
   "property": "C49",
   "status": "proved",
   "theorems": [
    "C49_exclusive",
    "C49_consistent"
   ],
   "note": "executions as in C44; readers change the lock word with compare_exchange only, writers lock with compare_exchange and unlock with compare_exchange, store or swap"
  }
 ]
}