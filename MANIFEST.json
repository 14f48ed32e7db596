{
 "claims": [
  {
   "property": "C01",
   "status": "proved",
   "theorems": [
    "C01_call",
    "C01_destroy"
   ],
   "note": "for calls under op_allowed: initiate() only when its implicit terminate() really terminates the machine"
  },
  {
   "property": "C02",
   "status": "proved",
   "theorems": [
    "C02_destroyed_once",
    "C02_constructed_once",
    "C02_constructor_threw",
    "C02_terminated",
    "C02_memory"
   ],
   "note": ""
  },
  {
   "property": "C03",
   "status": "proved",
   "theorems": [
    "C03_complete",
    "C03_terminated"
   ],
   "note": ""
  },
  {
   "property": "C04",
   "status": "proved",
   "theorems": [
    "C04_regions",
    "C04_outer",
    "C04_iteration"
   ],
   "note": ""
  },
  {
   "property": "C05",
   "status": "proved",
   "theorems": [
    "C05_transit_spans",
    "C05_terminate_spans",
    "C05_transition",
    "C05_termination",
    "C05_terminate",
    "C05_inner_first"
   ],
   "note": "C05_transition without BOOST_STATECHART_RELAX_TRANSITION_CONTEXT (C52_sorted with it), the others with or without"
  },
  {
   "property": "C06",
   "status": "proved",
   "theorems": [
    "C06_transition"
   ],
   "note": ""
  },
  {
   "property": "C07",
   "status": "proved",
   "theorems": [
    "C07_declared_action",
    "C07_phases",
    "C07_one_action"
   ],
   "note": ""
  },
  {
   "property": "C08",
   "status": "proved",
   "theorems": [
    "C08_transition",
    "C08_initiate"
   ],
   "note": ""
  },
  {
   "property": "C09",
   "status": "proved",
   "theorems": [
    "C09_transition"
   ],
   "note": ""
  },
  {
   "property": "C10",
   "status": "proved",
   "theorems": [
    "C10_termination"
   ],
   "note": ""
  },
  {
   "property": "C11",
   "status": "proved",
   "theorems": [
    "C11_search",
    "C11_asked",
    "C11_outward"
   ],
   "note": ""
  },
  {
   "property": "C12",
   "status": "proved",
   "theorems": [
    "C12_dispatch",
    "C12_unconsumed",
    "C12_terminated"
   ],
   "note": ""
  },
  {
   "property": "C13",
   "status": "proved",
   "theorems": [
    "C13_fifo",
    "C13_order",
    "C13_after_current"
   ],
   "note": ""
  },
  {
   "property": "C14",
   "status": "proved",
   "theorems": [
    "C14_drained"
   ],
   "note": ""
  },
  {
   "property": "C15",
   "status": "proved",
   "theorems": [
    "C15_deferred",
    "C15_wait",
    "C15_released",
    "C15_front"
   ],
   "note": ""
  },
  {
   "property": "C16",
   "status": "proved",
   "theorems": [
    "C16_accounted",
    "C16_received"
   ],
   "note": ""
  },
  {
   "property": "C17",
   "status": "proved",
   "theorems": [
    "C17_terminate",
    "C17_escape"
   ],
   "note": ""
  },
  {
   "property": "C18",
   "status": "proved",
   "theorems": [
    "C18_escapes"
   ],
   "note": ""
  },
  {
   "property": "C19",
   "status": "proved",
   "theorems": [
    "C19_unconsumed"
   ],
   "note": ""
  },
  {
   "property": "C20",
   "status": "proved",
   "theorems": [
    "C20_exit",
    "C20_destructor"
   ],
   "note": ""
  },
  {
   "property": "C21",
   "status": "proved",
   "theorems": [
    "C21_outward",
    "C21_stable",
    "C21_unstable",
    "C21_outside"
   ],
   "note": "stable machine: innermost state asked last; unstable machine: outermost of the states that lost an inner state since the transition, termination or call began; only outer states are asked; stated for machines without BOOST_STATECHART_RELAX_TRANSITION_CONTEXT, see C52"
  },
  {
   "property": "C22",
   "status": "proved",
   "theorems": [
    "C22_caught",
    "C22_translated",
    "C22_handled",
    "C22_returned"
   ],
   "note": ""
  },
  {
   "property": "C23",
   "status": "proved",
   "theorems": [
    "C23_no_exit",
    "C23_history"
   ],
   "note": ""
  },
  {
   "property": "C24",
   "status": "proved",
   "theorems": [
    "C24_trigger",
    "C24_null"
   ],
   "note": ""
  },
  {
   "property": "C25",
   "status": "proved",
   "theorems": [
    "C25_recall",
    "C25_unique",
    "C25_enters"
   ],
   "note": ""
  },
  {
   "property": "C26",
   "status": "proved",
   "theorems": [
    "C26_recall",
    "C26_unique",
    "C26_enters",
    "C26_chain"
   ],
   "note": ""
  },
  {
   "property": "C27",
   "status": "proved",
   "theorems": [
    "C27_clear_shallow",
    "C27_clear_deep",
    "C27_default_shallow",
    "C27_default_deep",
    "C27_other"
   ],
   "note": "with the proviso that no state of the region is exited between the clear and the entry"
  },
  {
   "property": "C28",
   "status": "proved",
   "theorems": [
    "C28_terminate",
    "C28_escape",
    "C28_initiate"
   ],
   "note": "after a terminate() without exceptions, after an escaping exception, and for initiate() on a running machine; results, callbacks and states equal up to moving object addresses"
  },
  {
   "property": "C29",
   "status": "proved",
   "theorems": [
    "C29_unmoved"
   ],
   "note": ""
  },
  {
   "property": "C30",
   "status": "proved",
   "theorems": [
    "C30_downcast",
    "C30_downcast_ref",
    "C30_cast"
   ],
   "note": "between calls (seen states); lookups made by user code inside a call are not covered"
  },
  {
   "property": "C31",
   "status": "partial",
   "theorems": [
    "C31_refuted",
    "C31_quiet_partial",
    "C31_untranslated_partial"
   ],
   "note": "refuted: an exception reaction that recovers from an exit() throwing during the implicit terminate() leaves the machine running, and initiate() then builds a second outermost state; C31_quiet_partial: it holds when nothing throws; C31_untranslated_partial: holds, also if an exception is thrown, with a translator that translates nothing"
  },
  {
   "property": "C32",
   "status": "proved",
   "theorems": [
    "C32_destroy"
   ],
   "note": ""
  },
  {
   "property": "C33",
   "status": "proved",
   "theorems": [
    "C33_common_context",
    "C33_same_region"
   ],
   "note": "static computation of the innermost common context and the region static assertion"
  },
  {
   "property": "C34",
   "status": "proved",
   "theorems": [
    "C34_order",
    "C34_thread",
    "C34_kept",
    "C34_calls"
   ],
   "note": "all interleavings of any number of threads"
  },
  {
   "property": "C35",
   "status": "proved",
   "theorems": [
    "C35_no_lost_wakeup",
    "C35_progress"
   ],
   "note": "spurious wake-ups included; progress = if the worker is blocked with work or the terminated flag set, a notifying step is pending and wakes it"
  },
  {
   "property": "C36",
   "status": "proved",
   "theorems": [
    "C36_count",
    "C36_no_block"
   ],
   "note": ""
  },
  {
   "property": "C37",
   "status": "proved",
   "theorems": [
    "C37_order",
    "C37_flag",
    "C37_stops"
   ],
   "note": ""
  },
  {
   "property": "C38",
   "status": "proved",
   "theorems": [
    "C38_throw",
    "C38_removed"
   ],
   "note": ""
  },
  {
   "property": "C39",
   "status": "proved",
   "theorems": [
    "C39_applied",
    "C39_nothing_else",
    "C39_order",
    "C39_ignored",
    "C39_no_fault",
    "C39_create_threw",
    "C39_default_handle"
   ],
   "note": "for processors whose constructor did not throw; work items do not call operator() of their own scheduler"
  },
  {
   "property": "C40",
   "status": "partial",
   "theorems": [
    "C40_refuted",
    "C40_exact_partial"
   ],
   "note": "refuted: the holder is inserted before the constructor runs, so a later request dereferences a null pointer. C40_exact_partial says all that can happen: requests are ignored if there is none or if the first is the destruction of the processor; any other first request is undefined behaviour; if there is no memory to register the processor, the constructor is not called and everything is ignored, as claimed"
  },
  {
   "property": "C41",
   "status": "proved",
   "theorems": [
    "C41_safe",
    "C41_valid",
    "C41_contents",
    "C41_released",
    "C41_posted",
    "C41_taken",
    "C41_recalled",
    "C41_cleared"
   ],
   "note": "any number of queues, machines and workers; operations in any order; addresses are not reused in the model"
  },
  {
   "property": "C42",
   "status": "proved",
   "theorems": [
    "C42_assertions",
    "C42_read_once",
    "C42_value",
    "C42_read_made"
   ],
   "note": "every pattern of elided and performed copies"
  },
  {
   "property": "C43",
   "status": "proved",
   "theorems": [
    "C43_strict_weak_order",
    "C43_history_map"
   ],
   "note": "for any strict total order on type ids; std::map modelled as a sequence sorted by the comparison"
  },
  {
   "property": "C44",
   "status": "proved",
   "theorems": [
    "C44_call",
    "C44_run"
   ],
   "note": ""
  },
  {
   "property": "C45",
   "status": "partial",
   "theorems": [
    "C45_running_refuted",
    "C45_kept_refuted",
    "C45_exact_partial",
    "C45_untranslated_partial"
   ],
   "note": "refuted twice: terminate() can return with the machine still running (exception reaction transits), or terminated with the queue kept (exception reaction terminates). C45_exact_partial: these are the only ways, it happens only if an exception was translated and handled; C45_untranslated_partial: with a translator that translates nothing terminate() always terminates"
  },
  {
   "property": "C46",
   "status": "proved",
   "theorems": [
    "C46_exclusive",
    "C46_unlocked",
    "C46_returns"
   ],
   "note": "sequentially consistent interleavings; mutex and condition modelled by their contract"
  },
  {
   "property": "C47",
   "status": "proved",
   "theorems": [
    "C47_context",
    "C47_outermost"
   ],
   "note": "between calls (seen states)"
  },
  {
   "property": "C48",
   "status": "proved",
   "theorems": [
    "C48_waits",
    "C48_none"
   ],
   "note": "at every moment between calls"
  },
  {
   "property": "C49",
   "status": "proved",
   "theorems": [
    "C49_process",
    "C49_initiate",
    "C49_ends"
   ],
   "note": "explicit bound on the number of loop iterations, and termination under a bound on the number of posted events"
  },
  {
   "property": "C50",
   "status": "proved",
   "theorems": [
    "C50_synchronous",
    "C50_order",
    "C50_determined",
    "C50_reach"
   ],
   "note": "the machine is a run of the synchronous model on the finished requests, in queue order; same requests give the same machine in any two executions; the states are states the other theorems speak about"
  },
  {
   "property": "C51",
   "status": "proved",
   "theorems": [
    "C51_between",
    "C51_listed",
    "C51_found",
    "C51_context",
    "C01_call"
   ],
   "note": "safety inside callbacks is C01_call (every callback of the model performs all lookups first); between calls C51_between; truth of what is seen at every call of user code: C51_listed, C51_found, C51_context"
  },
  {
   "property": "C52",
   "status": "proved",
   "theorems": [
    "C52_action",
    "C52_machine",
    "C52_sorted",
    "C52_active",
    "C52_reverse_refuted",
    "C52_handler_refuted"
   ],
   "note": "C52_action, C52_machine, C52_sorted, C52_active; the whole exit order and the handler of an exception in the second half are refuted (C52_reverse_refuted, C52_handler_refuted); an action that is a member of the source itself does not compile under the macro"
  },
  {
   "property": "C53",
   "status": "proved",
   "theorems": [
    "C53_common_context",
    "C53_relaxed"
   ],
   "note": ""
  },
  {
   "property": "C54",
   "status": "proved",
   "theorems": [
    "C54_thrown",
    "C54_record",
    "C54_transition",
    "C54_termination",
    "C54_initiate",
    "C54_deferral",
    "C54_defer_refuted"
   ],
   "note": "C54_defer_refuted: the statement of doc/reference.html about exceptions that leave process_event is false for a deferral that cannot be stored"
  },
  {
   "property": "C55",
   "status": "proved",
   "theorems": [
    "C55_types",
    "C55_derived",
    "C55_custom"
   ],
   "note": ""
  },
  {
   "property": "C56",
   "status": "proved",
   "theorems": [
    "C56_call",
    "C56_next",
    "C56_all",
    "C56_served",
    "C56_requests"
   ],
   "note": ""
  },
  {
   "property": "C57",
   "status": "proved",
   "theorems": [
    "C57_processors",
    "C57_nothing_left",
    "C57_machines"
   ],
   "note": "processors do not use the scheduler while it is being destroyed; no request was executed on a processor whose constructor had thrown (C40)"
  }
 ]
}
