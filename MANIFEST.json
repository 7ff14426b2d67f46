{
 "claims": [
  {
   "property": "C01",
   "status": "proved",
   "theorems": [
    "C01_clock_never_backwards",
    "C01_user_clock"
   ],
   "note": "for every sequence of calls whatsoever, including calls that raise and misuse"
  },
  {
   "property": "C02",
   "status": "proved",
   "theorems": [
    "C02_dispatch_order",
    "C02_scheduling_order",
    "C02_arguments"
   ],
   "note": "dispatch order for every sequence of calls; order of scheduling and the meaning of urgent/priority are separate theorems"
  },
  {
   "property": "C03",
   "status": "proved",
   "theorems": [
    "C03_one_event",
    "C03_one_event_call",
    "C03_no_remove_error",
    "C03_remaining_on_data_refuted",
    "C03_empty_request_refuted",
    "C03_nested_run_refuted",
    "C03_self_bump_refuted"
   ],
   "note": "proved for documented use (predicate wf); four kinds of use outside it are refuted with witnesses"
  },
  {
   "property": "C04",
   "status": "proved",
   "theorems": [
    "C04_hold_exact"
   ],
   "note": "for every reachable state (documented use) and every continuation without calls directed at the component"
  },
  {
   "property": "C05",
   "status": "proved",
   "theorems": [
    "C05_past_rejected_or_capped",
    "C05_time_limits"
   ],
   "note": "hold, activate, create, run, remaining_duration and the time limits of request, wait, from_store, to_store"
  },
  {
   "property": "C06",
   "status": "partial",
   "theorems": [
    "C06_hold_refuted",
    "C06_activate_refuted",
    "C06_remaining_refuted",
    "C06_rejected_hold_partial"
   ],
   "note": "refuted for scheduled components (hold, activate, remaining_duration); proved for hold of current/passive components"
  },
  {
   "property": "C07",
   "status": "proved",
   "theorems": [
    "C07_not_resumed"
   ],
   "note": "passivate and cancel"
  },
  {
   "property": "C08",
   "status": "proved",
   "theorems": [
    "C08_interrupt_resume",
    "C08_not_interruptible"
   ],
   "note": "any nesting of interrupts, any calls not directed at the component in between"
  },
  {
   "property": "C09",
   "status": "partial",
   "theorems": [
    "C09_on_exactly_one_list",
    "C09_due_after_next_event",
    "C09_due_is_made_current",
    "C09_skip_standby_refuted"
   ],
   "note": "proved for executions in which no call raises and without the skip_standby situation, which is refuted with a witness"
  },
  {
   "property": "C10",
   "status": "proved",
   "theorems": [
    "C10_run_till",
    "C10_run_to_the_end"
   ],
   "note": "run(till), run(duration) and run(); no calls directed at main in between"
  },
  {
   "property": "C11",
   "status": "proved",
   "theorems": [
    "C11_keys_distinct"
   ],
   "note": "for every sequence of calls whatsoever"
  },
  {
   "property": "C12",
   "status": "proved",
   "theorems": [
    "C12_shift",
    "C12_nothing_else_changes",
    "C12_absolute_on_new_scale"
   ],
   "note": "shift, meaning of absolute times afterwards, and equality of all later outcomes up to the offset"
  },
  {
   "property": "C13",
   "status": "proved",
   "theorems": [
    "C13_within_after_call",
    "C13_never_exceeded",
    "C13_negative_release_refuted"
   ],
   "note": "per call for any history; bounds in every reachable state when capacities are not lowered and nothing negative is released; the latter condition is shown necessary by a refutation"
  },
  {
   "property": "C14",
   "status": "partial",
   "theorems": [
    "C14_claimers",
    "C14_sum",
    "C14_sum_whole",
    "C14_sum_partial",
    "C14_sum_refuted",
    "C14_monitors",
    "C14_occupancy",
    "C14_occupancy_after",
    "C14_occupancy_refuted"
   ],
   "note": "equality proved for quantities that are multiples of a unit >= 1e-8 and for runs with whole releases; in general <=, equality refuted; occupancy proved except for a non-zero initial claimed quantity (refuted)"
  },
  {
   "property": "C15",
   "status": "proved",
   "theorems": [
    "C15_all_or_nothing",
    "C15_decision",
    "C15_request"
   ],
   "note": "for every reachable state and call: a waiting request of a component not addressed by the call stays, is withdrawn without claims, or is honored as a whole (oneof: exactly one resource); the decision is exactly availability of all (of the first available one); a new request ends in one of these"
  },
  {
   "property": "C16",
   "status": "proved",
   "theorems": [
    "C16_timeout",
    "C16_booked",
    "C16_history"
   ],
   "note": "full for all histories: C16_booked, C16_history, C16_timeout; histories are any calls (any outcome) not directed at the waiting component itself"
  },
  {
   "property": "C17",
   "status": "proved",
   "theorems": [
    "C17_nothing_left",
    "C17_exact",
    "C17_released"
   ],
   "note": "cancel and end of process leave no claim and no queue membership; claimed quantity and claims change together; other components only gain what they asked for"
  },
  {
   "property": "C18",
   "status": "proved",
   "theorems": [
    "C18_no_lost_wakeup",
    "C18_interrupted_refuted",
    "C18_preemptive_refuted",
    "C18_yieldless_refuted"
   ],
   "note": "ordinary resources (not preemptive, honor_only_first or honor_only_highest_priority; anonymous ones when not yieldless), no request on behalf of an interrupted component; three boundaries refuted with witnesses (interrupted, preemptive, yieldless anonymous)"
  },
  {
   "property": "C19",
   "status": "partial",
   "theorems": [
    "C19_first_refuted",
    "C19_highest_refuted",
    "C19_release_partial",
    "C19_set_capacity_partial"
   ],
   "note": "the property in full does not hold: refuted with witnesses for honor_only_first and honor_only_highest_priority (the requester that becomes first is not tried); proved instead, in every reachable state: a release and a set_capacity serve the requester that is first in line (of this one resource), or leave no room for it"
  },
  {
   "property": "C20",
   "status": "proved",
   "theorems": [
    "C20_not_overtaken",
    "C20_first_only",
    "C20_ordered",
    "C20_place",
    "C20_newcomer"
   ],
   "note": "queue order in every reachable state, place of a newcomer, no overtaking over any continuation, honor_only_first; executions without requests on behalf of interrupted components"
  },
  {
   "property": "C21",
   "status": "partial",
   "theorems": [
    "C21_who_partial",
    "C21_bumps_all",
    "C21_minimal_refuted",
    "C21_hopeless_refuted"
   ],
   "note": "who may be bumped and that they are the last ones of the claimers queue is proved; minimality and not bumping in vain are refuted; what happens instead is characterised (C21_bumps_all)"
  },
  {
   "property": "C22",
   "status": "proved",
   "theorems": [
    "C22_ends",
    "C22_once"
   ],
   "note": "every call that can set off retries ends, and honors each component at most once, from every reachable state"
  },
  {
   "property": "C23",
   "status": "partial",
   "theorems": [
    "C23_never",
    "C23_refuted"
   ],
   "note": "refuted: naming a resource twice always raises ValueError (proved for all states and argument lists)"
  },
  {
   "property": "C24",
   "status": "proved",
   "theorems": [
    "C24_no_lost_wakeup",
    "C24_no_lost_wakeup_for",
    "C24_set",
    "C24_set_same",
    "C24_interrupted_refuted",
    "C24_unlisted_refuted"
   ],
   "note": "for every reachable state in which wait is not called on behalf of an interrupted component (refuted with a witness otherwise); wait_for for conditions on the listed states only (refuted otherwise)"
  },
  {
   "property": "C25",
   "status": "proved",
   "theorems": [
    "C25_wait",
    "C25_wait_for",
    "C25_gone",
    "C25_not_before"
   ],
   "note": "wait and wait_for, any/all, at once and later; time-outs are C16"
  },
  {
   "property": "C26",
   "status": "partial",
   "theorems": [
    "C26_trigger",
    "C26_max_zero_refuted"
   ],
   "note": "proved for max >= 1 and no maximum; max=0 honors every ready component (refuted)"
  },
  {
   "property": "C27",
   "status": "partial",
   "theorems": [
    "C27_conserved",
    "C27_history",
    "C27_one_place",
    "C27_rescan_refuted"
   ],
   "note": "Every successful call (any reachable state) keeps a full account of items: what is in the stores, what left, and who received what; receivers distinct, each waited for the store and accepts the item (C27_conserved); summed over executions (C27_history), an item is in one place (C27_one_place). For rescan()/filter() this needs that every waiting requester accepts at most one item; without it the property is false: rescan drops an item (C27_rescan_refuted). Calls that end in an exception half-way are not covered."
  },
  {
   "property": "C28",
   "status": "proved",
   "theorems": [
    "C28_available",
    "C28_entry",
    "C28_never_over",
    "C28_full_raises",
    "C28_to_store"
   ],
   "note": "Available quantity = capacity - contents in all states, also after failed calls; entering beyond capacity raises QueueFull and changes nothing; to_store waits; contents within capacity whenever an item comes in, and always as long as the capacity is not lowered."
  },
  {
   "property": "C29",
   "status": "partial",
   "theorems": [
    "C29_first_taker",
    "C29_no_taker",
    "C29_first_putter",
    "C29_from_store",
    "C29_from_store_waits",
    "C29_key",
    "C29_key_last_partial",
    "C29_key_refuted"
   ],
   "note": "First accepting requester gets the item, first putter gets the room, from_store picks first accepted item / lowest key from one store. With key and several stores it raises ValueError unless the lowest is in the last store: C29_key_refuted, C29_key_last_partial."
  },
  {
   "property": "C30",
   "status": "partial",
   "theorems": [
    "C30_leave",
    "C30_enter",
    "C30_no_putters",
    "C30_refuted"
   ],
   "note": "False in general: C30_refuted (reachable state in which leave never returns). C30_leave/C30_enter characterise exactly when that happens; otherwise the call needs at most three nested calls. from_store/to_store/rescan/set_capacity: only through these two."
  },
  {
   "property": "C31",
   "status": "proved",
   "theorems": [
    "C31_operations",
    "C31_iterating_changes_nothing",
    "C31_reading",
    "C31_exceptions",
    "C31_kernel_queues",
    "C31_slices"
   ],
   "note": "Linked-list model refined to plain lists for every operation, incl. failing ones; reading (forward, backward, head, tail, successor, predecessor, index, ints, slices) agrees with that list. C31_kernel_queues relates it to the queues of the kernel model."
  },
  {
   "property": "C32",
   "status": "partial",
   "theorems": [
    "C32_sorted",
    "C32_first_come_first_served",
    "C32_new_priority",
    "C32_insert_at_end_refuted"
   ],
   "note": "Proved for all the operations of the statement (C32_sorted, C32_first_come_first_served, C32_new_priority). insert (outside the statement) at the end can break the order: C32_insert_at_end_refuted."
  },
  {
   "property": "C33",
   "status": "proved",
   "theorems": [
    "C33_membership",
    "C33_errors_change_nothing",
    "C33_checked"
   ],
   "note": "errors change nothing, for every operation except extend, copy, move, set operations (which are sequences of enters)"
  },
  {
   "property": "C34",
   "status": "proved",
   "theorems": [
    "C34_accounting",
    "C34_enter_time",
    "C34_length_of_stay",
    "C34_clock"
   ],
   "note": "integral of length = departed stays + present stays, arrivals - departures = length; enter times are right; leave tallies the stay"
  },
  {
   "property": "C35",
   "status": "proved",
   "theorems": [
    "C35_next",
    "C35_finished",
    "C35_given_once",
    "C35_complete",
    "C35_in_order"
   ],
   "note": "exact: the next component is the first in the queue not given since it entered; generator may be interleaved with any other operations"
  },
  {
   "property": "C36",
   "status": "partial",
   "theorems": [
    "C36_union",
    "C36_intersection",
    "C36_difference",
    "C36_symmetric_difference",
    "C36_copy",
    "C36_move",
    "C36_copy_capacity_refuted",
    "C36_extend",
    "C36_extend_clearing",
    "C36_extend_full",
    "C36_extend_self_refuted"
   ],
   "note": "Proved for union, intersection, difference, symmetric_difference, copy, move, extend, and extend with clear_source from another queue (C36_extend_clearing; C36_extend_full: when it does not fit, the source keeps its components). Refuted: copy(copy_capacity=True) of a queue longer than its capacity raises and leaves half a queue (C36_copy_capacity_refuted); extend(self, clear_source=True) of a queue with itself loses all components (C36_extend_self_refuted)."
  },
  {
   "property": "C37",
   "status": "partial",
   "theorems": [
    "C37_past",
    "C37_now",
    "C37_on",
    "C37_level_at",
    "C37_off_now_refuted",
    "C37_rejected_refuted"
   ],
   "note": "Level monitors with full monitoring: past moments, now, on, all lookups. While the monitor is off, m(now) gives the last tallied value instead of off: C37_off_now_refuted. A tally rejected by the type still becomes the value: C37_rejected_refuted."
  },
  {
   "property": "C38",
   "status": "partial",
   "theorems": [
    "C38_duration",
    "C38_duration_ex0",
    "C38_value_duration",
    "C38_bin_duration",
    "C38_partition",
    "C38_mean",
    "C38_stats_only_refuted"
   ],
   "note": "Full level monitors: duration, ex0, value_duration, bin_duration, partition, mean. duration() of a stats_only level monitor misses the time since the last tally: C38_stats_only_refuted."
  },
  {
   "property": "C39",
   "status": "partial",
   "theorems": [
    "C39_running",
    "C39_mean",
    "C39_variance",
    "C39_entries",
    "C39_weight",
    "C39_zero_weight_refuted",
    "C39_level_maximum_refuted"
   ],
   "note": "Mean, variance, number of entries and weight of a stats_only monitor agree with those of a full monitor. Not for zero weights (C39_zero_weight_refuted) and not for the extremes of a level monitor (C39_level_maximum_refuted)."
  },
  {
   "property": "C40",
   "status": "partial",
   "theorems": [
    "C40_weights",
    "C40_times",
    "C40_entries",
    "C40_mean",
    "C40_variance",
    "C40_value",
    "C40_rejected_refuted",
    "C40_multiply_refuted",
    "C40_x_map_refuted",
    "C40_types"
   ],
   "note": "Values, weights, times, entries, mean, variance. Refuted: a rejected weighted tally (C40_rejected_refuted), scaling (C40_multiply_refuted) and x_map (C40_x_map_refuted) lose or shift weights."
  },
  {
   "property": "C41",
   "status": "proved",
   "theorems": [
    "C41_entries",
    "C41_weight",
    "C41_duration"
   ],
   "note": "number of entries, weights and durations over any sorted list of bin bounds add up to the totals."
  },
  {
   "property": "C42",
   "status": "proved",
   "theorems": [
    "C42_between",
    "C42_ends",
    "C42_monotone",
    "C42_defined",
    "C42_quantile",
    "C42_rank",
    "C42_member",
    "C42_member_level"
   ],
   "note": "For every q, every interpolation method and every recorded history: at 0 and 100 the percentile is minimum()/maximum(), in between it lies between them and never decreases in q, it exists as soon as there is weight, it is a quantile of the distribution (weight below it <= q% of the weight <= weight up to it; for unweighted monitors the rank version), and without interpolation it is one of the tallied values. Assumes non-negative weights, and not the method 'nearest' on weighted data (the code raises there)."
  },
  {
   "property": "C43",
   "status": "partial",
   "theorems": [
    "C43_plain",
    "C43_statistics",
    "C43_level",
    "C43_level_ok",
    "C43_now_refuted",
    "C43_mixed_refuted",
    "C43_overflow_refuted"
   ],
   "note": "non-level: entries, order, weights and all statistics proved for all monitors; level: value at every earlier time proved for monitors with the same off value; refuted: value at the present time (always 0), off value of an integer type mixed with type any, overflow of integer types"
  },
  {
   "property": "C44",
   "status": "partial",
   "theorems": [
    "C44_plain",
    "C44_plain_open",
    "C44_plain_modulo",
    "C44_level",
    "C44_no_start_refuted",
    "C44_late_stop_refuted",
    "C44_offset_refuted",
    "C44_off_at_stop_refuted",
    "C44_again_refuted",
    "C44_modulo_refuted"
   ],
   "note": "proved: non-level slices with and without stop (entries, weights, statistics), modulo slices with a window that does not contain a multiple of modulo, levels of slices of a monitor that is on before the stop (or off throughout); offset 0. Refuted: start not given (TypeError), stop later than now, after reset_now, monitor off at the stop, slice of a slice, modulo with a window over a multiple"
  },
  {
   "property": "C45",
   "status": "partial",
   "theorems": [
    "C45_share",
    "C45_value",
    "C45_equal",
    "C45_without_replacement",
    "C45_cum_checked",
    "C45_cum_share",
    "C45_cum_value",
    "C45_zero_refuted",
    "C45_cum_zero_refuted",
    "C45_unsampled_refuted",
    "C45_expression_refuted"
   ],
   "note": "Proved for positive draws for Pdf, Pmf and CumPdf (value returned is the one whose interval of cumulative probability holds the draw, so never one of probability 0) and for samples without replacement. Refuted at the draw 0.0, which random.random() may return: the sample is then 0 whatever the values (C45_zero_refuted, C45_cum_zero_refuted); nested distributions are sampled, except in an expression or a list of samples (C45_unsampled_refuted, C45_expression_refuted)."
  },
  {
   "property": "C46",
   "status": "proved",
   "theorems": [
    "C46_checked",
    "C46_linear",
    "C46_fraction",
    "C46_exact",
    "C46_range"
   ],
   "note": "Any draw gives the linear interpolation, samples lie in the specified range, and the set of draws with sample <= x_i is an interval of length the specified cumulative value (C46_fraction)."
  },
  {
   "property": "C47",
   "status": "partial",
   "theorems": [
    "C47_bounded",
    "C47_unbounded",
    "C47_default_refuted",
    "C47_fail_unit_refuted"
   ],
   "note": "Proved with a bounded number of tries and a given fail value (C47_bounded), and the first accepted sample when there is one (C47_unbounded); refuted for the default fail value, which is the lower bound also if that is excluded (C47_default_refuted), and for fail values with a time unit (C47_fail_unit_refuted)."
  },
  {
   "property": "C48",
   "status": "partial",
   "theorems": [
    "C48_mean",
    "C48_int",
    "C48_equal",
    "C48_unit_sample",
    "C48_unit_mean",
    "C48_constant_refuted",
    "C48_constant_average_refuted",
    "C48_erlang_refuted",
    "C48_nested_refuted",
    "C48_expected",
    "C48_nested",
    "C48_no_mean"
   ],
   "note": "C48_mean: for Uniform, Cdf, Pdf, CumPdf, Constant and sums, differences and products with a number of them, mean() is the average of sample() over all draws in [0,1)^k, in the sense of iterated Darboux integrals; C48_int and C48_equal for discrete uniform; C48_unit_sample/_mean: time units. C48_expected: when the library generator returns the expected value for the parameters it is given, sample() returns mean() for the distributions in which the sample depends linearly on the draw. Refuted: Constant with a time unit (mean scaled twice), Erlang (divided), nested distributions with a time unit. Missing: means of Exponential, Normal, Gamma, Weibull and Beta, whose samples are transcendental functions of the draws (no reals in the model); Distribution(...) wrapper; Poisson and External."
  },
  {
   "property": "C49",
   "status": "proved",
   "theorems": [
    "C49_uniform",
    "C49_uniform_open",
    "C49_int",
    "C49_triangular",
    "C49_constant",
    "C49_one_bound",
    "C49_parameters",
    "C49_in_turn"
   ],
   "note": "For Uniform, IntUniform, Triangular and Constant with any source of random numbers in [0,1)."
  },
  {
   "property": "C50",
   "status": "partial",
   "theorems": [
    "C50_arrivals",
    "C50_at_end_number",
    "C50_at_end_till",
    "C50_at_end_not",
    "C50_disturbance",
    "C50_none_refuted",
    "C50_disturbance_at_end_refuted",
    "C50_disturbance_till_refuted",
    "C50_negative_refuted",
    "C50_at_end_last",
    "C50_disturbance_force_at"
   ],
   "note": "Proved without reset_now, for nonnegative inter arrival times: arrivals (also with a nonnegative disturbance), and at_end exactly once, as the last thing that is done (C50_at_end_last, for all generators); with a disturbance and force_at without an end (C50_disturbance_force_at). Refuted: at_end with number 0, at_end with a disturbance and number, and an exception instead of the end at till with a disturbance and force_at or a negative disturbance. The generator is resumed at its scheduled time: that is an assumption of this model (the kernel theorems C01-C07 are about it)."
  },
  {
   "property": "C51",
   "status": "partial",
   "theorems": [
    "C51_spread",
    "C51_iat_refuted",
    "C51_new_refuted"
   ],
   "note": "Proved for generators with moments or a random spread (C51_spread); refuted for iat generators that run during a reset_now, for every offset (C51_iat_refuted), and for generators made after it (C51_new_refuted)."
  },
  {
   "property": "C52",
   "status": "partial",
   "theorems": [
    "C52_moments",
    "C52_equidistant",
    "C52_spread",
    "C52_duration_refuted",
    "C52_no_till_refuted",
    "C52_force_at_refuted",
    "C52_disturbance_refuted",
    "C52_no_number_refuted"
   ],
   "note": "Proved: equidistant (C52_equidistant), random spread with till (C52_spread), moments (C52_moments). Refuted: with duration instead of till all components come at the start; a missing till is not reported; force_at with equal draws; equidistant with a disturbance or without number."
  },
  {
   "property": "C53",
   "status": "partial",
   "theorems": [
    "C53_unique",
    "C53_unique_comma",
    "C53_unique_refuted"
   ],
   "note": "Proved for names that all end with a dot (or are not given), and for names that all end with a comma; false for a mixture of both (car. and car,): C53_unique_refuted."
  },
  {
   "property": "C54",
   "status": "proved",
   "theorems": [
    "C54_ends",
    "C54_linear",
    "C54_between",
    "C54_monotone",
    "C54_swap",
    "C54_endless",
    "C54_empty_interval_refuted",
    "C54_tuple",
    "C54_searchsorted",
    "C54_interp"
   ],
   "note": "numbers, tuples, endless intervals, searchsorted, interp. For an empty interval (t0 = t1) the second value is returned also before it: C54_empty_interval_refuted."
  },
  {
   "property": "C55",
   "status": "partial",
   "theorems": [
    "C55_linspace",
    "C55_linspace_open",
    "C55_linspace_few",
    "C55_arange_up",
    "C55_arange_down",
    "C55_step_zero_refuted"
   ],
   "note": "linspace and arange as stated for steps <> 0; with step 0 arange never ends: C55_step_zero_refuted. Exact arithmetic; version without numpy."
  },
  {
   "property": "C56",
   "status": "proved",
   "theorems": [
    "C56_from",
    "C56_to",
    "C56_there_and_back",
    "C56_compose",
    "C56_additive",
    "C56_factor",
    "C56_na"
   ],
   "note": "all pairs of units; exact arithmetic"
  },
  {
   "property": "C57",
   "status": "proved",
   "theorems": [
    "C57_read_back",
    "C57_read_item",
    "C57_no_empty",
    "C57_newline_refuted",
    "C57_bool"
   ],
   "note": "For the characters of Ascii; carriage returns excluded in items. The number readers read_item_int/float are not modelled (int() and float() of Python)."
  },
  {
   "property": "C58",
   "status": "proved",
   "theorems": [
    "C58_never_raises",
    "C58_now",
    "C58_past",
    "C58_duration",
    "C58_mean",
    "C58_status",
    "C58_status_partition",
    "C58_state",
    "C58_length",
    "C58_claimed"
   ],
   "note": "Kernel model and monitor model together: whatever calls are made (also raising ones), with the tallies that the code does at each change, the monitor shows the present value, the value at any past time, time per value and time average; instances for status, state value, queue length, claimed quantity. That each assignment of a status is accompanied by a tally, at the time of the clock, is a reading of the code (status._value setter is tally; clock set first in step), not proved. The mode monitor is not modelled."
  },
  {
   "property": "C59",
   "status": "partial",
   "theorems": [
    "C59_request_kept_partial",
    "C59_wait_kept_partial",
    "C59_status_remains_refuted"
   ],
   "note": "requests and waits are kept (proved); the documented status is refuted"
  },
  {
   "property": "C60",
   "status": "partial",
   "theorems": [
    "C60_single",
    "C60_one_claimer_partial",
    "C60_refuted"
   ],
   "note": "proved for a resource with one claimer; refuted with two claimers"
  },
  {
   "property": "C61",
   "status": "partial",
   "theorems": [
    "C61_same_values",
    "C61_extremes",
    "C61_sums",
    "C61_off_refuted"
   ],
   "note": "Values, weights, extremes, sums. While a level monitor is off, a filled cache changes minimum/maximum: C61_off_refuted."
  },
  {
   "property": "C62",
   "status": "proved",
   "theorems": [
    "C62_minimum",
    "C62_maximum"
   ],
   "note": "while the monitor is on (a level monitor that is off: see C61_off_refuted)."
  },
  {
   "property": "C63",
   "status": "partial",
   "theorems": [
    "C63_pending",
    "C63_passivated",
    "C63_interrupted",
    "C63_passivate_interrupted_refuted"
   ],
   "note": "proved for components with an event, for passivate of a component that has an event or is current, and for nested interrupts; refuted for passivate of an interrupted component (C63_passivate_interrupted_refuted): the old scheduled time is used"
  },
  {
   "property": "C64",
   "status": "partial",
   "theorems": [
    "C64_covers",
    "C64_speed",
    "C64_speed_bounds",
    "C64_monotone",
    "C64_possible",
    "C64_made_possible",
    "C64_zero_length_refuted"
   ],
   "note": "All sensible arguments (positive vmax and accelerations, no negative speeds). Refused movements: C64_possible / C64_made_possible; the movement of length 0 from rest to rest is possible but raises ZeroDivisionError: C64_zero_length_refuted. Missing: the exact condition of refusal when one acceleration is infinite is only proved in the direction C64_made_possible."
  },
  {
   "property": "C65",
   "status": "partial",
   "theorems": [
    "C65_polygon",
    "C65_spec_unique",
    "C65_polygon_ends",
    "C65_polygon_no_jumps",
    "C65_circle",
    "C65_circle_radius",
    "C65_circle_ends",
    "C65_circle_no_jumps",
    "C65_polygon_length_partial",
    "C65_polygon_length_refuted",
    "C65_circle_length_raises",
    "C65_circle_length_refuted",
    "C65_standstill",
    "C65_in_trajectory"
   ],
   "note": "Position, angle, ends and absence of jumps are proved for polygons (without splines), circles and standstill. length(t) is right for circles, and for polygons only on the first piece and from the end on (C65_polygon_length_partial); refuted elsewhere: C65_polygon_length_refuted, C65_circle_length_refuted."
  },
  {
   "property": "C66",
   "status": "partial",
   "theorems": [
    "C66_totals",
    "C66_piece",
    "C66_length",
    "C66_some_piece",
    "C66_plus",
    "C66_nested_refuted"
   ],
   "note": "Merging a list of simple trajectories, and sums a + b + c + ... from the left, proved for all moments except the moments at which one piece follows another (there the code takes the previous or the next piece, which agree if the pieces connect). Refuted for sums with brackets: C66_nested_refuted."
  },
  {
   "property": "C67",
   "status": "partial",
   "theorems": [
    "C67_not_before",
    "C67_exact_partial",
    "C67_exact_skip_partial",
    "C67_only_steps",
    "C67_skip_standby_refuted",
    "C67_reset_now_refuted"
   ],
   "note": "Nothing becomes current before peek(): C67_not_before, without restriction. Exact: C67_exact_partial when the current component does not have skip_standby, C67_exact_skip_partial when it has, but no standby component is still to be resumed. The code violates it otherwise (C67_skip_standby_refuted), and peek() ignores reset_now (C67_reset_now_refuted). After run() without an end time, with nothing left, peek() is the present time (main becomes current then), not inf as its documentation says."
  },
  {
   "property": "C68",
   "status": "partial",
   "theorems": [
    "C68_number",
    "C68_level",
    "C68_level_off",
    "C68_level_before",
    "C68_durations",
    "C68_tallies",
    "C68_tally_in",
    "C68_yieldless_refuted",
    "C68_early_tally_refuted",
    "C68_off_refuted"
   ],
   "note": "Level monitors: C68_level, C68_level_off, C68_level_before (what each shows at all past moments), C68_durations. Other monitors: C68_tallies (every tally with its weight, in order), C68_tally_in. For a parent that stays on, full data. The code violates it for tallies between creation and the first activation of the period component (C68_early_tally_refuted), when the parent is turned off (C68_off_refuted), and in yieldless mode no PeriodMonitor can be made (C68_yieldless_refuted)."
  },
  {
   "property": "C69",
   "status": "partial",
   "theorems": [
    "C69_level",
    "C69_tallies",
    "C69_filters",
    "C69_tx",
    "C69_resampled",
    "C69_other_start",
    "C69_reset_now_refuted",
    "C69_resampled_reset_now_refuted",
    "C69_other_off_refuted"
   ],
   "note": "C69_level (the table read as a step function is the level at every moment, between start and now), C69_tallies, C69_filters (ex0, exoff, force_numeric), C69_tx, C69_resampled (any grid, any number of extra level monitors), C69_other_start. The code violates it after reset_now (C69_reset_now_refuted, C69_resampled_reset_now_refuted) and for an extra monitor of another type that is off (C69_other_off_refuted). as_dataframe and the pandas objects are not modelled."
  },
  {
   "property": "C70",
   "status": "partial",
   "theorems": [
    "C70_histogram",
    "C70_complete",
    "C70_autoscale",
    "C70_values",
    "C70_values_wrong",
    "C70_table",
    "C70_table_twice",
    "C70_ex0_refuted",
    "C70_table_ex0_refuted",
    "C70_wide_refuted",
    "C70_values_off_refuted",
    "C70_defaults"
   ],
   "note": "C70_histogram (bounds, counts, shares and cumulative shares of all rows, all n, low, width >= 0), C70_complete, C70_autoscale (covers everything, smallest nice width, at most 30 bins up to a range of 1.45e11), C70_values, C70_values_wrong, C70_table, C70_table_twice. The code violates it with ex0 (C70_ex0_refuted, C70_table_ex0_refuted), for very wide ranges (C70_wide_refuted), and for a level monitor just switched off (C70_values_off_refuted). The text layout (strings, bars) is not modelled; force_numeric in values() not in the theorems. C70_defaults: the parameters that are not given."
  },
  {
   "property": "C71",
   "status": "partial",
   "theorems": [
    "C71_release_partial",
    "C71_resource_release_partial",
    "C71_set_capacity_partial",
    "C71_cancel_partial",
    "C71_end_partial",
    "C71_step_partial",
    "C71_states",
    "C71_release_refuted",
    "C71_store_leave_partial",
    "C71_store_enter_partial"
   ],
   "note": "Proved, from every reachable state: State.set and State.trigger always succeed; release (of what is held), Resource.release, set_capacity, cancel, the end of a process and Environment.step succeed if no waiting component asks anonymous and other resources in one request (unmixed). Items of stores can be taken out and put in, whoever waits, unless the hand-over has no end (C30) or the waiting item is in the store already (C71_store_leave_partial, C71_store_enter_partial; without waiting putters also from_store and to_store: C83). With mixed requests it is false: C71_release_refuted (AttributeError out of a release, and a component that could be honored is not); with an item that is in the store already: C73_exception_refuted. Missing: rescan, filter and set_capacity of stores, requests that raise (C27)."
  },
  {
   "property": "C72",
   "status": "partial",
   "theorems": [
    "C72_x_map",
    "C72_x_map_statistics",
    "C72_x_map_plain",
    "C72_multiply",
    "C72_to_time_unit",
    "C72_t_multiply",
    "C72_t_multiply_statistics",
    "C72_t_multiply_refuted",
    "C72_t_multiply_reset_refuted",
    "C72_x_map_off_value_refuted",
    "C72_now_refuted"
   ],
   "note": "C72_x_map: the level at any time, any number of level monitors, also when time goes on afterwards; C72_x_map_statistics: mean, variance, duration (one monitor); C72_x_map_plain, C72_multiply, C72_to_time_unit: values, times and statistics with weight 1; C72_t_multiply, C72_t_multiply_statistics: when no entry is at just now / factor. Refuted: t_multiply with an entry at now / factor (the level is lost), t_multiply after reset_now, a value that means off in a monitor of an integer type, the value at the moment of the mapping; weights are lost (C40_multiply_refuted, C40_x_map_refuted). Missing: statistics of x_map with several monitors; functions that raise."
  },
  {
   "property": "C73",
   "status": "partial",
   "theorems": [
    "C73_no_missed_item",
    "C73_no_idle_room",
    "C73_rescan",
    "C73_filter",
    "C73_capacity",
    "C73_exception_refuted"
   ],
   "note": "Proved for all executions in which the calls about stores succeed (all other calls may raise and be caught) and in which items do not change under a waiting filter without rescan: nobody waits for an accepted item that is there, nobody waits to put an item while there is room; rescan, filter and set_capacity establish it in every reachable state. Not true after an exception of a call about a store that is caught: C73_exception_refuted. "
  },
  {
   "property": "C74",
   "status": "partial",
   "theorems": [
    "C74_same_run",
    "C74_shows_model_partial",
    "C74_pace",
    "C74_paused",
    "C74_video_partial",
    "C74_video_spacing_partial",
    "C74_synced_button_refuted",
    "C74_synced_by_process_refuted",
    "C74_video_off_refuted",
    "C74_video_spacing_refuted",
    "C74_video_speed_refuted",
    "C74_skip_standby_refuted",
    "C74_single_step_refuted",
    "C74_title_refuted"
   ],
   "note": "Proved: the same states with and without animation, for all programs, clock readings, keys and calls about the animation (C74_same_run; single steps that end the run excepted, see C74_single_step_refuted); frames show the model at the displayed time (without video if synced is not switched with the menu button or by a process, with video if animation_parameters is not called meanwhile); pace and pausing of the synced animation; spacing of video frames. The exceptions are refuted: C74_synced_button_refuted, C74_synced_by_process_refuted, C74_video_off_refuted, C74_video_spacing_refuted, C74_video_speed_refuted, C74_skip_standby_refuted, C74_single_step_refuted, C74_title_refuted. "
  },
  {
   "property": "C75",
   "status": "proved",
   "theorems": [
    "C75_unit_of_time",
    "C75_from_start",
    "C75_reported",
    "C75_time_unit"
   ],
   "note": "All calls of the kernel model, all outcomes including exceptions. Times are exact rationals: rounding of floats, which does depend on the unit, is not modelled; neither are the seconds-based animation and the monitors (for these: C72, t_multiply keeps the statistics)."
  },
  {
   "property": "C76",
   "status": "proved",
   "theorems": [
    "C76_parts_independent",
    "C76_whatever_the_others_do"
   ],
   "note": "All calls of the kernel model except standby (left out of the statement), all outcomes including exceptions; steps with an empty event list are left out. Honour conditions of resources and filters of stores are functions of the model and are the same on both sides; wait_for conditions must depend on the states of their own part only."
  },
  {
   "property": "C77",
   "status": "partial",
   "theorems": [
    "C77_ordered",
    "C77_nobody_overtakes",
    "C77_nobody_joins",
    "C77_wait_place",
    "C77_from_store_place",
    "C77_to_store_place",
    "C77_wait_for_place",
    "C77_wait_for_request_priority_refuted"
   ],
   "note": "Order of all lines, no overtaking and the place after wait, from_store, to_store (and request: C20_place): proved. The place by the given request priority is refuted for wait_for, which ignores its request_priority (C77_wait_for_request_priority_refuted); proved for the priority it does use. The place is stated for calls by the current component."
  },
  {
   "property": "C78",
   "status": "proved",
   "theorems": [
    "C78_only_order_matters",
    "C78_next_event",
    "C78_scale",
    "C78_shift_refuted"
   ],
   "note": "All calls of the kernel model, all outcomes. Priorities are rationals or inf; -inf and NaN are not modelled. Own queues of the model (Queue.enter_sorted by the user) are outside the kernel model."
  },
  {
   "property": "C79",
   "status": "partial",
   "theorems": [
    "C79_all",
    "C79_any",
    "C79_any_negative",
    "C79_honored",
    "C79_text_value_fails",
    "C79_documented_example_refuted",
    "C79_quoted_refuted",
    "C79_negative_power_refuted",
    "C79_dollar_constant_refuted",
    "C79_callable_refuted",
    "C79_either",
    "C79_both",
    "C79_not",
    "C79_range",
    "C79_nonzero",
    "C79_tuple",
    "C79_quoted_all_refuted"
   ],
   "note": "Proved: with all=True for all values (C79_all), with any for truth values and non negative integers (C79_any) and for negative ones if there is no ** (C79_any_negative), constants and functions for all values; C79_honored: one / all of the conditions; C79_either, C79_both, C79_not, C79_range, C79_nonzero, C79_tuple: usual conditions on whole numbers and tuples mean what they say. Refuted: text values in expressions raise NameError with any, also in the example of the documentation (C79_text_value_fails, C79_documented_example_refuted); with the $ in quotes the condition is never true with all=True (C79_quoted_refuted, C79_quoted_all_refuted); -3 in $**2 (C79_negative_power_refuted); constants that contain a $ (C79_dollar_constant_refuted); methods are not called (C79_callable_refuted). Modelled part of python: see WaitExpr.v; splitting a text in tokens is not modelled."
  },
  {
   "property": "C80",
   "status": "proved",
   "theorems": [
    "C80_diagram",
    "C80_asleep",
    "C80_current",
    "C80_interrupted_refuted"
   ],
   "note": "C80_diagram (all arrows), C80_asleep (data and passive components are left alone), C80_current (only a step makes current). Besides: an interrupted component that was activated with keep_request=True can be scheduled by a store without resume (C80_interrupted_refuted)."
  },
  {
   "property": "C81",
   "status": "partial",
   "theorems": [
    "C81_frame",
    "C81_removed",
    "C81_remove",
    "C81_frame_3d",
    "C81_removed_3d",
    "C81_same_objects_refuted",
    "C81_rerender_refuted",
    "C81_show_again_refuted",
    "C81_anchor_refuted",
    "C81_show_3d_refuted",
    "C81_direction_3d_refuted"
   ],
   "note": "C81_frame and C81_frame_3d (what is shown and where), C81_removed, C81_remove, C81_removed_3d. Methods that return objects they made before, show() while shown and, in three dimensions, show() after remove() are excluded, as the property does not hold for them (C81_same_objects_refuted, C81_show_again_refuted, C81_show_3d_refuted). Not modelled: what the objects look like, title position, AnimateClassic."
  },
  {
   "property": "C82",
   "status": "partial",
   "theorems": [
    "C82_name",
    "C82_word",
    "C82_numbers",
    "C82_unit",
    "C82_no_unit",
    "C82_mean",
    "C82_stream",
    "C82_external_refuted",
    "C82_case_refuted",
    "C82_parentheses_refuted",
    "C82_unit_refuted",
    "C82_mean_refuted",
    "C82_stream_refuted"
   ],
   "note": "C82_name, C82_word, C82_numbers, C82_unit, C82_no_unit, C82_stream (simple distributions), C82_mean (without time unit, not for expressions). The rest does not hold: C82_external_refuted, C82_case_refuted, C82_parentheses_refuted, C82_unit_refuted, C82_mean_refuted, C82_stream_refuted. The evaluation of the text by Python is a parameter."
  },
  {
   "property": "C83",
   "status": "partial",
   "theorems": [
    "C83_refused",
    "C83_accepted",
    "C83_all_or_nothing",
    "C83_wait_refuted",
    "C83_request_refuted",
    "C83_wait_for_refuted",
    "C83_release_refuted",
    "C83_resume_refuted",
    "C83_leave_refuted"
   ],
   "note": "C83_refused, C83_accepted, C83_all_or_nothing. Not covered by sensible: request, rescan, filter and set_capacity of stores, store calls while components wait to put. With other arguments calls stop half-way: C83_wait_refuted, C83_request_refuted, C83_wait_for_refuted, C83_release_refuted, C83_resume_refuted, C83_leave_refuted."
  },
  {
   "property": "C84",
   "status": "partial",
   "theorems": [
    "C84_forward",
    "C84_pingpong",
    "C84_repeat",
    "C84_outside",
    "C84_invalid",
    "C84_seen",
    "C84_single",
    "C84_screen",
    "C84_first_refuted",
    "C84_end_refuted",
    "C84_stays_refuted"
   ],
   "note": "C84_forward, C84_pingpong, C84_repeat, C84_outside, C84_invalid, C84_seen (all frames but the first), C84_single, C84_screen (repeated animations). Refuted: C84_first_refuted (the last frame is seen instead of the first), C84_end_refuted (the first frame flashes at the end), C84_stays_refuted (a pingpong that is over stays on the screen). Exact numbers; PIL's behaviour of seek at the end of a file is an assumption."
  },
  {
   "property": "C85",
   "status": "partial",
   "theorems": [
    "C85_frames",
    "C85_readable",
    "C85_palette_refuted",
    "C85_delay",
    "C85_slow_refuted"
   ],
   "note": "C85_frames, C85_readable, C85_delay. Refuted: C85_palette_refuted (palettes of later pictures are dropped), C85_slow_refuted (frame rates below 1). crc32 is a parameter; pictures are PNG files that are not animated themselves."
  },
  {
   "property": "C86",
   "status": "proved",
   "theorems": [
    "C86_total",
    "C86_inverse",
    "C86_probability",
    "C86_monotone",
    "C86_underflow",
    "C86_fallback",
    "C86_fallback_unique",
    "C86_mean"
   ],
   "note": "C86_inverse, C86_probability, C86_total, C86_mean, C86_monotone, C86_underflow, C86_fallback, C86_fallback_unique. Exact real numbers, not floats; the numpy branch (that does not use the random stream of the distribution) is not modelled."
  },
  {
   "property": "C87",
   "status": "partial",
   "theorems": [
    "C87_hex",
    "C87_name",
    "C87_every",
    "C87_four",
    "C87_range",
    "C87_reference",
    "C87_pair",
    "C87_sign_refuted",
    "C87_self_refuted",
    "C87_fade",
    "C87_reverse",
    "C87_tuple",
    "C87_constant",
    "C87_dark",
    "C87_forbidden",
    "C87_tuple_refuted",
    "C87_contrast",
    "C87_contrast_refuted"
   ],
   "note": "C87_hex, C87_name, C87_every, C87_four, C87_range, C87_reference, C87_pair, C87_tuple, C87_fade, C87_reverse, C87_constant, C87_contrast, C87_dark, C87_forbidden. Refuted: C87_sign_refuted, C87_self_refuted, C87_tuple_refuted, C87_contrast_refuted. Components in tuples are whole numbers; t0 is not inf."
  },
  {
   "property": "C88",
   "status": "partial",
   "theorems": [
    "C88_points",
    "C88_level",
    "C88_height",
    "C88_inside",
    "C88_now",
    "C88_scroll",
    "C88_value",
    "C88_labels",
    "C88_labels_order",
    "C88_reset_refuted",
    "C88_show",
    "C88_removed_refuted"
   ],
   "note": "C88_points, C88_level, C88_height, C88_inside, C88_now, C88_scroll, C88_value, C88_labels, C88_labels_order, C88_show. Refuted: C88_reset_refuted, C88_removed_refuted. The creation and removal of the label objects (3975-4013) is not modelled; times are rational numbers."
  },
  {
   "property": "C89",
   "status": "partial",
   "theorems": [
    "C89_value",
    "C89_tie",
    "C89_large",
    "C89_column",
    "C89_pad",
    "C89_meaning",
    "C89_count_refuted",
    "C89_column_refuted",
    "C89_inf_refuted"
   ],
   "note": "C89_value, C89_tie, C89_large, C89_column, C89_pad, C89_meaning. Refuted: C89_count_refuted, C89_column_refuted, C89_inf_refuted. An int above the limit is first converted to float by Python, which is not modelled."
  },
  {
   "property": "C90",
   "status": "partial",
   "theorems": [
    "C90_place",
    "C90_rigid",
    "C90_upright",
    "C90_inside",
    "C90_circle",
    "C90_ellipse",
    "C90_arc",
    "C90_circle_step",
    "C90_closed_partial",
    "C90_regular",
    "C90_regular_last",
    "C90_anchor",
    "C90_text_anchor",
    "C90_closed_refuted",
    "C90_regular_refuted",
    "C90_corner_refuted",
    "C90_offset_refuted",
    "C90_small_refuted",
    "C90_zoom_refuted",
    "C90_zoom"
   ],
   "note": "C90_place, C90_rigid, C90_upright, C90_inside, C90_circle, C90_ellipse, C90_arc, C90_circle_step, C90_closed_partial, C90_zoom, C90_regular, C90_regular_last, C90_anchor, C90_text_anchor. Refuted: C90_closed_refuted, C90_regular_refuted, C90_corner_refuted, C90_offset_refuted, C90_small_refuted, C90_zoom_refuted. Pixels and the rendering of images and texts are not modelled (the library turns an image around its centre)."
  },
  {
   "property": "C91",
   "status": "partial",
   "theorems": [
    "C91_once",
    "C91_sample",
    "C91_order_partial",
    "C91_mean_partial",
    "C91_order_refuted",
    "C91_mean_refuted"
   ],
   "note": "C91_once, C91_sample, C91_order_partial, C91_mean_partial. Refuted: C91_order_refuted, C91_mean_refuted. Arrays of more dimensions are not modelled."
  },
  {
   "property": "C92",
   "status": "partial",
   "theorems": [
    "C92_conversions",
    "C92_model",
    "C92_start",
    "C92_size",
    "C92_unzoom",
    "C92_zoom_partial",
    "C92_pan_partial",
    "C92_edges_partial",
    "C92_anchor",
    "C92_anchor_places",
    "C92_zoom_exact",
    "C92_pan_exact",
    "C92_zoom_refuted",
    "C92_back_refuted",
    "C92_pan_refuted",
    "C92_edges_refuted",
    "C92_change_refuted"
   ],
   "note": "C92_conversions, C92_model, C92_start, C92_size, C92_unzoom, C92_anchor, C92_anchor_places, C92_zoom_exact and C92_pan_exact (where points go, in any picture), C92_zoom_partial and C92_pan_partial (for a picture that is not zoomed yet), C92_edges_partial (without panning). Refuted: C92_zoom_refuted, C92_back_refuted, C92_pan_refuted, C92_edges_refuted, C92_change_refuted. Not modelled: 3D, Pythonista, rounding to pixels."
  },
  {
   "property": "C93",
   "status": "partial",
   "theorems": [
    "C93_same",
    "C93_fits",
    "C93_best",
    "C93_none",
    "C93_total_partial",
    "C93_total_refuted"
   ],
   "note": "C93_same, C93_fits, C93_best, C93_none (exactly which sizes fail), C93_total_partial. Refuted: C93_total_refuted. The quotients of sizes are exact in the model; the scaling of Pillow is not modelled."
  }
 ]
}