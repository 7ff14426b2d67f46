# Formal model of salabim: design

All line numbers refer to `/repo/salabim/salabim.py`.

## 1. Approach

* Shallow Gallina models that mirror the Python functions branch by branch.  Every
  definition carries a comment with the lines it mirrors.
* Python exceptions are *values*.  A method that can raise after having changed
  something returns the changed state together with the exception, so partial
  effects are visible (function type `env -> env * result`).
* Stateful parts are transition systems: a state, an initial state, operations; the
  theorems quantify over all reachable states (all finite lists of operations with all
  arguments) by induction.
* Specifications are stated with ordinary lists, sums, orders, membership - not
  with the model's helper functions.
* Random draws are inputs (every theorem about sampling quantifies over the draw).
* User code (process bodies, filters, conditions, loop bodies) is universally
  quantified: any sequence of API calls, any function.
* A property that the code does not satisfy is not weakened silently: the witness is
  proved (`..._refuted`), the finding is listed in section 5 and the strongest true
  variant is proved as well where there is one.

## 2. Files (rocq/theories)

| file | models | lines of salabim.py |
|---|---|---|
| Base.v | numbers with infinity, finite maps, list helpers | - |
| Kernel.v | event list, statuses, hold/activate/passivate/interrupt/resume/cancel/standby/remaining_duration, step, run, reset_now, request/release/honoring, resources, states/wait/wait_for/trigger, stores (from_store, to_store, rescan, filter, capacity) | 4217-4261, 5722-5809, 7083-7220, 7459-8430, 8433-9300, 9747-9800, 9983-9999, 11135-11284, 13139-13169, 13320-13413, 23713-23805, 24007-24057, 24320-24430 |
| Wp.v, Kernel[A-I,L,N-Z].v | program logic and invariants of the kernel (the first line of each file says which) | |
| QHeap.v | queue as doubly linked list of Qmembers (pointer level): all operations, iteration, statistics | 4217-4261, 4305-4336, 4890-5239, 5318-5336, 5360-5719, 9633-9844, 10040-10055 |
| QSpec.v | what the operations on queues mean on plain lists (no code) | |
| QHeapP/R/I/S.v | refinement of the linked lists by plain lists, iteration, statistics | |
| Mon.v | monitors: tally, reset, on/off, call, statistics, percentile, bins, merge, t_multiply, x_map, multiply, slice | 414-2300 |
| MonSpec.v | what a monitor is supposed to show, in terms of what was done to it (no code) | |
| MonP/Q/R.v | invariants of monitors | |
| Dist.v | distributions: construction, sample, mean; expressions of distributions | 20818-23486 |
| Gen.v | ComponentGenerator | 20439-20731 |
| Util.v | interpolate, interp, searchsorted, arange, linspace, time units, serialized names | 14298-14621, 24873-25138 |
| Item.v | ItemFile | 172-335 |
| Traj.v | trajectories over real numbers: movement, polygon, circle, standstill, merged | 5907-6972, 24964-24997, 25069-25119 |
| TrajP.v | the phases of a movement | |
| Period.v | period monitors: creation, tally, reset, change of period | 24483-24576 |
| PeriodP.v | the histories of parent and period monitors | |
| MonT.v | tables of monitors: xt, tx, resampled data, values, histograms | 2330-2364, 2434-2734, 3004-3116, 3219-3329 |
| Anim.v | the animation loop, keys and animation_parameters | 11605-11624, 11792-11810, 11822-11862, 11903-11935, 13297-13299, 13415-13586, 13813-13876, 13907-13910 |
| KernelK.v | two runs of the kernel whose times differ by unit and origin | |
| KernelPart.v | a run of the whole model and a run of one part of it alone | |
| KernelM.v | what is kept by every call if it is kept by entering and leaving lines | |
| KernelPrio.v | two runs of the kernel whose priorities are in the same order | |
| WaitExpr.v | conditions of wait: python expressions with $, _trywait | 9191-9223, 9238-9274 |
| KernelJ.v | passes over all calls: which statuses they can give to whom | (proofs) |
| AnimQ.v | AnimateQueue and Animate3dQueue: the objects on the screen from frame to frame | AnimateQueue 18304-18426, Animate3dQueue 18565-18645, animation_pre_tick_sys 10773-10775 |
| DistText.v | distributions given as text: rewriting, time unit, mean, random stream | Distribution 23371-23486 |
| Frames.v | animated images: reading, choosing a frame, making the picture again | ImageContainer.init 27681-27711, get_image 27716-27748, 15744-15778 |
| Apng.v | animated PNG: parsing, chunks, sequence numbers, frame control, pingpong | _APNG 24702-24826, video_close 12032-12040 |
| Poisson.v | Poisson distribution with real numbers | 21941-21983 |
| Colour.v | table of colours, colorspec_to_tuple, colorinterpolate, is_dark, colours of animation_parameters | 11702-11714, 13989-14092, 14144-14167, 24828-24841, 24902-24961 |
| AnimMon.v | AnimateMonitor: t_to_x, value_to_y, line, now_line, labels of update, show, remove, is_removed | 3882-3932, 3939-3972, 4023-4055 |
| Fmt.v | pad, rpad, fn and the formats they use | 25210-25218, 25228-25235 |
| Shape.v | make_pil_image for lines, polygons, rectangles and circles; regular_polygon | 15470-15707, 15741-15742, 27404-27442 |
| External.v | External: __init__, sample, mean | 23215-23265 |
| View.v | Environment: animation_parameters (scale and y1), on_mousewheel, start_pan, do_pan, unzoom, animation_pre_tick, animation_post_tick, screen and user coordinates, xy_anchor_to_x, xy_anchor_to_y | 10737-10770, 11294-11361, 11687-11700, 11801-11802, 12297-12385, 13425-13430, 13930-13981 |
| Pad.v | resize_with_pad | 25448-25469 |
| Prop*.v | the property theorems with examples, `Print Assumptions` for each | |

## 3. Trusted base

* The Coq 8.16.1 kernel (and coqchk).
* Axioms: none of our own; `Print Assumptions` is printed for every property theorem, and
  reports "Closed under the global context", except for the theorems on trajectories, Poisson samples and shapes, which use
  the axioms of the real numbers of the Coq library (section 6).
* The correspondence between the Python text and the Gallina definitions, which is by
  reading (no extraction, no execution: the sandbox cannot run the code).
* Numbers: Python floats are modelled as exact rationals `Q` plus, where the code uses it,
  `inf`.  Rounding, overflow and `nan` are *not* modelled.  Hence statements such as
  `now == t+d` mean equality of exact numbers; the 1e-8 tolerances in the code are modelled
  as they are (the rational 1/100000000).  Trajectories (Traj.v) use sqrt, cos and sin and are
  modelled over the real numbers of the Coq library.
* `heapq` is trusted to pop a minimum and to keep the multiset of entries; the event list is
  modelled as a collection from which a minimum by (time, priority, seq) is popped.
* Greenlet switching / generator resumption: a process body is any sequence of API calls
  between two scheduler steps.  In yieldless mode a call on the current component that
  reschedules it switches to the scheduler in the middle of the call; the only effect
  of the code after such a switch that matters (the retry of anonymous resources in
  8791-8792) is modelled as a continuation that is executed when the component
  resumes.
* Python dict/OrderedDict insertion order, list, bisect, sorted are taken by their
  documented meaning.

Not modelled: the drawing of animation objects (only the animation loop, Anim.v, and the objects of
AnimateQueue and Animate3dQueue, AnimQ.v, are), audio, UI, tracing and print/as_str output, pandas export,
pickling/freeze, time/datetime text formatting, threads, splines and rendered_polygon of trajectories, the random
number generators themselves, continuous samplers that call `random` (gauss, gammavariate, ...)
except for their scaling, and type coercions of arguments (strings to numbers, distributions
as arguments are assumed to be already sampled).

## 4. Properties: what is modelled and how it is proved

The first column of the two says where the model is and how the proof goes, the second what is proved, what is missing and why (the same text as the notes in MANIFEST.json).

| id | model and proof | status |
|---|---|---|
| C01 | Kernel, all operations and step; invariant "every pending event time >= now" by induction over operations, exceptions included | proved: for every sequence of calls whatsoever, including calls that raise and misuse |
| C02 | Kernel: push, pop of the minimum; selection of a minimum of the key order, sequence numbers give the order of scheduling | proved: dispatch order for every sequence of calls; order of scheduling and the meaning of urgent/priority are separate theorems |
| C03 | Kernel; inductive invariant over all operations (KernelE, L, X); witnesses for the excluded uses | proved: proved for documented use (predicate wf); four kinds of use outside it are refuted with witnesses |
| C04 | Kernel; frame argument: calls directed at others keep the event of c (KernelU, I); induction over the continuation | proved: for every reachable state (documented use) and every continuation without calls directed at the component |
| C05 | Kernel: _reschedule and its callers; case analysis for all arguments | proved: hold, activate, create, run, remaining_duration and the time limits of request, wait, from_store, to_store |
| C06 | Kernel; witnesses (the removal happens before the check) | partial: refuted for scheduled components (hold, activate, remaining_duration); proved for hold of current/passive components |
| C07 | Kernel; frame argument on top of the invariant of C03 | proved: passivate and cancel |
| C08 | Kernel: interrupt/resume; induction over the nesting and over calls in between | proved: any nesting of interrupts, any calls not directed at the component in between |
| C09 | Kernel: standby lists in step (KernelS); inductive invariant | partial: proved for executions in which no call raises and without the skip_standby situation, which is refuted with a witness |
| C10 | Kernel: run; invariant on the event of main, with C02 | proved: run(till), run(duration) and run(); no calls directed at main in between |
| C11 | Kernel; invariant on sequence numbers | proved: for every sequence of calls whatsoever |
| C12 | Kernel: reset_now (KernelO); relation between runs with different offsets | proved: shift, meaning of absolute times afterwards, and equality of all later outcomes up to the offset |
| C13 | Kernel: request/honor/release/set_capacity; every call as a series of elementary changes (KernelB), inductive invariants (KernelC) | proved: per call for any history; bounds in every reachable state when capacities are not lowered and nothing negative is released; the latter condition is shown necessary by a refutation |
| C14 | Kernel: request/honor/release/set_capacity; every call as a series of elementary changes (KernelB), inductive invariants (KernelC) | partial: equality proved for quantities that are multiples of a unit >= 1e-8 and for runs with whole releases; in general <=, equality refuted; occupancy proved except for a non-zero initial claimed quantity (refuted) |
| C15 | Kernel (KernelA, V, W, Q): what a call does to a component it is not directed at; registrations agree with the queues; induction over histories | proved: for every reachable state and call: a waiting request of a component not addressed by the call stays, is withdrawn without claims, or is honored as a whole (oneof: exactly one resource); the decision is exactly availability of all (of the first available one); a new request ends in one of these |
| C16 | Kernel (KernelA, V, W, Q): what a call does to a component it is not directed at; registrations agree with the queues; induction over histories | proved: full for all histories: C16_booked, C16_history, C16_timeout; histories are any calls (any outcome) not directed at the waiting component itself |
| C17 | Kernel (KernelA, V, W, Q): what a call does to a component it is not directed at; registrations agree with the queues; induction over histories | proved: cancel and end of process leave no claim and no queue membership; claimed quantity and claims change together; other components only gain what they asked for |
| C18 | Kernel (KernelD, F, G); inductive invariant "no pending request is grantable" | proved: ordinary resources (not preemptive, honor_only_first or honor_only_highest_priority; anonymous ones when not yieldless), no request on behalf of an interrupted component; three boundaries refuted with witnesses (interrupted, preemptive, yieldless anonymous) |
| C19 | Kernel, KernelD (retry loop), PropHead; witnesses | partial: the property in full does not hold: refuted with witnesses for honor_only_first and honor_only_highest_priority (the requester that becomes first is not tried); proved instead, in every reachable state: a release and a set_capacity serve the requester that is first in line (of this one resource), or leave no room for it |
| C20 | Kernel; the order of the requesters queue as invariant, two components compared along any continuation | proved: queue order in every reachable state, place of a newcomer, no overtaking over any continuation, honor_only_first; executions without requests on behalf of interrupted components |
| C21 | Kernel: preemption branch of request; characterisation and witnesses | partial: who may be bumped and that they are the last ones of the claimers queue is proved; minimality and not bumping in vain are refuted; what happens instead is characterised (C21_bumps_all) |
| C22 | Kernel: mutual recursion with fuel (KernelH); measure: number of pending requests | proved: every call that can set off retries ends, and honors each component at most once, from every reachable state |
| C23 | Kernel: request; for all states and argument lists | partial: refuted: naming a resource twice always raises ValueError (proved for all states and argument lists) |
| C24 | Kernel: states (KernelY); inductive invariant, exact description of the loop over the waiters | proved: for every reachable state in which wait is not called on behalf of an interrupted component (refuted with a witness otherwise); wait_for for conditions on the listed states only (refuted otherwise) |
| C25 | Kernel: states (KernelY); inductive invariant, exact description of the loop over the waiters | proved: wait and wait_for, any/all, at once and later; time-outs are C16 |
| C26 | Kernel: states (KernelY); inductive invariant, exact description of the loop over the waiters | partial: proved for max >= 1 and no maximum; max=0 honors every ready component (refuted) |
| C27 | Kernel: stores (KernelN, Z); inductive invariants, account of all items per call and over executions; witness of the endless recursion | partial: Every successful call (any reachable state) keeps a full account of items: what is in the stores, what left, and who received what; receivers distinct, each waited for the store and accepts the item (C27_conserved); summed over executions (C27_history), an item is in one place (C27_one_place). For rescan()/filter() this needs that every waiting requester accepts at most one item; without it the property is false: rescan drops an item (C27_rescan_refuted). Calls that end in an exception half-way are not covered. |
| C28 | Kernel: stores (KernelN, Z); inductive invariants, account of all items per call and over executions; witness of the endless recursion | proved: Available quantity = capacity - contents in all states, also after failed calls; entering beyond capacity raises QueueFull and changes nothing; to_store waits; contents within capacity whenever an item comes in, and always as long as the capacity is not lowered. |
| C29 | Kernel: stores (KernelN, Z); inductive invariants, account of all items per call and over executions; witness of the endless recursion | partial: First accepting requester gets the item, first putter gets the room, from_store picks first accepted item / lowest key from one store. With key and several stores it raises ValueError unless the lowest is in the last store: C29_key_refuted, C29_key_last_partial. |
| C30 | Kernel: stores (KernelN, Z); inductive invariants, account of all items per call and over executions; witness of the endless recursion | partial: False in general: C30_refuted (reachable state in which leave never returns). C30_leave/C30_enter characterise exactly when that happens; otherwise the call needs at most three nested calls. from_store/to_store/rescan/set_capacity: only through these two. |
| C31 | QHeap; refinement of the linked lists by plain lists | proved: Linked-list model refined to plain lists for every operation, incl. failing ones; reading (forward, backward, head, tail, successor, predecessor, index, ints, slices) agrees with that list. C31_kernel_queues relates it to the queues of the kernel model. |
| C32 | QHeap; refinement of the linked lists by plain lists | partial: Proved for all the operations of the statement (C32_sorted, C32_first_come_first_served, C32_new_priority). insert (outside the statement) at the end can break the order: C32_insert_at_end_refuted. |
| C33 | QHeap; refinement of the linked lists by plain lists | proved: errors change nothing, for every operation except extend, copy, move, set operations (which are sequences of enters) |
| C34 | QHeap with its tallies; induction over the history | proved: integral of length = departed stays + present stays, arrivals - departures = length; enter times are right; leave tallies the stay |
| C35 | QHeap: the generator as state machine interleaved with any other operations; invariant | proved: exact: the next component is the first in the queue not given since it entered; generator may be interleaved with any other operations |
| C36 | QHeap; list induction | partial: Proved for union, intersection, difference, symmetric_difference, copy, move, extend, and extend with clear_source from another queue (C36_extend_clearing; C36_extend_full: when it does not fit, the source keeps its components). Refuted: copy(copy_capacity=True) of a queue longer than its capacity raises and leaves half a queue (C36_copy_capacity_refuted); extend(self, clear_source=True) of a queue with itself loses all components (C36_extend_self_refuted). |
| C37 | Mon against MonSpec; induction over everything done to the monitor | partial: Level monitors with full monitoring: past moments, now, on, all lookups. While the monitor is off, m(now) gives the last tallied value instead of off: C37_off_now_refuted. A tally rejected by the type still becomes the value: C37_rejected_refuted. |
| C38 | Mon against MonSpec; induction over everything done to the monitor | partial: Full level monitors: duration, ex0, value_duration, bin_duration, partition, mean. duration() of a stats_only level monitor misses the time since the last tally: C38_stats_only_refuted. |
| C39 | Mon against MonSpec; induction over everything done to the monitor | partial: Mean, variance, number of entries and weight of a stats_only monitor agree with those of a full monitor. Not for zero weights (C39_zero_weight_refuted) and not for the extremes of a level monitor (C39_level_maximum_refuted). |
| C40 | Mon against MonSpec; induction over everything done to the monitor | partial: Values, weights, times, entries, mean, variance. Refuted: a rejected weighted tally (C40_rejected_refuted), scaling (C40_multiply_refuted) and x_map (C40_x_map_refuted) lose or shift weights. |
| C41 | Mon against MonSpec; induction over everything done to the monitor | proved: number of entries, weights and durations over any sorted list of bin bounds add up to the totals. |
| C42 | Mon: percentile; induction over sorted lists of values with weights | proved: For every q, every interpolation method and every recorded history: at 0 and 100 the percentile is minimum()/maximum(), in between it lies between them and never decreases in q, it exists as soon as there is weight, it is a quantile of the distribution (weight below it <= q% of the weight <= weight up to it; for unweighted monitors the rank version), and without interpolation it is one of the tallied values. Assumes non-negative weights, and not the method 'nearest' on weighted data (the code raises there). |
| C43 | Mon: merge, slice; induction over the merged lists | partial: non-level: entries, order, weights and all statistics proved for all monitors; level: value at every earlier time proved for monitors with the same off value; refuted: value at the present time (always 0), off value of an integer type mixed with type any, overflow of integer types |
| C44 | Mon: merge, slice; induction over the merged lists | partial: proved: non-level slices with and without stop (entries, weights, statistics), modulo slices with a window that does not contain a multiple of modulo, levels of slices of a monitor that is on before the stop (or off throughout); offset 0. Refuted: start not given (TypeError), stop later than now, after reset_now, monitor off at the stop, slice of a slice, modulo with a window over a multiple |
| C45 | Dist; for all sources of random numbers, induction over the list of values | partial: Proved for positive draws for Pdf, Pmf and CumPdf (value returned is the one whose interval of cumulative probability holds the draw, so never one of probability 0) and for samples without replacement. Refuted at the draw 0.0, which random.random() may return: the sample is then 0 whatever the values (C45_zero_refuted, C45_cum_zero_refuted); nested distributions are sampled, except in an expression or a list of samples (C45_unsampled_refuted, C45_expression_refuted). |
| C46 | Dist: Cdf; the draws with a sample <= x form an interval | proved: Any draw gives the linear interpolation, samples lie in the specified range, and the set of draws with sample <= x_i is an interval of length the specified cumulative value (C46_fraction). |
| C47 | Dist; for all sources of random numbers, induction over the list of values | partial: Proved with a bounded number of tries and a given fail value (C47_bounded), and the first accepted sample when there is one (C47_unbounded); refuted for the default fail value, which is the lower bound also if that is excluded (C47_default_refuted), and for fail values with a time unit (C47_fail_unit_refuted). |
| C48 | Dist; average over the draws as iterated Darboux integrals | partial: C48_mean: for Uniform, Cdf, Pdf, CumPdf, Constant and sums, differences and products with a number of them, mean() is the average of sample() over all draws in [0,1)^k, in the sense of iterated Darboux integrals; C48_int and C48_equal for discrete uniform; C48_unit_sample/_mean: time units. C48_expected: when the library generator returns the expected value for the parameters it is given, sample() returns mean() for the distributions in which the sample depends linearly on the draw. Refuted: Constant with a time unit (mean scaled twice), Erlang (divided), nested distributions with a time unit. Missing: means of Exponential, Normal, Gamma, Weibull and Beta, whose samples are transcendental functions of the draws (no reals in the model); Distribution(...) wrapper; Poisson and External. |
| C49 | Dist; for all sources of random numbers, induction over the list of values | proved: For Uniform, IntUniform, Triangular and Constant with any source of random numbers in [0,1). |
| C50 | Gen; induction over the resumptions | partial: Proved without reset_now, for nonnegative inter arrival times: arrivals (also with a nonnegative disturbance), and at_end exactly once, as the last thing that is done (C50_at_end_last, for all generators); with a disturbance and force_at without an end (C50_disturbance_force_at). Refuted: at_end with number 0, at_end with a disturbance and number, and an exception instead of the end at till with a disturbance and force_at or a negative disturbance. The generator is resumed at its scheduled time: that is an assumption of this model (the kernel theorems C01-C07 are about it). |
| C51 | Gen; induction over the resumptions | partial: Proved for generators with moments or a random spread (C51_spread); refuted for iat generators that run during a reset_now, for every offset (C51_iat_refuted), and for generators made after it (C51_new_refuted). |
| C52 | Gen; induction over the resumptions | partial: Proved: equidistant (C52_equidistant), random spread with till (C52_spread), moments (C52_moments). Refuted: with duration instead of till all components come at the start; a missing till is not reported; force_at with equal draws; equidistant with a disturbance or without number. |
| C53 | Util; induction | partial: Proved for names that all end with a dot (or are not given), and for names that all end with a comma; false for a mixture of both (car. and car,): C53_unique_refuted. |
| C54 | Util; induction | proved: numbers, tuples, endless intervals, searchsorted, interp. For an empty interval (t0 = t1) the second value is returned also before it: C54_empty_interval_refuted. |
| C55 | Util; induction | partial: linspace and arange as stated for steps <> 0; with step 0 arange never ends: C55_step_zero_refuted. Exact arithmetic; version without numpy. |
| C56 | Util; induction | proved: all pairs of units; exact arithmetic |
| C57 | Item; induction over the written text | proved: For the characters of Ascii; carriage returns excluded in items. The number readers read_item_int/float are not modelled (int() and float() of Python). |
| C58 | Kernel and Mon together; induction over calls | proved: Kernel model and monitor model together: whatever calls are made (also raising ones), with the tallies that the code does at each change, the monitor shows the present value, the value at any past time, time per value and time average; instances for status, state value, queue length, claimed quantity. That each assignment of a status is accompanied by a tally, at the time of the clock, is a reading of the code (status._value setter is tally; clock set first in step), not proved. The mode monitor is not modelled. |
| C59 | Kernel; case analysis / witnesses | partial: requests and waits are kept (proved); the documented status is refuted |
| C60 | Kernel; case analysis / witnesses | partial: proved for a resource with one claimer; refuted with two claimers |
| C61 | Mon against MonSpec; induction over everything done to the monitor | partial: Values, weights, extremes, sums. While a level monitor is off, a filled cache changes minimum/maximum: C61_off_refuted. |
| C62 | Mon against MonSpec; induction over everything done to the monitor | proved: while the monitor is on (a level monitor that is off: see C61_off_refuted). |
| C63 | Kernel; case analysis / witnesses | partial: proved for components with an event, for passivate of a component that has an event or is current, and for nested interrupts; refuted for passivate of an interrupted component (C63_passivate_interrupted_refuted): the old scheduled time is used |
| C64 | Traj over the real numbers: the three phases; distance over each phase is mean speed times duration (TrajP, PropTraj) | partial: All sensible arguments (positive vmax and accelerations, no negative speeds). Refused movements: C64_possible / C64_made_possible; the movement of length 0 from rest to rest is possible but raises ZeroDivisionError: C64_zero_length_refuted. Missing: the exact condition of refusal when one acceleration is infinite is only proved in the direction C64_made_possible. |
| C65 | Traj: induction on the points (PropTrajB); triangle inequality and chord <= arc for the speed bound | partial: Position, angle, ends and absence of jumps are proved for polygons (without splines), circles and standstill. length(t) is right for circles, and for polygons only on the first piece and from the end on (C65_polygon_length_partial); refuted elsewhere: C65_polygon_length_refuted, C65_circle_length_refuted. |
| C66 | Traj: induction on the pieces, from the end for sums of sums (PropTrajC) | partial: Merging a list of simple trajectories, and sums a + b + c + ... from the left, proved for all moments except the moments at which one piece follows another (there the code takes the previous or the next piece, which agree if the pieces connect). Refuted for sums with brackets: C66_nested_refuted. |
| C67 | Kernel + peek (PropPeek): case analysis of a step with the standby invariant SB of KernelS; frame lemmas for the clock | partial: Nothing becomes current before peek(): C67_not_before, without restriction. Exact: C67_exact_partial when the current component does not have skip_standby, C67_exact_skip_partial when it has, but no standby component is still to be resumed. The code violates it otherwise (C67_skip_standby_refuted), and peek() ignores reset_now (C67_reset_now_refuted). After run() without an end time, with nothing left, peek() is the present time (main becomes current then), not inf as its documentation says. |
| C68 | Period: PeriodMonitor on top of the monitor model (Mon), the period component as an event at its scheduled time (PChange is enabled exactly at the end of the period, the clock does not pass it). PeriodP: the history of the parent against those of the monitors per period (invariant over all interleavings); theorems through C37_past, C38_duration, C38_value_duration, C40_weights | partial: Level monitors: C68_level, C68_level_off, C68_level_before (what each shows at all past moments), C68_durations. Other monitors: C68_tallies (every tally with its weight, in order), C68_tally_in. For a parent that stays on, full data. The code violates it for tallies between creation and the first activation of the period component (C68_early_tally_refuted), when the parent is turned off (C68_off_refuted), and in yieldless mode no PeriodMonitor can be made (C68_yieldless_refuted). |
| C69 | MonT: xt and tx 3004-3116, as_resampled_dataframe 3219-3329 (the index advances along each of the monitors) on top of the monitor model. Proved with the invariants Lev and Pla (MonP) for all traced histories; the grid through the model of arange | partial: C69_level (the table read as a step function is the level at every moment, between start and now), C69_tallies, C69_filters (ex0, exoff, force_numeric), C69_tx, C69_resampled (any grid, any number of extra level monitors), C69_other_start. The code violates it after reset_now (C69_reset_now_refuted, C69_resampled_reset_now_refuted) and for an extra monitor of another type that is off (C69_other_off_refuted). as_dataframe and the pandas objects are not modelled. |
| C70 | MonT: histogram_autoscale 2330-2364, print_histogram 2434-2672 (the numbers of the rows, not the text), values 2674-2734. Bins and shares through area (time integral or sum of weights of a history), by induction over the rows; autoscale: first width in the climbing list; values: uniqueness and insertion sort; the table by counting each observed value in exactly one row | partial: C70_histogram (bounds, counts, shares and cumulative shares of all rows, all n, low, width >= 0), C70_complete, C70_autoscale (covers everything, smallest nice width, at most 30 bins up to a range of 1.45e11), C70_values, C70_values_wrong, C70_table, C70_table_twice. The code violates it with ex0 (C70_ex0_refuted, C70_table_ex0_refuted), for very wide ranges (C70_wide_refuted), and for a level monitor just switched off (C70_values_off_refuted). The text layout (strings, bars) is not modelled; force_numeric in values() not in the theorems. C70_defaults: the parameters that are not given. |
| C71 | kernel model (release, Resource.release, set_capacity, cancel, terminate, step, states). No error out of Component._tryrequest under the invariants of queues and event list; the loop over the requesters by induction: the next member stays in the line, as the others' requests are untouched unless anonymous resources are retried; with C22_ends (every cascade ends) this gives a normal end for all fuels large enough | partial: Proved, from every reachable state: State.set and State.trigger always succeed; release (of what is held), Resource.release, set_capacity, cancel, the end of a process and Environment.step succeed if no waiting component asks anonymous and other resources in one request (unmixed). Items of stores can be taken out and put in, whoever waits, unless the hand-over has no end (C30) or the waiting item is in the store already (C71_store_leave_partial, C71_store_enter_partial; without waiting putters also from_store and to_store: C83). With mixed requests it is false: C71_release_refuted (AttributeError out of a release, and a component that could be honored is not); with an item that is in the store already: C73_exception_refuted. Missing: rescan, filter and set_capacity of stores, requests that raise (C27). |
| C72 | Mon (x_map, multiply, t_multiply) and PropMonG (x_map with several monitors 688-742, to_time_unit 1564-1566). x_map: invariant of the loop over the merged entries: the new entries read as the function of the last entries of all monitors up to that time; statistics from the time integral of the history; t_multiply: the entries and durations are scaled | partial: C72_x_map: the level at any time, any number of level monitors, also when time goes on afterwards; C72_x_map_statistics: mean, variance, duration (one monitor); C72_x_map_plain, C72_multiply, C72_to_time_unit: values, times and statistics with weight 1; C72_t_multiply, C72_t_multiply_statistics: when no entry is at just now / factor. Refuted: t_multiply with an entry at now / factor (the level is lost), t_multiply after reset_now, a value that means off in a monitor of an integer type, the value at the moment of the mapping; weights are lost (C40_multiply_refuted, C40_x_map_refuted). Missing: statistics of x_map with several monitors; functions that raise. |
| C73 | Kernel, KernelZ, KernelN, PropStoreB. Invariant of all executions in which the calls about stores succeed: every change of the contents of a store and of its lines keeps both statements (item_enter/item_leave by their exact effect, the loops of rescan and _rescan_to by induction over the line); rescan, filter and a larger capacity establish it in any reachable state | partial: Proved for all executions in which the calls about stores succeed (all other calls may raise and be caught) and in which items do not change under a waiting filter without rescan: nobody waits for an accepted item that is there, nobody waits to put an item while there is room; rescan, filter and set_capacity establish it in every reachable state. Not true after an exception of a call about a store that is caught: C73_exception_refuted.  |
| C74 | Anim, PropAnim. The loop, the keys and animation_parameters are modelled on top of the kernel; the program is an arbitrary function from turns and states to calls. same_run: induction over animated executions, each state is that of the simulation without animation after as many turns. Frames: invariant that the clock of the animation does not stand before the simulation, with C67 (peek) for the inner loop; video: the same with the video time, and the spacing by induction over the frames | partial: Proved: the same states with and without animation, for all programs, clock readings, keys and calls about the animation (C74_same_run; single steps that end the run excepted, see C74_single_step_refuted); frames show the model at the displayed time (without video if synced is not switched with the menu button or by a process, with video if animation_parameters is not called meanwhile); pace and pausing of the synced animation; spacing of video frames. The exceptions are refuted: C74_synced_button_refuted, C74_synced_by_process_refuted, C74_video_off_refuted, C74_video_spacing_refuted, C74_video_speed_refuted, C74_skip_standby_refuted, C74_single_step_refuted, C74_title_refuted.  |
| C75 | Relational proof over the whole kernel (KernelK.v): two states correspond (`env_onto k d`) when now, offset, event times, scheduled times are related by t' == k*t + d, remaining durations by r' == k*r, and all else is equal; one lemma per kernel function that corresponding calls in corresponding states have the same outcome and lead to corresponding states; induction over the list of calls (PropScale.v). The link to env.hours(..) etc. and to_time_unit is through C56. | proved: All calls of the kernel model, all outcomes including exceptions. Times are exact rationals: rounding of floats, which does depend on the unit, is not modelled; neither are the seconds-based animation and the monitors (for these: C72, t_multiply keeps the statistics). |
| C76 | Relational proof over the whole kernel (KernelPart.v): `parts s t` relates a state s of the whole model to a state t of our part alone: all fields of our components, resources, states and stores are equal, our events are paired in the two event lists with the same time, priority and component and the same order of sequence numbers (the numbers themselves differ), no component refers to anything of the other part, and the clocks agree whenever one of ours is current. One lemma per kernel function: a call on our part has the same outcome on both sides and keeps the relation, a call on the other part keeps it with t unchanged. The step (PropPart.v): the next event of the whole is ours only if it is paired with the next event of our part. Induction over the calls; `separate` is the condition that every call stays within a part. | proved: All calls of the kernel model except standby (left out of the statement), all outcomes including exceptions; steps with an empty event list are left out. Honour conditions of resources and filters of stores are functions of the model and are the same on both sides; wait_for conditions must depend on the states of their own part only. |
| C77 | KernelM.v: whatever is kept by entering a line with ins_sorted (enter_sorted), leaving it, and by changes that do not touch lines, is kept by every call, with a parameter for who may enter. Used with 'every line stays ordered' (C77_ordered, induction over the calls) and with 'the others of the line after the call are a subsequence of the others before' (C77_nobody_overtakes, C77_nobody_joins). The place of a newcomer by weakest preconditions of wait, wait_for, from_store and to_store (request: C20_place) and the lemma on ins_sorted in an ordered line. | partial: Order of all lines, no overtaking and the place after wait, from_store, to_store (and request: C20_place): proved. The place by the given request priority is refuted for wait_for, which ignores its request_priority (C77_wait_for_request_priority_refuted); proved for the priority it does use. The place is stated for calls by the current component. |
| C78 | Relational proof over the whole kernel (KernelPrio.v): `env_prio g s t` says that t is s with g applied to the priorities in the event list, in all queues and in the pending to_store calls. One lemma per kernel function; the comparisons are those of the event list (`ge_lt`), of entering a queue (`gl_sorted`, `gl_at`), of honor_only_highest_priority (`geq`) and of bumping (`gl_bump`). Internal calls use priority 0, for which g 0 = 0 is needed: `C78_shift_refuted` shows that it cannot be left out. Induction over the calls in PropRank.v. | proved: All calls of the kernel model, all outcomes. Priorities are rationals or inf; -inf and NaN are not modelled. Own queues of the model (Queue.enter_sorted by the user) are outside the kernel model. |
| C79 | WaitExpr.v: python values, a recursive descent parser for python expressions over tokens, their evaluation with exceptions, the substitution of $ by the tokens of str(value) (9268) or by state._value (9252), the choice between constant, expression and function (9218-9223) and the two loops of _trywait (9243-9274). PropWaitX.v: replacing $ by one token commutes with parsing (`parse_map`, induction over the fuel, all grammar rules), replacing it by a sign and a number does if there is no ** (`parse_two`, with one more unit of fuel); then evaluation by induction over the expression. | partial: Proved: with all=True for all values (C79_all), with any for truth values and non negative integers (C79_any) and for negative ones if there is no ** (C79_any_negative), constants and functions for all values; C79_honored: one / all of the conditions; C79_either, C79_both, C79_not, C79_range, C79_nonzero, C79_tuple: usual conditions on whole numbers and tuples mean what they say. Refuted: text values in expressions raise NameError with any, also in the example of the documentation (C79_text_value_fails, C79_documented_example_refuted); with the $ in quotes the condition is never true with all=True (C79_quoted_refuted, C79_quoted_all_refuted); -3 in $**2 (C79_negative_power_refuted); constants that contain a $ (C79_dollar_constant_refuted); methods are not called (C79_callable_refuted). Modelled part of python: see WaitExpr.v; splitting a text in tokens is not modelled. |
| C80 | KernelJ.v: three passes over all calls: RJ (whoever is not called keeps the status or becomes scheduled), RO (the calls that touch nobody else, with the exact statuses they give), RN (a component in no line keeps its status in whatever is done by others, and in release, filter and cancel by itself), n_step/c_step for the scheduler. PropDiagram.v: the diagram as a relation of its own, proved from these with the invariants of the reachable states (idle components are in no line, events belong to scheduled, requesting or waiting components). | proved: C80_diagram (all arrows), C80_asleep (data and passive components are left alone), C80_current (only a step makes current). Besides: an interrupted component that was activated with keep_request=True can be scheduled by a store without resume (C80_interrupted_refuted). |
| C81 | AnimQ.v models update, show and remove of both classes with the screen as a set of objects, the dict current_aos and the call of animation_objects as an arbitrary method of component and call number. PropAnimQ.v: invariant of the loop (the own objects on the screen are those of the previous and of the current dict, all distinct), then over all executions. | partial: C81_frame and C81_frame_3d (what is shown and where), C81_removed, C81_remove, C81_removed_3d. Methods that return objects they made before, show() while shown and, in three dimensions, show() after remove() are excluded, as the property does not hold for them (C81_same_objects_refuted, C81_show_again_refuted, C81_show_3d_refuted). Not modelled: what the objects look like, title position, AnimateClassic. |
| C82 | DistText.v models the rewriting of the text on lists of characters (upper, strip, split, join, replace), with eval as a parameter, and sample with two random streams. PropDistText.v: lemmas on split/join/strip for all texts; the table of names with the letters they need is checked against the order of the code by computation and lifted to all texts. | partial: C82_name, C82_word, C82_numbers, C82_unit, C82_no_unit, C82_stream (simple distributions), C82_mean (without time unit, not for expressions). The rest does not hold: C82_external_refuted, C82_case_refuted, C82_parentheses_refuted, C82_unit_refuted, C82_mean_refuted, C82_stream_refuted. The evaluation of the text by Python is a parameter. |
| C83 | PropRefuse.v: forbidden lists the situations, sensible the conditions on the arguments. Refusals: computation of the call on an arbitrary state, with the invariant that the claimers of a resource are those with a claim. Acceptance: each call is stepped with the event list, queue and registration invariants (EI, GI), under which none of the raising branches can be taken; the calls on resources use the safety theorems of C71. | partial: C83_refused, C83_accepted, C83_all_or_nothing. Not covered by sensible: request, rescan, filter and set_capacity of stores, store calls while components wait to put. With other arguments calls stop half-way: C83_wait_refuted, C83_request_refuted, C83_wait_for_refuted, C83_release_refuted, C83_resume_refuted, C83_leave_refuted. |
| C84 | Frames.v models the reading loop (with the opened file itself as first picture), get_image with the python remainder, and the test on the number of the picture. PropFrames.v: the loop by induction gives all end times; choosing by induction over the frames; periodicity from the floor function; the screen by an invariant (a number tells its picture) over all sequences of moments. | partial: C84_forward, C84_pingpong, C84_repeat, C84_outside, C84_invalid, C84_seen (all frames but the first), C84_single, C84_screen (repeated animations). Refuted: C84_first_refuted (the last frame is seen instead of the first), C84_end_refuted (the first frame flashes at the end), C84_stays_refuted (a pingpong that is over stays on the screen). Exact numbers; PIL's behaviour of seek at the end of a file is an assumption. |
| C85 | Apng.v models reading and writing on bytes (struct.pack/unpack, slices), with errors as None. PropApng.v: a small specification of the format and of a player; reading by induction over the chunks (round trip of encode), writing by induction over the chunks and the pictures with the sequence number as accumulator, then the player is run on the result by induction. | partial: C85_frames, C85_readable, C85_delay. Refuted: C85_palette_refuted (palettes of later pictures are dropped), C85_slow_refuted (frame rates below 1). crc32 is a parameter; pictures are PNG files that are not animated themselves. |
| C86 | Poisson.v models both loops with real numbers; comparison with Rlt_dec. PropPoisson.v: the term of the loop is the probability by induction, the sum the cumulative probability; the series of exp gives the sum 1 and so the end of the loop; logarithms of products for the other method. | proved: C86_inverse, C86_probability, C86_total, C86_mean, C86_monotone, C86_underflow, C86_fallback, C86_fallback_unique. Exact real numbers, not floats; the numpy branch (that does not use the random stream of the distribution) is not modelled. |
| C87 | Colour.v contains the table of names and models the functions on texts, tuples and None, with int(.., 16) as in Python (spaces and signs) and recursion with fuel. PropColour.v: hexadecimal notation and spelling as separate specifications; induction over texts and fuel; facts on the table by computation over the whole table; Z.quot for int(). | partial: C87_hex, C87_name, C87_every, C87_four, C87_range, C87_reference, C87_pair, C87_tuple, C87_fade, C87_reverse, C87_constant, C87_contrast, C87_dark, C87_forbidden. Refuted: C87_sign_refuted, C87_self_refuted, C87_tuple_refuted, C87_contrast_refuted. Components in tuples are whole numbers; t0 is not inf. |
| C88 | AnimMon.v models t_to_x (with done), value_to_y, line, now_line, the labels of update, show, remove and is_removed with rational numbers. PropAnimMon.v: the visible periods of the history as a separate specification; induction over the tallies from now backwards. | partial: C88_points, C88_level, C88_height, C88_inside, C88_now, C88_scroll, C88_value, C88_labels, C88_labels_order, C88_show. Refuted: C88_reset_refuted, C88_removed_refuted. The creation and removal of the label objects (3975-4013) is not modelled; times are rational numbers. |
| C89 | Fmt.v models fn, pad and rpad with the formats d, s, f and e of Python (round half to even on the exact value). PropFmt.v: numerals as a separate specification, with a proof that a numeral has one meaning; induction over digits and exponents, rational arithmetic. | partial: C89_value, C89_tie, C89_large, C89_column, C89_pad, C89_meaning. Refuted: C89_count_refuted, C89_column_refuted, C89_inf_refuted. An int above the limit is first converted to float by Python, which is not modelled. |
| C90 | Shape.v models the calculation of points, image and place with real numbers. PropShape.v: place and turn as a separate specification; trigonometric identities, induction over points and over the angles of an arc. | partial: C90_place, C90_rigid, C90_upright, C90_inside, C90_circle, C90_ellipse, C90_arc, C90_circle_step, C90_closed_partial, C90_zoom, C90_regular, C90_regular_last, C90_anchor, C90_text_anchor. Refuted: C90_closed_refuted, C90_regular_refuted, C90_corner_refuted, C90_offset_refuted, C90_small_refuted, C90_zoom_refuted. Pixels and the rendering of images and texts are not modelled (the library turns an image around its centre). |
| C91 | External.v models the stock of samples with the replies of the distribution as a function of the number of the call. PropExternal.v: what was returned as a separate specification; induction over calls and samples, permutations. | partial: C91_once, C91_sample, C91_order_partial, C91_mean_partial. Refuted: C91_order_refuted, C91_mean_refuted. Arrays of more dimensions are not modelled. |
| C92 | View.v models the coordinates of the environment and the mouse events, with drawing as pre_tick followed by post_tick. PropView.v: where a point is shown is its screen coordinate while drawing; induction over the sequence of events and over the notches. | partial: C92_conversions, C92_model, C92_start, C92_size, C92_unzoom, C92_anchor, C92_anchor_places, C92_zoom_exact and C92_pan_exact (where points go, in any picture), C92_zoom_partial and C92_pan_partial (for a picture that is not zoomed yet), C92_edges_partial (without panning). Refuted: C92_zoom_refuted, C92_back_refuted, C92_pan_refuted, C92_edges_refuted, C92_change_refuted. Not modelled: 3D, Pythonista, rounding to pixels. |
| C93 | Pad.v models the sizes and the place of the scaled picture, with Python's rounding, and the pixels of the result. PropPad.v: what is shown where as a separate specification; integer arithmetic on rounded quotients. | partial: C93_same, C93_fits, C93_best, C93_none (exactly which sizes fail), C93_total_partial. Refuted: C93_total_refuted. The quotients of sizes are exact in the model; the scaling of Pillow is not modelled. |

## 5. Findings

Each of these is a theorem about the model with a concrete witness (and follows from reading the cited code). "Documented" means: stated in the docstring or manual.

Scheduling
* A rejected hold, activate or remaining_duration (time in the past) leaves a scheduled component without its event: C06_hold_refuted, C06_activate_refuted, C06_remaining_refuted (the removal, 7524-7532, comes before the check).
* With a component with skip_standby=True, a standby component can be dropped from both standby lists: C09_skip_standby_refuted.
* remaining_duration(value) on a data component, request() without arguments, run() inside of run(), and a request that bumps its own component leave two events, or an event of a component that is not scheduled: C03_remaining_on_data_refuted, C03_empty_request_refuted, C03_nested_run_refuted, C03_self_bump_refuted.
* activate(keep_request=True) makes the status scheduled, documented is requesting: C59_status_remains_refuted.
* passivate of an interrupted component computes the remaining duration from an old scheduled time: C63_passivate_interrupted_refuted.

Resources
* Releasing a negative quantity claims more than the capacity: C13_negative_release_refuted.
* Claims below 1e-8 are dropped from the administration of the component but not from the resource: C14_sum_refuted. With a non-zero initial claimed quantity the occupancy monitor starts at 0: C14_occupancy_refuted.
* A grantable request can stay waiting: on behalf of an interrupted component, with preemptive resources, in yieldless mode with anonymous resources: C18_interrupted_refuted, C18_preemptive_refuted, C18_yieldless_refuted; with honor_only_first or honor_only_highest_priority: C19_first_refuted, C19_highest_refuted.
* Preemption bumps more claimers than needed, and also when the request can not succeed: C21_minimal_refuted, C21_hopeless_refuted.
* Naming a resource twice in a request raises ValueError, documented is that the quantities are added: C23_refuted.
* resource.release() also takes the claim of a component whose request was honored during this call: C60_refuted.

States and stores
* trigger(max=0) honors every waiting component: C26_max_zero_refuted.
* A component that is told to wait while interrupted, or waits with a condition on a state that is not listed, is not woken up: C24_interrupted_refuted, C24_unlisted_refuted.
* Store.rescan / filter can hand over the same item twice: C27_rescan_refuted.
* from_store with key and several stores raises ValueError unless the lowest key is in the last store: C29_key_refuted.
* Leaving a store can recurse forever: C30_refuted.

Queues
* insert at the end with the default priority can break the order: C32_insert_at_end_refuted. copy(copy_capacity=True) of a queue longer than its capacity raises halfway: C36_copy_capacity_refuted.

Monitors
* While a level monitor is off, m(now) is the last tallied value: C37_off_now_refuted. A tally that the type rejects still becomes the value: C37_rejected_refuted; a rejected weighted tally shifts later weights: C40_rejected_refuted.
* duration() of a stats_only level monitor misses the time since the last tally: C38_stats_only_refuted. stats_only monitors: zero weights and extremes of levels differ: C39_zero_weight_refuted, C39_level_maximum_refuted.
* multiply and x_map lose the weights: C40_multiply_refuted, C40_x_map_refuted.
* While a monitor is off, asking a statistic earlier changes the maximum: C61_off_refuted.
* Merged level monitors: value now is 0, off value of an integer type treated as a number when mixed with type any, overflow of integer types: C43_now_refuted, C43_mixed_refuted, C43_overflow_refuted.
* Slices: without start TypeError, stop after now excludes the entries at now, wrong after reset_now, monitor that is off at the stop, slice of a slice, periodic windows that contain a multiple of the period: C44_no_start_refuted, C44_late_stop_refuted, C44_offset_refuted, C44_off_at_stop_refuted, C44_again_refuted, C44_modulo_refuted.

Distributions
* The draw 0.0 gives the sample 0 in Pdf and CumPdf, whatever the values: C45_zero_refuted, C45_cum_zero_refuted. With equal probabilities a distribution as value is returned unsampled: C45_unsampled_refuted. An expression as value raises AttributeError: C45_expression_refuted.
* Bounded: the default fail value may be outside of the bounds, a fail value is not converted from the time unit: C47_default_refuted, C47_fail_unit_refuted.
* Constant.mean() with a time unit applies the factor twice: C48_constant_refuted, C48_constant_average_refuted; Erlang divides by the factor: C48_erlang_refuted; the mean of a Pdf of distributions with a time unit ignores the unit: C48_nested_refuted.

Generators
* number=0: at_end is not called: C50_none_refuted. With a disturbance and number: at_end is not called: C50_disturbance_at_end_refuted. With a disturbance, an exception instead of the end at till: C50_disturbance_till_refuted, C50_negative_refuted.
* reset_now during, or before the creation of, an iat generator shifts the arrivals: C51_iat_refuted, C51_new_refuted.
* Random spread with duration instead of till: all at the start: C52_duration_refuted; a missing till is not reported: C52_no_till_refuted; force_at with equal draws: C52_force_at_refuted; equidistant with a disturbance, or without number: C52_disturbance_refuted, C52_no_number_refuted.

Other
* Names ending with a dot and with a comma can coincide: C53_unique_refuted. interpolate on an empty interval: C54_empty_interval_refuted. arange with step 0 never ends: C55_step_zero_refuted. A quoted item with a newline in it is not read back: C57_newline_refuted.

Trajectories
* A movement of length 0 from rest to rest with finite accelerations (a polygon of equal points) raises ZeroDivisionError: C64_zero_length_refuted.
* TrajectoryPolygon.length(t) counts the earlier pieces twice on all pieces but the first: C65_polygon_length_refuted. TrajectoryCircle.length() raises TypeError: C65_circle_length_refuted.
* a + (b + c) is not the same as a + b + c, because TrajectoryMerged ignores the start time that is passed to it: C66_nested_refuted.

Looking ahead
* peek() gives the present time although a standby component does not get its turn yet because the current component has skip_standby: C67_skip_standby_refuted. After reset_now it is not on the user's time axis: C67_reset_now_refuted.

PeriodMonitor
* In yieldless mode, which is the default, a PeriodMonitor cannot be made, because its process is a generator: ValueError: C68_yieldless_refuted. What is tallied after its creation and before its component has run is in no period: C68_early_tally_refuted. The monitors per period stay on when the parent is turned off: C68_off_refuted. (Read in the code, not modelled: a second PeriodMonitor for the same monitor calls itself recursively, 24564; the component is made in the default environment, 24550.)

Series and tables of monitors
* After reset_now, as_resampled_dataframe and xt are not on the same time axis as the user's: C69_reset_now_refuted, C69_resampled_reset_now_refuted. An extra monitor of another type than the first, that is off, shows its off value (e.g. 255) as data: C69_other_off_refuted.
* print_histogram(ex0=True): the total excludes the zeros but the bins do not, so the shares add up to more than 100%: C70_ex0_refuted; also for a table of given values with 0 among them: C70_table_ex0_refuted. A range over 1.45e11 gives more than 30 bins: C70_wide_refuted. values() of a level monitor that has just been switched off can give a value that the level had at no time, from the cache: C70_values_off_refuted.

Exceptions
* A request of an anonymous and an other resource together can make Resource._tryrequest step to a member that has left the line (24350, None._tryrequest()): the release fails with AttributeError, and those behind are not honored although there is room: C71_release_refuted.

Monitors derived from monitors
* t_multiply loses the last level when its entry is at now / factor: C72_t_multiply_refuted; after reset_now it does not stretch the time of the user: C72_t_multiply_reset_refuted. x_map of a monitor (not level) of an integer type makes -inf of a value that is the off value of the type: C72_x_map_off_value_refuted. A mapped level monitor shows 0 at the moment it is made: C72_now_refuted.

Waiting at stores
* When an item leaves a full store and the item that the first in line wants to put is already in that store, the call raises ValueError after the item has left: the one in line stays there although there is room: C73_exception_refuted.

Animation
* Switching to synced with the menu button (an_synced), or with synced(True) in a process, or stopping a video, does not restart the clock properly: the displayed time is before the simulation time (C74_synced_button_refuted, C74_synced_by_process_refuted, C74_video_off_refuted).
* Any animation_parameters call while recording sets the video time back to that of the present event: frames are not evenly spaced (C74_video_spacing_refuted), and with a lower speed a frame shows a state of a later time (C74_video_speed_refuted).
* skip_standby makes peek() wrong (C67), so that a frame can show a state far ahead of its time: C74_skip_standby_refuted. The single step key when not synced makes two steps, and the second one also when the first has ended the run, so that run(5) returns at time 8: C74_single_step_refuted. A new title or size of the window of a paused animation makes it go on and puts the time back: C74_title_refuted.

Waiting lines
* `C77_wait_for_request_priority_refuted`: wait_for documents request_priority ("put component in waiters queue according to the given priority"), but the body (8988-8994) never uses it: the place in the waiters queue follows the scheduling priority. Witness: component 1 waits for a state with priority 0, component 2 calls wait_for with request_priority=-1 and is placed behind it. `C77_wait_for_place` proves what happens instead.

Priorities
* `C78_shift_refuted`: adding the same number to all priorities is not harmless, since components that are honored or resumed internally are scheduled with priority 0 (as designed, but a user who numbers priorities from 1 should know that everything honored goes first).

Conditions of wait
* In wait without all=True the text of the state value is put into the expression without quotes (9268), with all=True it is the variable state._value (9252). Hence '$ in ("red","yellow")', the example in the documentation of wait, raises NameError when the light is red (`C79_documented_example_refuted`, for all texts: C79_text_value_fails), while '"$" in ("red","yellow")' works but is never true with all=True (`C79_quoted_refuted`, and always for the text state._value: `C79_quoted_all_refuted`); $**2 of -3 is -9 without all=True (`C79_negative_power_refuted`).
* A constant with a $ in it is evaluated as an expression (`C79_dollar_constant_refuted`); a method or partial function is compared instead of called, so the component waits for ever (`C79_callable_refuted`).

Status transitions
* interrupt does not end a pending request, and handing over an item of a store does not look at the status (4251-4260): a component that was activated with keep_request=True, then interrupted, is scheduled when an item arrives although nobody has resumed it (`C80_interrupted_refuted`); for resources and states _tryrequest and _trywait do look.

Animated queues
* The condition at 18363 is inverted with respect to its comment: objects are used again only in a frame in which the scale has changed, and are made again in all other frames (`C81_rerender_refuted`). So a component whose animation_objects returns the objects it made before is invisible from its second frame on (`C81_same_objects_refuted`).
* AnimateQueue.show() while it is shown, documented as possible, forgets the objects on the screen; they stay there, also after remove() (`C81_show_again_refuted`).
* Animate3dQueue.remove() followed by show() leaves the components that were in the queue invisible (`C81_show_3d_refuted`).
* A direction that is not valid in an Animate3dQueue raises ValueError after the objects have been forgotten; they stay on the screen (`C81_direction_3d_refuted`). Animate3dQueue never uses its visible attribute.
* With a trajectory, the coordinates of xy_anchor are added to the distance along the trajectory instead of to the position (`C81_anchor_refuted`).

Distributions given as text
* External needs three letters (Ex is Exponential), against the documentation (`C82_external_refuted`); Pmf, CumPmf, Map and Bounded are not in the list of names and can be neither abbreviated nor written in small letters (`C82_case_refuted`).
* All parentheses are removed from a text that starts with one, so '(1+2)*3' is Constant(7) (`C82_parentheses_refuted`).
* time_unit is inserted before the last character: in 'Uniform(1,2)+Uniform(3,4)' only the second gets it, and 'Uniform(1,2)*2' becomes invalid (`C82_unit_refuted`).
* mean() does not have the time unit factor, and is nan for expressions of which the mean is known (`C82_mean_refuted`).
* The random stream is set on the expression, not on the distributions in it: they use the default stream (`C82_stream_refuted`).

Calls that stop half-way
* wait() without states on a scheduled component raises after its event has been removed: it stays scheduled for ever (`C83_wait_refuted`).
* A request with a negative quantity after another resource, and wait_for with a state twice, raise after the component has entered the line of requesters or waiters, though it is still current (`C83_request_refuted`, `C83_wait_for_refuted`).
* release of two resources releases the first before it finds that the second is not claimed (`C83_release_refuted`).
* A negative remaining duration is accepted for an interrupted component; resume then raises and leaves it scheduled without event (`C83_resume_refuted`).
* An item that leaves a full store makes room for a waiting to_store of an item that is in the store already: leave raises though the item has left (`C83_leave_refuted`).

Animated images
* The first picture of an animated image is the opened file (27698), which is at its last frame after reading: the last frame is seen instead of the first (`C84_first_refuted`).
* At exactly the end of an animation that is not repeated t % interval is 0, so its first frame flashes (`C84_end_refuted`).
* When it is over get_image returns the empty image with the number of the first frame (0 instead of -1): a pingpong animation, that ends with its first frame, stays on the screen for ever (`C84_stays_refuted`).

Animated PNG
* Chunks such as PLTE and tRNS of pictures after the first are dropped (24803), so a picture with another palette is shown in the colours of the first (`C85_palette_refuted`; salabim itself records pictures without palette).
* delay_den is int(fps): with 0.5 frames per second it is 0, which means 1/100 second in this format (`C85_slow_refuted`).

Colours
* int(.., 16) accepts a sign or a space, so "#-1-1-f" is the colour (-1, -1, -15, 255) instead of an error (`C87_sign_refuted`).
* background_color="bg" is refused, but background_color=("bg", 128) is not; afterwards each use of bg recurses without end (`C87_self_refuted`).
* background_color=("fg", 255) with a dark foreground makes the foreground white and so the background white as well (`C87_contrast_refuted`).
* colorinterpolate returns v0 or v1 as they were given, e.g. "red", when they are equal or t0 equals t1 or t1 is inf, and a tuple otherwise (`C87_tuple_refuted`).

Queues, clear_source
* q.extend(q, clear_source=True) finds all components in q and then clears q, so all are lost instead of moved (`C36_extend_self_refuted`).

Animated monitors
* displacement_t (3954) subtracts the start of the monitor, which has no offset, from the time of the user: after env.reset_now() the line does not scroll and recent tallies are all drawn at the right edge (`C88_reset_refuted`; the line for now is right, `C88_now`).
* AnimateMonitor.is_removed() (4055) is True when the animation is shown and False when it is removed (`C88_removed_refuted`).

Printed numbers
* The number of entries in a value table is printed with rpad(str(count), 7) (2619), which cuts off the last digits: 12345678 entries are printed as 1234567 (`C89_count_refuted`; also 2615 with 8 positions).
* Columns are exceeded by numbers just below the limit that are rounded up, by large negative numbers and by exponents of three digits (`C89_column_refuted`).
* fn of -inf raises OverflowError as int(-inf) is evaluated, so print_statistics of a monitor with minimum -inf fails (`C89_inf_refuted`).

Drawn shapes
* A polygon is closed if p[0:2] != p[-3:-1] (15589), where p[-2:] is meant: the triangle (0, 0, 5, 0, 0, 5) is not closed and its outline lacks a side (`C90_closed_refuted`).
* The radius of rounded corners in user coordinates is multiplied by the scale twice (15546 and 15635) (`C90_corner_refuted`).
* The offset of an image in user coordinates is multiplied by the scale twice (15473 and 15741) (`C90_offset_refuted`).
* A circle with a radius (on the screen) below 1/36, e.g. 0, gives nsteps = 0 and so ZeroDivisionError (15602), which stops the animation (`C90_small_refuted`).
* The scale is not in _image_ident (15500-15530): with linewidth 0 a shape in user coordinates keeps its size when the user zooms (`C90_zoom_refuted`).
* The first corner of regular_polygon is not at initial_angle but one side further; the last corner is (27437-27440, `C90_regular_refuted`, `C90_regular_last`).

External distributions
* Samples of an array are used from the last to the first (pop(), 23256), so with size=3 other simulation results are obtained than with size=1 and the same seed (`C91_order_refuted`).
* mean() ignores positional arguments (23237): sim.External(st.norm, 5, 1).mean() is 0 (`C91_mean_refuted`).

Zooming and panning
* on_mousewheel determines the point under the mouse with the scale of the picture that is not zoomed (_scale instead of _scalez, 11297-11298), so in a zoomed picture another point is kept (`C92_zoom_refuted`) and zooming in and out does not bring back the picture (`C92_back_refuted`).
* do_pan does the same (11344-11345): in a zoomed picture the point that is dragged does not follow the mouse (`C92_pan_refuted`).
* do_pan gives x1 and y1 the distance to x0 and y0 of the picture that is not zoomed (11350-11351), so they are not the edges of what is seen (`C92_edges_refuted`).
* x0, x1 and y0 that are changed while the animation runs have no effect on the picture before the next run or unzoom (13425-13430 is where they are taken over; `C92_change_refuted`).

Pictures in videos
* A picture that, scaled to the video, would be at most half a pixel wide or high gets a size of 0, for which Pillow raises ValueError (25459, 25463; `C93_total_refuted`, `C93_none`).

## 6. Assumptions reported

`Print Assumptions` reports "Closed under the global context" (no axioms) for every theorem listed in MANIFEST.json, except for those on trajectories (C64, C65, C66), Poisson samples (C86) and
shapes (C90), which are about the real numbers of the Coq library and report axioms of that library:

* `ClassicalDedekindReals.sig_forall_dec`, `ClassicalDedekindReals.sig_not_dec` and `FunctionalExtensionality.functional_extensionality_dep`: C64_covers, C64_speed, C64_speed_bounds, C64_monotone, C64_possible, C64_made_possible, C64_zero_length_refuted, C65_polygon, C65_spec_unique, C65_polygon_ends, C65_polygon_no_jumps, C65_circle, C65_circle_radius, C65_circle_ends, C65_polygon_length_partial, C65_polygon_length_refuted, C65_circle_length_raises, C65_circle_length_refuted, C65_standstill, C66_piece, C66_plus, C66_nested_refuted, C86_total, C86_inverse, C86_probability, C86_monotone, C86_fallback_unique, C86_mean, C90_place, C90_rigid, C90_upright, C90_inside, C90_circle, C90_ellipse, C90_circle_step, C90_regular, C90_regular_last, C90_anchor, C90_text_anchor, C90_regular_refuted, C90_offset_refuted, C90_small_refuted, C90_zoom_refuted, C90_zoom.
* the same and `Classical_Prop.classic`: C65_circle_no_jumps, C86_fallback.
* only `ClassicalDedekindReals.sig_forall_dec` and `FunctionalExtensionality.functional_extensionality_dep`: C65_in_trajectory, C66_totals, C66_length, C66_some_piece, C86_underflow, C90_arc, C90_closed_partial, C90_closed_refuted, C90_corner_refuted.

(coqchk additionally lists axioms of library files that are loaded by the tactics lra, lia and the Reals; no theorem depends on them.)

## 7. How seeded/LOG.jsonl is to be read

Each line is one wrong program: one definition of the model was changed, and the files that depend on it were compiled again in a copy outside this repository. "killed" means that a proof no longer compiles; "failed" names the first statements that fail in the files compiled. That is often a lemma on which theorems rest (then the files that need it are not compiled any further), so "killed" says that the change is noticed, and is weaker than "the theorem is false for the changed program". Only for the mutants of C92 and C93 the statements were reconsidered one by one: a change for which only a proof script fails while all theorems remain true is logged there as "survived", with the reason in "tightened". Lines with "rerun" are later attempts with the same change, after theorems were added; "tightened" tells which. One change of C92 (Z9249) is left out, as the changed definition was not well-formed.
