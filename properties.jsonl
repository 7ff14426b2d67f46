{"id": "C01", "title": "The simulation clock never runs backwards", "statement": "Whatever sequence of public scheduling, resource, state and store calls the processes make, and whatever exceptions those calls raise, env.now() (measured without reset_now shifts) never decreases from one event to the next, and no pending event ever lies before the current time.", "quantifier": "for every reachable environment state and every finite sequence of API calls and scheduler steps, including calls that raise", "why_tests_cant": "A test fixes one model; the claim ranges over every interleaving of calls by every process, including failed calls whose partial effects stay behind.", "anchors": ["salabim/salabim.py:Environment.step", "salabim/salabim.py:Component._reschedule", "salabim/salabim.py:Component._push", "salabim/salabim.py:Component._remove"]}
{"id": "C02", "title": "Events are dispatched in (time, priority, urgency/arrival) order", "statement": "The component that becomes current is always the one whose event has the smallest time; among equal times the smallest priority; among equal time and priority an urgent event goes before every non-urgent one, urgent ones in last-scheduled-first order and non-urgent ones in first-scheduled-first order. No pending event that should precede it is left on the event list.", "quantifier": "for every event list reachable by any sequence of API calls, and every dispatch", "why_tests_cant": "The order must hold for all event lists, not just a few schedules with chosen ties.", "anchors": ["salabim/salabim.py:Component._push", "salabim/salabim.py:Environment.step"]}
{"id": "C03", "title": "A component has at most one pending event, and its status agrees with it", "statement": "In every reachable state a component occurs at most once on the event list; a component that is passive, data, standby, interrupted or current does not occur at all; a pending event's time equals the component's scheduled_time(). Hence removal from the event list always finds exactly one entry and never raises 'remove error'.", "quantifier": "for every reachable state under documented use (request with at least one resource, remaining_duration set only on components with a process, run() issued while main is current)", "why_tests_cant": "A stale second event wakes a process up at a wrong moment; it arises only through particular combinations of calls (interrupt, cancel, timeouts, honors), too many to enumerate.", "anchors": ["salabim/salabim.py:Component._push", "salabim/salabim.py:Component._remove", "salabim/salabim.py:Component.hold", "salabim/salabim.py:Component.activate", "salabim/salabim.py:Component.passivate", "salabim/salabim.py:Component.interrupt", "salabim/salabim.py:Component.resume", "salabim/salabim.py:Component.cancel"]}
{"id": "C04", "title": "hold(d) ends exactly d later", "statement": "If a component calls hold(d) at time t with d >= 0 and no call is afterwards directed at that component, then whatever the other components do, it stays scheduled for t+d, the clock never passes t+d while it is still pending, and when it becomes current again env.now() == t+d.", "quantifier": "for all d, t and all sequences of calls directed at other components, states, resources and stores", "why_tests_cant": "The interference of all other components can only be sampled by tests.", "anchors": ["salabim/salabim.py:Component.hold", "salabim/salabim.py:Component._reschedule", "salabim/salabim.py:Environment.step"]}
{"id": "C05", "title": "Scheduling in the past is rejected or capped, never performed", "statement": "hold, activate, request, wait, from_store, to_store and resume whose target time is before now raise ValueError (no event is created) unless cap_now is in effect, in which case the event is created for now.", "quantifier": "for all target times, all states and all cap_now settings", "why_tests_cant": "Each call has its own time arithmetic; the claim is about all argument values.", "anchors": ["salabim/salabim.py:Component._reschedule", "salabim/salabim.py:Component.hold", "salabim/salabim.py:Component.activate", "salabim/salabim.py:Component.request", "salabim/salabim.py:Component.wait"]}
{"id": "C06", "title": "A rejected scheduling call leaves the component as it was", "statement": "If hold/activate/remaining_duration raises because the requested time is in the past, the component keeps the schedule it had, i.e. it will still become current at its previously scheduled time.", "quantifier": "for all components and all rejected calls", "why_tests_cant": "Exception safety concerns every prior state; tests only check that the exception is raised.", "anchors": ["salabim/salabim.py:Component.hold", "salabim/salabim.py:Component.activate", "salabim/salabim.py:Component.remaining_duration", "salabim/salabim.py:Component._reschedule"]}
{"id": "C07", "title": "A passivated or cancelled component is not resumed by itself", "statement": "After passivate() or cancel() on a component, no sequence of calls directed at other components makes it current; it has no event on the event list, is in no requesters/waiters/standby list, until it is itself the target of a call.", "quantifier": "for all subsequent sequences of calls not directed at the component", "why_tests_cant": "Needs all possible stale references (event list, standby lists, requesters, waiters) to be gone in every history.", "anchors": ["salabim/salabim.py:Component.passivate", "salabim/salabim.py:Component.cancel", "salabim/salabim.py:Component._remove", "salabim/salabim.py:Component._check_fail", "salabim/salabim.py:Environment.step"]}
{"id": "C08", "title": "interrupt/resume preserves the remaining duration and nests", "statement": "If a component scheduled for time T is interrupted at t0, interrupted a total of n times and resumed n times (or resumed once with all=True) with the last resume at t1, it becomes current at t1 + (T - t0), neither earlier nor later, and while at least one interrupt is open it is not resumed at all. Calls of interrupt on components that are not scheduled or interrupted raise.", "quantifier": "for all T, t0, t1, all n and all calls directed at other components in between", "why_tests_cant": "Nesting depth and intermediate histories are unbounded.", "anchors": ["salabim/salabim.py:Component.interrupt", "salabim/salabim.py:Component.resume", "salabim/salabim.py:Component.hold"]}
{"id": "C09", "title": "Standby components are not lost", "statement": "A component in status standby is always registered for re-activation: it is in exactly one of the two standby lists, so that it will be made current after a following event. (With skip_standby components in the model the claim has to hold as well.)", "quantifier": "for every reachable state", "why_tests_cant": "Losing a standby component requires a particular overlap of pending and new standby components.", "anchors": ["salabim/salabim.py:Component.standby", "salabim/salabim.py:Environment.step", "salabim/salabim.py:Component._remove"]}
{"id": "C10", "title": "run(till) ends at till after everything due has been processed", "statement": "env.run(till=T) with the default priority returns with env.now() == T, and at that moment no event with time <= T and finite priority is left; run(duration=d) likewise for now+d; run() without arguments returns at the time of the last event with nothing left on the event list.", "quantifier": "for all event lists and all process behaviours during the run", "why_tests_cant": "Depends on every possible event list content at the end of the run.", "anchors": ["salabim/salabim.py:Environment.run", "salabim/salabim.py:Environment.step", "salabim/salabim.py:Environment.do_simulate"]}
{"id": "C11", "title": "Event comparison never reaches the component", "statement": "In every reachable state the (time, priority, sequence) keys of the pending events are pairwise different, so that comparing two entries on the event list never has to compare Component objects (which would raise TypeError).", "quantifier": "for every reachable event list", "why_tests_cant": "A single coincidence of keys would crash the simulation; it cannot be excluded by sampling.", "anchors": ["salabim/salabim.py:Component._push"]}
{"id": "C12", "title": "reset_now only shifts the time presented to the user", "statement": "reset_now(x) makes now() equal to x and shifts every user-visible scheduled time by the same amount; the order and spacing of the pending events is unchanged, and a subsequent at=/till= time specification is interpreted on the new scale.", "quantifier": "for all states and all new_now values", "why_tests_cant": "The claim relates two whole simulations for every model.", "anchors": ["salabim/salabim.py:Environment.reset_now", "salabim/salabim.py:Environment.now", "salabim/salabim.py:Component.hold", "salabim/salabim.py:Component.activate"]}
{"id": "C13", "title": "Honoring a request never exceeds the capacity", "statement": "Whenever a request is honored, the claimed quantity of each resource involved afterwards is at most its capacity (up to the documented 1e-8 tolerance). If the capacity is never lowered and only non-negative quantities are released, claimed_quantity <= capacity + 1e-8 and >= 0 in every reachable state.", "quantifier": "for all resources, all request/release/cancel/fail/preempt/terminate histories", "why_tests_cant": "Over-allocation appears only under particular combinations of partial releases, timeouts, nested honors and preemption.", "anchors": ["salabim/salabim.py:Component.honor_all", "salabim/salabim.py:Component.honor_any", "salabim/salabim.py:Component._tryrequest", "salabim/salabim.py:Component._release", "salabim/salabim.py:Resource.set_capacity"]}
{"id": "C14", "title": "Claimed quantity equals the sum of the claims", "statement": "For a non-anonymous resource the claimed quantity always equals the sum over all components of their claimed_quantity(resource); a component is in claimers() exactly if it has a claim; the claimed_quantity, available_quantity and occupancy monitors show claimed, capacity - claimed and claimed/capacity.", "quantifier": "for every reachable state", "why_tests_cant": "Conservation over arbitrary histories, including exceptions half-way.", "anchors": ["salabim/salabim.py:Component._tryrequest", "salabim/salabim.py:Component._release", "salabim/salabim.py:Component.claimed_quantity", "salabim/salabim.py:Resource.set_capacity"]}
{"id": "C15", "title": "Multi-resource requests are all or nothing; oneof takes exactly one", "statement": "When a request for several resources is honored, every requested quantity is claimed in the same instant and the component leaves every requesters queue; as long as it is not honored none of the quantities is claimed. With oneof=True exactly one of the requested resources is claimed: the first (in the order given) that is available.", "quantifier": "for all numbers of resources, quantities and states", "why_tests_cant": "Atomicity across any number of resources and any availability pattern.", "anchors": ["salabim/salabim.py:Component.honor_all", "salabim/salabim.py:Component.honor_any", "salabim/salabim.py:Component._tryrequest"]}
{"id": "C16", "title": "A request or wait that times out leaves no trace except failed()", "statement": "When fail_at/fail_delay is reached, the component becomes current at exactly that time with failed() True, is in none of the requesters/waiters queues any more, and no claim or claimed quantity has changed because of it.", "quantifier": "for all timeouts and all histories in between", "why_tests_cant": "The race between honoring and timing out at the same instant is schedule dependent.", "anchors": ["salabim/salabim.py:Component._check_fail", "salabim/salabim.py:Environment.step", "salabim/salabim.py:Component.request", "salabim/salabim.py:Component.wait"]}
{"id": "C17", "title": "Ending or cancelling a component returns everything it claimed", "statement": "After a process ends or is cancelled, the component claims nothing, is in no claimers queue and the claimed quantity of each resource it claimed from has decreased by exactly its claim (before freed capacity is handed to waiting requesters).", "quantifier": "for all sets of claims and all states", "why_tests_cant": "Any combination of resources and waiting requesters.", "anchors": ["salabim/salabim.py:Environment._terminate", "salabim/salabim.py:Component.cancel", "salabim/salabim.py:Component._release"]}
{"id": "C18", "title": "No grantable request is left waiting (no lost wake-up)", "statement": "At rest (no API call in progress) there is no component waiting for non-anonymous resources whose complete request could be honored with the quantities available: every release, capacity increase and honor is followed by the retries that matter, and the short-cut that stops the retries early never skips a grantable request.", "quantifier": "for every reachable state; resources without honor_only_first / honor_only_highest_priority / preemptive", "why_tests_cant": "A lost wake-up shows as a process that hangs in one particular interleaving.", "anchors": ["salabim/salabim.py:Resource._tryrequest", "salabim/salabim.py:Component._tryrequest", "salabim/salabim.py:Component._release", "salabim/salabim.py:Resource.set_capacity", "salabim/salabim.py:Component.request"]}
{"id": "C19", "title": "honor_only_first / honor_only_highest_priority also leave no grantable first requester waiting", "statement": "For a resource with honor_only_first=True (or honor_only_highest_priority=True), whenever no call is in progress, the first requester of the resource is not grantable.", "quantifier": "for every reachable state", "why_tests_cant": "Needs the retry logic to be right for every queue content and every way in which the first requester can disappear.", "anchors": ["salabim/salabim.py:Resource._tryrequest", "salabim/salabim.py:Component._check_fail"]}
{"id": "C20", "title": "No overtaking within the rules", "statement": "Requesters are tried in the order of the requesters queue, i.e. by priority and within equal priority first-come-first-served: of two requesters that ask the same quantity of one resource only, the one further in front is never honored later. With honor_only_first a requester is never honored as long as another one is in front of it.", "quantifier": "for all requesters queues, quantities and release patterns", "why_tests_cant": "All queue contents and release sizes.", "anchors": ["salabim/salabim.py:Component.enter", "salabim/salabim.py:Resource._tryrequest", "salabim/salabim.py:Component.honor_all"]}
{"id": "C21", "title": "Preemption bumps only lower priority claimers, and only as many as required", "statement": "A request on a preemptive resource takes the claim away only from claimers with a strictly larger priority value, from the lowest-ranking upwards, and only until enough is available; if bumping cannot make the request succeed, nobody is bumped.", "quantifier": "for all claimers queues and quantities", "why_tests_cant": "All combinations of claims and priorities.", "anchors": ["salabim/salabim.py:Component.request", "salabim/salabim.py:Component._release"]}
{"id": "C22", "title": "Retrying requests always terminates", "statement": "Releasing, changing the capacity or honoring a request triggers a cascade of retries through anonymous resources; that cascade always ends, honoring each waiting component at most once.", "quantifier": "for all sets of resources and waiting components", "why_tests_cant": "Non-termination depends on cyclic dependencies between resources which tests do not enumerate.", "anchors": ["salabim/salabim.py:Resource._tryrequest", "salabim/salabim.py:Component._tryrequest"]}
{"id": "C23", "title": "Listing a resource twice in one request sums the quantities", "statement": "request((r,2),(r,3)) behaves as request((r,5)) (documented).", "quantifier": "for all resources and quantities", "why_tests_cant": "The documentation promises it for all combinations.", "anchors": ["salabim/salabim.py:Component.request", "salabim/salabim.py:Component.enter"]}
{"id": "C24", "title": "No lost wake-up for wait", "statement": "At rest there is no component waiting for states (with value conditions) whose condition is met by the present state values; set, reset and trigger release precisely the waiting components whose condition became true, in the order of the waiters queue.", "quantifier": "for every reachable state and all conditions on state values", "why_tests_cant": "All combinations of any/all conditions over several states and all orders of set/reset/trigger.", "anchors": ["salabim/salabim.py:State.set", "salabim/salabim.py:State.reset", "salabim/salabim.py:State.trigger", "salabim/salabim.py:State._trywait", "salabim/salabim.py:Component.wait", "salabim/salabim.py:Component._trywait"]}
{"id": "C25", "title": "wait any/all", "statement": "wait(...) continues at once if any (all=True: all) of the given state/value conditions are met, otherwise not before they are met; once it continues the component is in none of the waiters queues.", "quantifier": "for all lists of conditions", "why_tests_cant": "Arbitrary numbers of states and repeated states.", "anchors": ["salabim/salabim.py:Component.wait", "salabim/salabim.py:Component._trywait"]}
{"id": "C26", "title": "trigger(max=n) honors at most n components for the trigger value", "statement": "trigger(value, value_after, max=n) honors at most n waiting components on the trigger value, namely the first n in the waiters queue whose condition is met, and leaves the state with value_after; max=0 honors nobody on the trigger value.", "quantifier": "for all n, values and waiters queues", "why_tests_cant": "All n, including 0.", "anchors": ["salabim/salabim.py:State.trigger", "salabim/salabim.py:State._trywait"]}
{"id": "C27", "title": "Stores conserve items", "statement": "An item put in a store is at any time either in the store or has been handed to exactly one from_store requester; no item is duplicated, dropped or handed to two requesters.", "quantifier": "for every sequence of to_store, from_store, enter, leave, rescan, filter and capacity changes", "why_tests_cant": "Handing over happens inside enter/leave of other components, in any interleaving.", "anchors": ["salabim/salabim.py:Qmember.insert_in_front_of", "salabim/salabim.py:Component.leave", "salabim/salabim.py:Component.from_store", "salabim/salabim.py:Component.to_store", "salabim/salabim.py:Store.rescan", "salabim/salabim.py:Store._rescan_to"]}
{"id": "C28", "title": "A store never holds more than its capacity", "statement": "Entering a full store raises QueueFullError and to_store waits; the number of items in a store never exceeds the capacity in force when the item entered, and available_quantity() == capacity - number of items.", "quantifier": "for every reachable state", "why_tests_cant": "All interleavings of puts and gets with waiting components.", "anchors": ["salabim/salabim.py:Qmember.insert_in_front_of", "salabim/salabim.py:Component.leave", "salabim/salabim.py:Store.set_capacity"]}
{"id": "C29", "title": "from_store delivers to the first matching requester, from the named store", "statement": "An item that enters a store while components are waiting is given to the first requester in the queue whose filter accepts it; from_store with key returns the accepted item with the lowest key over all given stores.", "quantifier": "for all queues of requesters, filters and keys, for any number of stores", "why_tests_cant": "All filters, keys and store combinations.", "anchors": ["salabim/salabim.py:Qmember.insert_in_front_of", "salabim/salabim.py:Component.from_store"]}
{"id": "C30", "title": "Store hand-over terminates", "statement": "A single leave, enter, to_store or from_store returns (does not recurse forever) whatever components are waiting for the store.", "quantifier": "for all combinations of waiting from_store and to_store requesters", "why_tests_cant": "Needs waiting getters and putters at the same time on a bounded store.", "anchors": ["salabim/salabim.py:Component.leave", "salabim/salabim.py:Qmember.insert_in_front_of"]}
{"id": "C31", "title": "A queue behaves as a list", "statement": "After any sequence of enter, enter_sorted, enter_at_head, enter_in_front_of, enter_behind, leave, priority changes, insert, pop and clear, the queue read forwards, read backwards, its length, head, tail, successor, predecessor, index and indexing with (negative) integers and slices agree with one ordinary list of components, on which each operation has its plain list meaning; no component occurs twice.", "quantifier": "for every sequence of operations on any number of queues sharing components", "why_tests_cant": "The doubly linked representation may be corrupted only by particular sequences.", "anchors": ["salabim/salabim.py:Qmember.insert_in_front_of", "salabim/salabim.py:Component.enter", "salabim/salabim.py:Component.leave", "salabim/salabim.py:Component.priority", "salabim/salabim.py:Queue.__getitem__", "salabim/salabim.py:Queue.index", "salabim/salabim.py:Queue.pop", "salabim/salabim.py:Queue.insert"]}
{"id": "C32", "title": "Queues stay sorted on priority, first-come-first-served within a priority", "statement": "If only enter, enter_sorted, enter_at_head, enter_in_front_of, enter_behind, leave, pop and priority changes are used, the queue is always in non-decreasing priority order, and enter_sorted puts a component behind all components with the same or smaller priority and in front of all with a larger priority.", "quantifier": "for all sequences of those operations", "why_tests_cant": "Sortedness for every history.", "anchors": ["salabim/salabim.py:Component.enter", "salabim/salabim.py:Component.priority", "salabim/salabim.py:Component.enter_at_head", "salabim/salabim.py:Component.enter_behind", "salabim/salabim.py:Queue.insert"]}
{"id": "C33", "title": "Membership is symmetric and enter/leave are checked", "statement": "A component is in a queue exactly if the queue is in component.queues(); entering a queue twice and leaving a queue one is not in raises ValueError and changes nothing; a queue at capacity raises QueueFullError and changes nothing.", "quantifier": "for all histories", "why_tests_cant": "All sequences, with exceptions.", "anchors": ["salabim/salabim.py:Component._checknotinqueue", "salabim/salabim.py:Component._checkinqueue", "salabim/salabim.py:Component.enter", "salabim/salabim.py:Component.leave", "salabim/salabim.py:Qmember.insert_in_front_of"]}
{"id": "C34", "title": "Queue length statistics are consistent with the lengths of stay", "statement": "At any time the time integral of the monitored queue length equals the sum of the lengths of stay of the departed components plus the time already spent by the components still present; number_of_arrivals - number_of_departures equals the change in length.", "quantifier": "for every history of arrivals and departures since creation", "why_tests_cant": "An accounting identity over unbounded histories.", "anchors": ["salabim/salabim.py:Qmember.insert_in_front_of", "salabim/salabim.py:Component.leave", "salabim/salabim.py:Queue.length", "salabim/salabim.py:Queue.length_of_stay"]}
{"id": "C35", "title": "Iterating a queue while it changes", "statement": "for c in queue: yields no qmember twice, never yields a component that is not in the queue at that moment, and when the loop ends every component still in the queue that has been in the queue throughout the loop has been yielded; without modifications it yields the queue in order.", "quantifier": "for all queues and all modifications made by the loop body", "why_tests_cant": "All bodies.", "anchors": ["salabim/salabim.py:Queue.__iter__", "salabim/salabim.py:Queue.__reversed__"]}
{"id": "C36", "title": "Queue set operations", "statement": "union, intersection, difference, symmetric_difference, copy, move and extend yield precisely the components that the corresponding set operation yields, in the documented order, without duplicates and (apart from move/extend(clear_source)) without changing the operands.", "quantifier": "for all queues", "why_tests_cant": "All pairs of queues.", "anchors": ["salabim/salabim.py:Queue.union", "salabim/salabim.py:Queue.intersection", "salabim/salabim.py:Queue.difference", "salabim/salabim.py:Queue.symmetric_difference", "salabim/salabim.py:Queue.copy", "salabim/salabim.py:Queue.move", "salabim/salabim.py:Queue.extend"]}
{"id": "C37", "title": "A level monitor reproduces the history of the level", "statement": "For a level monitor that is on, m(t) returns the value that was in force at time t, i.e. the last value tallied at or before t, for every t from the start of monitoring on; while the monitor is off m(t) is the off value.", "quantifier": "for all tally/monitor on-off/reset sequences and all t", "why_tests_cant": "All histories and all query times.", "anchors": ["salabim/salabim.py:Monitor.tally", "salabim/salabim.py:Monitor.monitor", "salabim/salabim.py:Monitor.reset", "salabim/salabim.py:Monitor.__call__"]}
{"id": "C38", "title": "The durations of a level monitor add up to the monitored time", "statement": "The total weight of a level monitor (duration()) equals the total time the monitor has been on since reset, and value_duration/bin_duration over a partition of the values add up to duration().", "quantifier": "for all histories", "why_tests_cant": "All histories, with on/off switching at coinciding times.", "anchors": ["salabim/salabim.py:Monitor._xweight", "salabim/salabim.py:Monitor.duration", "salabim/salabim.py:Monitor.bin_duration", "salabim/salabim.py:Monitor.value_duration"]}
{"id": "C39", "title": "stats_only monitors report the same mean and variance", "statement": "A stats_only monitor reports the same number of entries, total weight, mean, variance, minimum and maximum as a full monitor that is given the same tallies: the running update equals the weighted mean sum(w*x)/sum(w) and the weighted variance sum(w*(x-mean)^2)/sum(w).", "quantifier": "for all sequences of values and weights with non-zero partial sums", "why_tests_cant": "An algebraic identity over all sequences.", "anchors": ["salabim/salabim.py:Monitor.tally", "salabim/salabim.py:Monitor.mean", "salabim/salabim.py:Monitor.std"]}
{"id": "C40", "title": "Weights are never lost", "statement": "The weight array that is created lazily at the first weight unequal to 1 is equivalent to having stored every weight from the start: number_of_entries, weight(), mean and all other statistics see each value with the weight given to tally.", "quantifier": "for all sequences of tallies", "why_tests_cant": "The switch of representation can occur at any position.", "anchors": ["salabim/salabim.py:Monitor.tally", "salabim/salabim.py:Monitor._xweight", "salabim/salabim.py:Monitor.mean"]}
{"id": "C41", "title": "Bins partition the observations", "statement": "For lowerbounds l0 < l1 < ... the entries (weights, durations) in (-inf, l0], (l0, l1], ..., (ln, inf] add up to the total number of entries (weight, duration).", "quantifier": "for all monitors and all increasing bin boundaries", "why_tests_cant": "All data and boundaries.", "anchors": ["salabim/salabim.py:Monitor.bin_number_of_entries", "salabim/salabim.py:Monitor.bin_weight", "salabim/salabim.py:Monitor.bin_duration"]}
{"id": "C42", "title": "Percentiles lie within the data, are monotone, and are exact at 0 and 100", "statement": "percentile(0) is the minimum and percentile(100) the maximum, for every q the result is between minimum and maximum, percentile is non-decreasing in q for each interpolation method, and without interpolation it is one of the tallied values.", "quantifier": "for all (weighted) data and all q", "why_tests_cant": "All data sets, weights and q.", "anchors": ["salabim/salabim.py:Monitor.percentile"]}
{"id": "C43", "title": "Merging monitors", "statement": "Merging non-level monitors yields the multiset union of (value, weight, time), so the total weight and the mean are those of the pooled data; merging level monitors yields at each time the sum of the values, and off whenever one of them is off.", "quantifier": "for all monitors", "why_tests_cant": "All interleavings of the time stamps.", "anchors": ["salabim/salabim.py:Monitor.merge"]}
{"id": "C44", "title": "Slicing a monitor", "statement": "m[a:b] contains exactly the entries with a <= t < b (non-level), or reproduces the level on [a,b) and is off elsewhere (level).", "quantifier": "for all monitors and all a, b", "why_tests_cant": "All histories and borders.", "anchors": ["salabim/salabim.py:Monitor.slice"]}
{"id": "C45", "title": "Samples of discrete distributions are specified values with positive probability", "statement": "Pdf, Pmf and CumPdf only ever return one of the specified x-values, never one with probability 0.", "quantifier": "for all specifications and every value r in [0,1) the random stream may deliver", "why_tests_cant": "The offending draw may be a single value of r.", "anchors": ["salabim/salabim.py:Pdf.sample", "salabim/salabim.py:CumPdf.sample"]}
{"id": "C46", "title": "Cdf samples lie within the specified range and follow the specified cumulative distribution", "statement": "Cdf.sample() is between the first and the last x-value and the fraction of the draws r that give a sample <= x_i is exactly the specified cumulative value of x_i.", "quantifier": "for all specifications and all draws", "why_tests_cant": "All specifications and draws.", "anchors": ["salabim/salabim.py:Cdf.sample", "salabim/salabim.py:Cdf.__init__", "salabim/salabim.py:interpolate"]}
{"id": "C47", "title": "Bounded samples respect the bounds", "statement": "Bounded(...).sample() returns a value within the bounds, or fail_value after number_of_tries rejected samples; it takes at most number_of_tries samples.", "quantifier": "for all underlying distributions and bounds", "why_tests_cant": "All streams of samples.", "anchors": ["salabim/salabim.py:Bounded.sample", "salabim/salabim.py:Bounded.__init__"]}
{"id": "C48", "title": "mean() of a distribution matches its samples, also with a time unit", "statement": "With time_unit given, both sample() and mean() are expressed in the environment's time unit: sampling with a unit factor f gives f times the sample without the factor, and the mean is f times the mean without it.", "quantifier": "for all parameters and all time unit factors", "why_tests_cant": "All factors.", "anchors": ["salabim/salabim.py:Constant.mean", "salabim/salabim.py:Erlang.sample", "salabim/salabim.py:Uniform.sample", "salabim/salabim.py:Exponential.sample", "salabim/salabim.py:Triangular.sample", "salabim/salabim.py:Normal.sample"]}
{"id": "C49", "title": "Samples of continuous distributions lie in their support", "statement": "Uniform(a,b) between a and b, IntUniform(a,b) integer between a and b, Triangular(a,b,m) between a and b, Constant(c) equals c.", "quantifier": "for all parameters and draws", "why_tests_cant": "All draws.", "anchors": ["salabim/salabim.py:Uniform.sample", "salabim/salabim.py:IntUniform.sample", "salabim/salabim.py:Triangular.sample", "salabim/salabim.py:Constant.sample"]}
{"id": "C50", "title": "A component generator generates exactly what is asked", "statement": "An iat generator started at `at` generates the k-th component at at + the sum of the first k inter arrival times (force_at: k-1), stops after `number` components and generates nothing after `till`, and calls at_end exactly once.", "quantifier": "for all iat sequences, numbers and till values", "why_tests_cant": "All iat sequences.", "anchors": ["salabim/salabim.py:ComponentGenerator.__init__", "salabim/salabim.py:ComponentGenerator.do_iat", "salabim/salabim.py:ComponentGenerator.do_finalize"]}
{"id": "C51", "title": "Component generators are unaffected by reset_now", "statement": "After env.reset_now() a running generator continues with the same spacing.", "quantifier": "for all offsets and iats", "why_tests_cant": "Depends on when reset_now is called.", "anchors": ["salabim/salabim.py:ComponentGenerator.do_iat", "salabim/salabim.py:Component.hold", "salabim/salabim.py:Environment.reset_now"]}
{"id": "C52", "title": "Equidistant and spread generation", "statement": "With equidistant=True and number=n, components are generated at at + k*(till-at)/(n-1) for k=0..n-1, thus first at `at`, last at `till`; with random spread exactly number components are generated, all within [at, till], with force_at/force_till the first/last exactly at at/till.", "quantifier": "for all n, at, till and draws", "why_tests_cant": "All n and draws.", "anchors": ["salabim/salabim.py:ComponentGenerator.__init__", "salabim/salabim.py:ComponentGenerator.do_spread"]}
{"id": "C53", "title": "Serialized names are unique", "statement": "Objects created with a name ending in '.' (or ',') or without a name get pairwise different names within their kind.", "quantifier": "for all creation sequences", "why_tests_cant": "All sequences of names.", "anchors": ["salabim/salabim.py:_set_name"]}
{"id": "C54", "title": "Interpolation stays within its end points", "statement": "interpolate(t,t0,t1,v0,v1) equals v0 for t<=t0 and v1 for t>=t1, lies between v0 and v1, is monotone in t, for numbers as well as (element-wise) for tuples; interp and searchsorted agree with it on every segment.", "quantifier": "for all arguments", "why_tests_cant": "All arguments incl. t0=t1, t0>t1 and inf.", "anchors": ["salabim/salabim.py:interpolate", "salabim/salabim.py:_i", "salabim/salabim.py:interp", "salabim/salabim.py:searchsorted"]}
{"id": "C55", "title": "arange and linspace", "statement": "linspace(a,b,n) gives n equidistant values, the first equal to a and the last equal to b; arange(a,b,s) gives a, a+s, ... all those (strictly) before b.", "quantifier": "for all arguments", "why_tests_cant": "All arguments.", "anchors": ["salabim/salabim.py:linspace", "salabim/salabim.py:arange"]}
{"id": "C56", "title": "Time unit conversions are consistent", "statement": "Converting a duration from the environment's unit to any unit and back yields the same duration; conversions compose; conversions commute with addition.", "quantifier": "for all durations and all pairs of units", "why_tests_cant": "All durations and pairs.", "anchors": ["salabim/salabim.py:Environment.to_time_unit", "salabim/salabim.py:_time_unit_lookup", "salabim/salabim.py:_time_unit_factor"]}
{"id": "C57", "title": "ItemFile reads back the items that were written", "statement": "Any sequence of items, each written between quotes (if it does not contain that quote or a newline) or bare (if it contains no blanks, quotes, braces or #), separated by any non-empty mixture of blanks, newlines and comments, is read back unchanged, in order.", "quantifier": "for all sequences of strings", "why_tests_cant": "All strings and layouts.", "anchors": ["salabim/salabim.py:ItemFile._nextread", "salabim/salabim.py:ItemFile.read_item"]}
{"id": "C58", "title": "State monitors, mode and status monitors follow the object", "statement": "A monitor that the scheduler keeps for a component's status (or the value of a state, the length of a queue, a claimed quantity) shows now the present value, at any earlier time t the value there was at t, and its durations and mean are the times spent in the states and their time average; the tallies never raise.", "quantifier": "for all executions, all calls, all moments, all components, states, queues and resources", "why_tests_cant": "All histories of all simulations; the monitor and the scheduler are separate pieces of code.", "anchors": ["salabim/salabim.py:_StatusMonitor", "salabim/salabim.py:_SystemMonitor"]}
{"id": "C59", "title": "activate(keep_request/keep_wait) keeps the request", "statement": "activate(keep_request=True) on a requesting component keeps the request and the status remains requesting (documented); likewise keep_wait.", "quantifier": "for all requesting components", "why_tests_cant": "Documented for all situations.", "anchors": ["salabim/salabim.py:Component.activate"]}
{"id": "C60", "title": "Resource.release() releases the present claims only", "statement": "resource.release() on a non-anonymous resource takes away the claims of the components that are claiming at the time of the call; components whose request is honored because of that keep their claim.", "quantifier": "for all claimers and requesters queues", "why_tests_cant": "All combinations of claimers and requesters.", "anchors": ["salabim/salabim.py:Resource.release", "salabim/salabim.py:Component._release"]}
{"id": "C61", "title": "Statistics of a monitor do not depend on what was asked before", "statement": "Whether or not statistics were asked earlier (which fills a cache), the mean, the weights, the values, the extremes of a monitor at a given time are the same as for a monitor with the same tallies that was never asked anything.", "quantifier": "for all sequences of tallies, monitor on/off, resets, clock advances and questions, and all sets of questions left out", "why_tests_cant": "The cache must be invalidated on every path; tests ask statistics once, at the end.", "anchors": ["salabim/salabim.py:Monitor._xweight", "salabim/salabim.py:Monitor.tally", "salabim/salabim.py:Monitor.monitor", "salabim/salabim.py:Monitor.reset_monitors"]}
{"id": "C62", "title": "Extremes of a level monitor", "statement": "The minimum (maximum) of a level monitor is a value that the level has at some moment since the start (present moment included), and the level is at no moment below (above) it.", "quantifier": "for all histories of a level monitor", "why_tests_cant": "All histories.", "anchors": ["salabim/salabim.py:Monitor.minimum", "salabim/salabim.py:Monitor.maximum", "salabim/salabim.py:Monitor._xweight"]}
{"id": "C63", "title": "remaining_duration() is the time that is left", "statement": "remaining_duration() of a component with a pending event for time T is T - now(); after passivate it is the time that was left at the time of passivate (0 if it was current), while interrupted it is the time that was left at the time of the first interrupt, whatever other components do in the meantime.", "quantifier": "for all executions, components and durations, and all calls not directed at the component in between", "why_tests_cant": "Depends on the fields left behind by every scheduling call; tests look at it directly after one hold.", "anchors": ["salabim/salabim.py:Component.remaining_duration", "salabim/salabim.py:Component.passivate", "salabim/salabim.py:Component.interrupt"]}
{"id": "C64", "title": "A movement drives its length, as fast as its limits allow", "statement": "The movement of a trajectory covers exactly the length of the trajectory: 0 until its start, the whole length from its end on. The distance is the integral of a speed that is at each moment the largest one allowed by vmax, by the acceleration from v0 and by the deceleration towards v1; so it never goes backwards and never faster than vmax, and it is v0 at the start and v1 at the end. A movement is refused exactly if v1 cannot be reached from v0 (or the other way round) within the length; infinite accelerations can always reach it, and a movement of length zero with v0 = v1 is possible.", "quantifier": "all lengths, speeds, accelerations (also infinite) and all moments", "why_tests_cant": "real numbers: infinitely many combinations of length, speeds and accelerations with phases that may vanish", "anchors": ["salabim/salabim.py:_Movement.__init__", "salabim/salabim.py:_Movement.l_at_t"]}
{"id": "C65", "title": "A trajectory is where its movement brought it", "statement": "On a polygon the position at each moment is the point at the covered distance along the line through the given points, with the angle of that piece; on a circle it is at the radius from the centre, at the covered distance along the arc from angle0 to angle1. It starts at the first point and ends at the last, it does not jump (two positions are at most vmax times the time between them apart), and length(t) is the distance covered.", "quantifier": "all polygons, circles, movements and moments", "why_tests_cant": "all moments of a continuous movement along any path", "anchors": ["salabim/salabim.py:TrajectoryPolygon.__init__", "salabim/salabim.py:TrajectoryPolygon.indexes", "salabim/salabim.py:TrajectoryPolygon.x", "salabim/salabim.py:TrajectoryPolygon.length", "salabim/salabim.py:TrajectoryCircle.__init__", "salabim/salabim.py:TrajectoryCircle.x", "salabim/salabim.py:TrajectoryCircle.angle", "salabim/salabim.py:TrajectoryCircle.length", "salabim/salabim.py:TrajectoryStandstill.x"]}
{"id": "C66", "title": "Merged trajectories follow each other", "statement": "Adding trajectories gives a trajectory whose duration and length are the sums, and which at each moment is where the piece of that moment is, as if that piece had started when the previous ones were over. That holds however the pieces are added up.", "quantifier": "all lists of trajectories and moments", "why_tests_cant": "any number of pieces of any kind, and all ways to add them", "anchors": ["salabim/salabim.py:TrajectoryMerged.__init__", "salabim/salabim.py:TrajectoryMerged.index", "salabim/salabim.py:TrajectoryMerged.x", "salabim/salabim.py:TrajectoryMerged.length", "salabim/salabim.py:_Trajectory.__add__"]}
{"id": "C67", "title": "peek() tells when the next component becomes current", "statement": "The value of peek() is the time at which the next component becomes current: whatever is scheduled, cancelled or on standby, nothing becomes current before it, and if no more calls are made the next component becomes current exactly at that time; inf means that nothing will become current any more.", "quantifier": "for all executions and all moments between two events", "why_tests_cant": "Depends on everything that is scheduled, on standby or cancelled at that moment; tests call it (if at all) with one pending event.", "anchors": ["salabim/salabim.py:Environment.peek", "salabim/salabim.py:Environment.step"]}
{"id": "C68", "title": "A PeriodMonitor divides a monitor over the periods", "statement": "The monitors of a PeriodMonitor, one per period, divide what the parent monitor records: the periods follow each other cyclically from the moment of creation; in each period the monitor for it records exactly what the parent records (the level, or the tallies with their weights) and the others record nothing; hence the durations, in total and per value, add up to those of the parent. Tallies, resets and reset_now at any moment do not change that.", "quantifier": "all lists of nonnegative periods and all sequences of tallies, resets, clock advances and reset_now", "why_tests_cant": "The division depends on how any number of tallies and resets interleave with the period changes, also at equal times.", "anchors": ["salabim/salabim.py:PeriodMonitor.__init__", "salabim/salabim.py:PeriodMonitor.new_tally", "salabim/salabim.py:PeriodMonitor.new_reset", "salabim/salabim.py:_PeriodComponent.process"]}
{"id": "C69", "title": "The series of a monitor and its values on a grid show the history", "statement": "xt() and tx() of a level monitor give the level and the moment of each change since the start, with the present level at the present time as last point: read as a step function they give the level at every moment; for other monitors they give every tally with its moment, in order. as_resampled_dataframe gives, for each moment of its grid, the value that each of the monitors had at that moment, and nothing where it was off; monitors with different starts are refused. All times are those of the user, also after reset_now.", "quantifier": "all histories of tallies, switching on and off, resets and clock advances; all grids; any number of extra monitors", "why_tests_cant": "The agreement with the level has to hold at every (real) moment between changes and for every interleaving of the calls.", "anchors": ["salabim/salabim.py:Monitor.xt", "salabim/salabim.py:Monitor.tx", "salabim/salabim.py:Monitor.as_resampled_dataframe"]}
{"id": "C70", "title": "Histograms and value tables account for everything that was recorded", "statement": "Each bin of a histogram shows the weight, time or number of what was recorded between its bounds; the percentages are shares of the total, the cumulative percentage in a row is the share up to its upper bound, and 1 in the last row. The scale that is chosen automatically covers all data with at most 30 bins of the smallest width among 1, 2, 5, 10, 20 \u2026 values() gives each recorded value exactly once, in numerical order, or by decreasing weight or duration. The rows of a table of values, together with the row for the rest, add up to the total.", "quantifier": "all histories of a monitor, all bounds, widths and numbers of bins, all lists of values, with and without zeros", "why_tests_cant": "Needs sums over arbitrarily many recorded values and bins, and a search over scales for arbitrary data.", "anchors": ["salabim/salabim.py:Monitor.histogram_autoscale", "salabim/salabim.py:Monitor.print_histogram", "salabim/salabim.py:Monitor.values"]}
{"id": "C71", "title": "Calls that wake others do not break down", "statement": "Giving back claimed resources, changing a capacity, cancelling a component, the end of a process, setting or triggering a state, and a step of the scheduler never fail half-way with an exception, whoever is waiting for what.", "quantifier": "for all executions, all lines of waiting components and all cascades of retries", "why_tests_cant": "A failure depends on who leaves which queue while another call is walking over it, in cascades of any depth; tests have only a few short lines.", "anchors": ["salabim/salabim.py:Resource._tryrequest", "salabim/salabim.py:Component._tryrequest", "salabim/salabim.py:Component.release", "salabim/salabim.py:Resource.release", "salabim/salabim.py:Resource.set_capacity", "salabim/salabim.py:Component.cancel", "salabim/salabim.py:State.set", "salabim/salabim.py:State.trigger", "salabim/salabim.py:Environment.step"]}
{"id": "C72", "title": "Monitors derived from a monitor", "statement": "x_map gives a monitor that shows, at any time up to the present, the function of the levels of all the given monitors at that time (off if one of them is off), and of the tallied values for monitors that are not level monitors; multiply and to_time_unit convert every value; t_multiply stretches the time: what was shown at t is shown at t times the factor, with the same mean and all durations multiplied.", "quantifier": "for all histories of tallies, switches and resets of all the monitors, all functions, factors and moments", "why_tests_cant": "The result is a merge of any number of histories; tests only compare a few values of a few short histories.", "anchors": ["salabim/salabim.py:Monitor.x_map", "salabim/salabim.py:Monitor.t_multiply", "salabim/salabim.py:Monitor.multiply", "salabim/salabim.py:Monitor.to_time_unit", "salabim/salabim.py:Monitor.__call__"]}
{"id": "C73", "title": "Nobody waits at a store for what is there", "statement": "At any moment no component waits in from_store while one of its stores contains an item that it accepts, and none waits in to_store while one of its stores has room: whatever makes an item or room available (an item that enters or leaves, another component being served, a larger capacity, a new filter, rescan after attributes of items changed) also serves those who wait.", "quantifier": "for all executions, any number of stores and components, all filters and capacities", "why_tests_cant": "A lost wake-up needs a particular interleaving of components that wait for several stores; a test shows only that the few it runs are served.", "anchors": ["salabim/salabim.py:Component.from_store", "salabim/salabim.py:Component.to_store", "salabim/salabim.py:Component.filter", "salabim/salabim.py:Store.rescan", "salabim/salabim.py:Store._rescan_to", "salabim/salabim.py:Store.set_capacity", "salabim/salabim.py:Component.leave", "salabim/salabim.py:Qmember.insert_in_front_of"]}
{"id": "C74", "title": "Animation shows the model as it is and does not change what happens", "statement": "The simulation goes through the same states with and without animation, whatever the clock of the computer does and whatever is done about speed, pausing and synchronisation. In synchronised mode and in a video each frame shows the model at the time it displays: everything due before that time has happened and nothing due after it. The displayed time does not jump: between frames it advances by speed times the elapsed time, stands still while paused, and the frames of a video are speed / fps apart.", "quantifier": "for all programs, all sequences of clock readings, and all sequences of key presses and calls that concern the animation", "why_tests_cant": "The animation loop depends on the clock of the computer and on the keyboard; a test cannot drive all interleavings of frames, events and keys, and needs a screen.", "anchors": ["salabim/salabim.py:Environment.simulate_and_animate_loop", "salabim/salabim.py:Environment.animation_parameters", "salabim/salabim.py:Environment.set_start_animation", "salabim/salabim.py:Environment.paused", "salabim/salabim.py:Environment.an_single_step", "salabim/salabim.py:Environment.an_synced", "salabim/salabim.py:Environment.peek"]}
{"id": "C75", "title": "The unit of time does not matter", "statement": "If all times and durations given to the calls of a model are multiplied by the same positive factor, all event times, scheduled times and remaining durations are multiplied by that factor and nothing else changes: the same calls succeed and fail, in the same order, with the same statuses, queues, claims and values. So a model whose times are given with a unit (env.hours(2), env.minutes(30)) gives the same results whatever the time_unit of the environment, once expressed in the same unit.", "quantifier": "for all positive factors, all origins of the time scale, all pairs of time units, all initial environments and all sequences of calls, whatever their outcomes", "why_tests_cant": "A test compares a few models in two units; a hidden absolute tolerance, a comparison with a fixed number or a forgotten conversion anywhere in the kernel shows only in models with particular ties, and the statement relates two runs of every model.", "anchors": ["salabim/salabim.py:Environment.run", "salabim/salabim.py:Environment.step", "salabim/salabim.py:Component.hold", "salabim/salabim.py:Component.activate", "salabim/salabim.py:Component.request", "salabim/salabim.py:Component.wait", "salabim/salabim.py:Component.from_store", "salabim/salabim.py:Component.to_store", "salabim/salabim.py:Component.remaining_duration", "salabim/salabim.py:Component.interrupt", "salabim/salabim.py:Component.resume", "salabim/salabim.py:Environment.reset_now", "salabim/salabim.py:Environment.hours", "salabim/salabim.py:Environment.to_time_unit"]}
{"id": "C76", "title": "Parts of a model that share nothing do not affect each other", "statement": "If the components of a model fall into two groups that use different resources, states and stores and never address each other, then adding, removing or changing the second group changes nothing for the first: its calls have the same outcomes, its components the same statuses, claims, queue places and scheduled times, its events stay in the same order, also when they coincide with each other or with events of the second group, and its components become current at the same times. Excepted by design: standby, by which a component becomes current after every event, and the moment at which run() without till ends, which is that of the last event of all.", "quantifier": "for all divisions of the components, resources, states and stores in two, all initial environments that agree on the first group, all interleavings of the calls, all outcomes", "why_tests_cant": "The statement relates every model to the same model with something else added; a shared counter, a scan over all components or a tie broken by a global sequence number shows only for particular interleavings, and there is no end to what can be added.", "anchors": ["salabim/salabim.py:Component._push", "salabim/salabim.py:Component._remove", "salabim/salabim.py:Environment.step", "salabim/salabim.py:Component.request", "salabim/salabim.py:Component._tryrequest", "salabim/salabim.py:Component.release", "salabim/salabim.py:Component.wait", "salabim/salabim.py:State.set", "salabim/salabim.py:State.trigger", "salabim/salabim.py:Component.from_store", "salabim/salabim.py:Component.to_store", "salabim/salabim.py:Component.hold", "salabim/salabim.py:Component.interrupt", "salabim/salabim.py:Component.cancel", "salabim/salabim.py:Resource.set_capacity"]}
{"id": "C77", "title": "Components wait in line by priority, then in order of arrival", "statement": "In every line (requesters and claimers of a resource, waiters of a state, those who wait at a store to get or to put something) components stand in order of the priority with which they joined. A component that has to wait after request, wait, wait_for, from_store or to_store is placed, in each of the lines concerned, behind everybody with the same or a smaller priority value and in front of everybody with a larger one, according to the priority given for the request. After that nobody overtakes: no call changes the order or the priorities of the others in any line, and nobody gets into a line except by its own request, wait, wait_for, from_store or to_store.", "quantifier": "for all reachable states, all calls and all their outcomes, including those that raise; the place for all calls by the current component", "why_tests_cant": "The order must hold in every line after every interleaving of joining, leaving, failing, interrupting and being honoured; tests look at a few lines.", "anchors": ["salabim/salabim.py:Component.enter_sorted", "salabim/salabim.py:Component.wait", "salabim/salabim.py:Component.wait_for", "salabim/salabim.py:Component.request", "salabim/salabim.py:Component.from_store", "salabim/salabim.py:Component.to_store", "salabim/salabim.py:Component._tryrequest", "salabim/salabim.py:Component._trywait", "salabim/salabim.py:Component._check_fail", "salabim/salabim.py:Component.leave"]}
{"id": "C78", "title": "Of priorities only their order matters", "statement": "Priorities are used for nothing but comparison with each other and with 0, the priority that is used if none is given. If all priorities in a model (of scheduling, of requests, waits and claims, of places in stores) are replaced by others that are in the same order and 0 stays 0, all calls succeed or fail in the same way, the same component becomes current at the same time at every step, and everything but the priorities themselves is the same: statuses, scheduled times, claims, the order in all lines, which claimers are bumped, what is in which store.", "quantifier": "for all order preserving replacements of priorities that leave 0 alone, all models started from scratch, all sequences of calls, all outcomes", "why_tests_cant": "The statement compares every model with infinitely many others; a priority that is added to a time, compared with a tolerance or by difference shows only for some values.", "anchors": ["salabim/salabim.py:Component._push", "salabim/salabim.py:Component._reschedule", "salabim/salabim.py:Component.enter_sorted", "salabim/salabim.py:Component.request", "salabim/salabim.py:Component._tryrequest", "salabim/salabim.py:Resource._tryrequest", "salabim/salabim.py:Component.wait", "salabim/salabim.py:Component.from_store", "salabim/salabim.py:Component.to_store", "salabim/salabim.py:Component.hold", "salabim/salabim.py:Component.activate", "salabim/salabim.py:Environment.run", "salabim/salabim.py:Environment.step"]}
{"id": "C79", "title": "A condition given to wait means the same in all its forms", "statement": "wait((state, value)) goes on when the condition holds for the present value of the state: a constant is compared with it, in an expression (a text with $) the $ stands for the value of the state, a function is called with it. The same condition has the same outcome whether it is given as constant, as expression or as function, and whether any or all of the conditions are required; the component goes on when one condition holds (with all=True: when all hold).", "quantifier": "for all expressions of the modelled part of python (any nesting), all values of the state, all lists of conditions, any and all", "why_tests_cant": "Expressions are texts into which the text of a value is substituted; whether precedence, quotes and signs survive the substitution depends on the expression and the value together, of which there is no finite list.", "anchors": ["salabim/salabim.py:Component.wait", "salabim/salabim.py:Component._trywait"]}
{"id": "C80", "title": "Components change status only along the state transition diagram", "statement": "A component changes status only by a call on it, along the arrows of the diagram (activate and create schedule it, hold schedules or interrupts it, passivate makes it passive, interrupt only a scheduled component, resume only an interrupted one, request/from_store/to_store make it requesting or schedule it, wait makes it waiting or schedules it, cancel and the end of its process make it data; only activate and create get it out of data), or because the scheduler makes it current (it has an event, or is on standby), or because it waits in a line and is honored by a release, set, capacity change or store operation, or because it loses a claim to a preempting request. Creating, activating, holding, passivating, waiting of one component never changes the status of another one.", "quantifier": "for all reachable states, all calls with any arguments and any outcome user code can continue after, and all components", "why_tests_cant": "The diagram is about every call in every state of the model; a test sees the arrows it takes, not that there are no others, in particular for components that are not involved in the call.", "anchors": ["salabim/salabim.py:Component.activate", "salabim/salabim.py:Component.hold", "salabim/salabim.py:Component.passivate", "salabim/salabim.py:Component.interrupt", "salabim/salabim.py:Component.resume", "salabim/salabim.py:Component.standby", "salabim/salabim.py:Component.cancel", "salabim/salabim.py:Component.request", "salabim/salabim.py:Component.wait", "salabim/salabim.py:Component.from_store", "salabim/salabim.py:Component.to_store", "salabim/salabim.py:Environment.step", "salabim/salabim.py:Environment.run"]}
{"id": "C81", "title": "An animated queue shows the queue", "statement": "After every frame the objects of an AnimateQueue (Animate3dQueue) on the screen are exactly those of the first max_length components of the queue (from the tail if reverse), as returned by their animation_objects, each displaced in the given direction by the sizes of the components before it (or that far along the trajectory); no object of a component that has left stays behind and no object of others is touched. Once it is removed, by remove() or keep, nothing of it is shown until show() is called.", "quantifier": "for all histories of frames with any values of the attributes and any contents of the queue, of calls of remove and (after a remove) show, and all animation_objects methods that make new objects", "why_tests_cant": "Objects left behind depend on the whole history of frames, on who entered and left in between and on the zoom; tests do not look at the set of objects on the screen after arbitrary histories.", "anchors": ["salabim/salabim.py:AnimateQueue.update", "salabim/salabim.py:AnimateQueue.show", "salabim/salabim.py:AnimateQueue.remove", "salabim/salabim.py:Animate3dQueue.update", "salabim/salabim.py:Animate3dQueue.show", "salabim/salabim.py:Animate3dQueue.remove", "salabim/salabim.py:Component.animation_objects"]}
{"id": "C82", "title": "A distribution given as text is the one that is meant", "statement": "The text 'Name(arguments)' with any beginning of the name (one letter, two for Cdf, CumPdf, Erlang and Poisson, three for External), in capitals or small letters and with blanks around it, stands for that distribution with exactly these arguments; a word that is no beginning of a name is left as it is; one, two or three numbers, with or without parentheses, stand for Constant, Uniform and Triangular and more are refused; time_unit is added to the arguments unless the text has one itself; sample() uses the given random stream and mean() gives the mean of that distribution.", "quantifier": "for all texts (any arguments, any letter case, any blanks), any evaluator of expressions, all distributions and all random streams", "why_tests_cant": "The texts are unbounded and the beginnings of the names overlap; which name wins depends on the order in which they are tried.", "anchors": ["salabim/salabim.py:Distribution.__init__", "salabim/salabim.py:Distribution.sample", "salabim/salabim.py:Distribution.mean"]}
{"id": "C83", "title": "A call does all it should, or it is refused and changes nothing", "statement": "A call that is not allowed in the present situation (hold, passivate, standby or a store call of a data component; interrupt of a component that is neither scheduled nor interrupted; resume of one that is not interrupted; setting the remaining duration of a current or standby component; activate of a data component without process; release of a resource that is not claimed; entering a store twice, at an invalid place or when it is full; leaving a store one is not in; an empty list of stores or one with duplicates) raises its exception and changes nothing at all; and a call with sensible arguments that is allowed does not raise.", "quantifier": "for all reachable states, all calls, all arguments and all amounts of fuel", "why_tests_cant": "Tests see one call in one situation; that an exception leaves every queue, event and status untouched, and that no situation makes an allowed call fail, are statements about all states and about the complete state.", "anchors": ["salabim/salabim.py:Component.hold", "salabim/salabim.py:Component.passivate", "salabim/salabim.py:Component.standby", "salabim/salabim.py:Component.interrupt", "salabim/salabim.py:Component.resume", "salabim/salabim.py:Component.activate", "salabim/salabim.py:Component.release", "salabim/salabim.py:Component.wait", "salabim/salabim.py:Component.wait_for", "salabim/salabim.py:Component.from_store", "salabim/salabim.py:Component.to_store", "salabim/salabim.py:Component.enter", "salabim/salabim.py:Component.leave"]}
{"id": "C84", "title": "An animated image shows the frame that belongs to the moment", "statement": "For an animated image with any frames, the frame shown after t seconds is the one that belongs to animation_from + t of the video (forward), or to the mirrored time (on the way back of a pingpong); repeated animations are the same in each round; before the start and after the end nothing is shown; a part outside the video is refused; and what is on the screen is always what was chosen last, though pictures are made again only when their number changes.", "quantifier": "for all lists of frame durations (at least two frames), all moments in any order, all parts from..to of the video, with or without repeat and pingpong", "why_tests_cant": "Frame boundaries, wrap-around and the reuse of pictures depend on the exact moment and on the history of earlier moments; tests see single moments of single images.", "anchors": ["salabim/salabim.py:ImageContainer.init", "salabim/salabim.py:ImageContainer.get_image", "salabim/salabim.py:Animate2dBase.make_pil_image"]}
{"id": "C85", "title": "An animated PNG video contains all its pictures, in order", "statement": "The file that is written when a recording as animated PNG is closed has the PNG format (signature, chunks with right length and crc), starts with the header of the first picture followed by the number of frames and of repetitions, and ends with IEND; a player that follows the format finds exactly the image data of all pictures in the order of recording (with pingpong: followed by the reverse), each with its own size and a duration of 1/fps; the sequence numbers are 0, 1, 2, ...; and the chunks of the file can be read in one way only.", "quantifier": "for all numbers of pictures, all pictures in PNG format (any size, any chunks and any division of the image data in chunks), all frame rates, numbers of repetitions and crc functions", "why_tests_cant": "The format is checked by players, not by the program; sequence numbers and lengths depend on how the image data of every picture is divided over chunks, which tests do not vary.", "anchors": ["salabim/salabim.py:_APNG.PNG.parse_chunks", "salabim/salabim.py:_APNG.PNG.init", "salabim/salabim.py:_APNG.make_chunk", "salabim/salabim.py:_APNG.append", "salabim/salabim.py:_APNG.to_bytes", "salabim/salabim.py:_APNG.FrameControl.to_bytes", "salabim/salabim.py:Environment.video_close"]}
{"id": "C86", "title": "Samples of the Poisson distribution have that distribution", "statement": "A sample of a Poisson distribution is the inverse of its cumulative distribution at the drawn random number: k is returned exactly for the random numbers of an interval with length exp(-mean) mean^k / k!. Sampling always ends, these probabilities add up to 1 and mean() is their expected value. The other method, that is used when no progress is made, returns the number of arrivals in one unit of time.", "quantifier": "for all positive means, all random numbers below 1 and all sequences of random numbers of the other method", "why_tests_cant": "Tests sample a number of times and compare averages; they can not see the probability of each value, nor that the loop ends for each random number.", "anchors": ["salabim/salabim.py:Poisson.sample", "salabim/salabim.py:Poisson.sample_fallback", "salabim/salabim.py:Poisson.mean"]}
{"id": "C87", "title": "Color specifications mean the documented colours", "statement": "#rrggbb and #rrggbbaa (in capitals or not), all color names (with any capitals and spaces, and optionally #aa), (color, alpha), fg and bg are translated to the documented four components; a result always has four components, which are 0 to 255 for texts. A color that is interpolated is the first color until t0, the second from t1 and between them each component is the linear interpolation, rounded down. If only a background is given, then the foreground is white or black, whichever contrasts with the background.", "quantifier": "for all components, all names of the table and all their spellings, all specifications, all moments and all backgrounds that do not refer to other colours", "why_tests_cant": "Colours are looked at, not tested; there are very many spellings, components and moments.", "anchors": ["salabim/salabim.py:colornames", "salabim/salabim.py:Environment.colorspec_to_tuple", "salabim/salabim.py:Environment.colorinterpolate", "salabim/salabim.py:interpolate", "salabim/salabim.py:Environment.is_dark", "salabim/salabim.py:Environment.animation_parameters"]}
{"id": "C88", "title": "An animated monitor shows the monitor", "statement": "The line of an animated level monitor is precisely the part of the history that is visible: at each visible moment it is at the height of the value of that moment. A non level monitor is shown as precisely the visible tallies. The visible part starts at the start of the monitor and, as soon as the frame is full, at now minus what fits in the width; then everything moves to the left at the horizontal scale. Nothing is drawn outside the frame. Labels are shown at the height of their value, when that is in the frame. All this is not changed by reset_now. is_removed tells whether the animation was removed.", "quantifier": "for all monitors, values, vertical maps that may fail, scales, sizes and moments", "why_tests_cant": "What is on the screen is not seen by unit tests; the picture depends on the whole history, on now, on the scales and on whether reset_now was called.", "anchors": ["salabim/salabim.py:AnimateMonitor.line", "salabim/salabim.py:AnimateMonitor.t_to_x", "salabim/salabim.py:AnimateMonitor.value_to_y", "salabim/salabim.py:AnimateMonitor.now_line", "salabim/salabim.py:AnimateMonitor.update", "salabim/salabim.py:AnimateMonitor.is_removed"]}
{"id": "C89", "title": "Printed statistics show the numbers, each in its column", "statement": "A number in a printed table means (read as a decimal numeral) the number itself if it is whole and below the limit of the column, the number rounded to the given decimals otherwise, and above the limit the number up to half a unit of the last decimal of its mantissa; it takes exactly the width of its column. A text takes exactly its column and is shown completely if it fits. Numbers are never cut off.", "quantifier": "for all numbers, including nan, inf, -inf and negative numbers, all widths and all numbers of decimals", "why_tests_cant": "Rounding, carry, sign and exponent only go wrong for few of the infinitely many numbers.", "anchors": ["salabim/salabim.py:fn", "salabim/salabim.py:pad", "salabim/salabim.py:rpad", "salabim/salabim.py:Monitor.print_statistics", "salabim/salabim.py:Monitor.print_histogram"]}
{"id": "C90", "title": "Shapes are drawn at their place, at the right size and under the right angle", "statement": "Each point of a line, polygon, rectangle or circle comes on the screen at the place of the shape plus the point and the offset, turned over the angle and scaled; so shapes are not deformed. The whole shape is in its image. A circle has its radius, its arc goes from the first to the last angle in small steps, and can be drawn for each radius. A polygon is closed. The corners of a regular polygon are on its circle at equal angles, the first at the initial angle. Rounded corners have the given radius. The offset of an image is scaled as that of a shape. When the user zooms, shapes are drawn again.", "quantifier": "for all points, places, offsets, angles, scales and linewidths", "why_tests_cant": "What is on the screen is not seen by unit tests; the place depends on eight parameters.", "anchors": ["salabim/salabim.py:Animate2dBase.make_pil_image", "salabim/salabim.py:AnimatePolygon", "salabim/salabim.py:AnimateCircle", "salabim/salabim.py:AnimateRectangle", "salabim/salabim.py:AnimateImage", "salabim/salabim.py:regular_polygon"]}
{"id": "C91", "title": "Samples of an external distribution are those that the distribution returned", "statement": "Each value that an external distribution (a function, or a distribution of scipy) returned is used as a sample exactly once, in the time unit of the model, in the order in which the values were returned, so it makes no difference how many are drawn at a time (size=). There is always a next sample. The mean is that of the distribution with its parameters.", "quantifier": "for all distributions, all sequences of values and arrays they return, all time units and all numbers of samples", "why_tests_cant": "Samples are random, so tests do not see which were skipped, repeated or put in another order.", "anchors": ["salabim/salabim.py:External.sample", "salabim/salabim.py:External.mean", "salabim/salabim.py:External.__init__"]}
{"id": "C92", "title": "Zooming and panning", "statement": "Zooming with the wheel of the mouse leaves the point under the mouse where it is, and as many notches out as in bring back the picture. A point that is dragged follows the mouse. u shows the whole picture again. Nothing of this is seen by the model: x0, x1, y0, y1 and scale remain what they are. While drawing, x0, x1, y0 and y1 are the edges of what is seen. At the start that is the part of the world given by x0, x1 and y0; when these are changed the picture changes. Conversions between screen and user coordinates are each other's inverse, and an anchor is at its place in the window.", "quantifier": "for all sizes and coordinates of the window, all zoom factors, all sequences of turns of the wheel, drags, unzooms and drawings, and all points and anchors", "why_tests_cant": "It takes a screen and a mouse to test this, and the deviations appear only after a particular sequence of mouse events.", "anchors": ["salabim/salabim.py:Environment.on_mousewheel", "salabim/salabim.py:Environment.start_pan", "salabim/salabim.py:Environment.do_pan", "salabim/salabim.py:Environment.unzoom", "salabim/salabim.py:Environment.animation_pre_tick", "salabim/salabim.py:Environment.animation_post_tick", "salabim/salabim.py:Environment.animation_parameters", "salabim/salabim.py:Environment.xy_anchor_to_x", "salabim/salabim.py:Environment.xy_anchor_to_y", "salabim/salabim.py:Environment.user_to_screen_coordinates_x", "salabim/salabim.py:Environment.screen_to_user_coordinates_x"]}
{"id": "C93", "title": "Pictures of another size are shown completely in a video", "statement": "A picture that is inserted in a video is shown completely and in its own proportions, as large as the size of the video allows, in the middle, with black borders. A picture of the size of the video is left as it is. This works for pictures of any size.", "quantifier": "for all sizes of the picture and of the video", "why_tests_cant": "Deviations of a pixel, or a failure, depend on the numerical values of four sizes; tests try a few.", "anchors": ["salabim/salabim.py:resize_with_pad", "salabim/salabim.py:Environment.insert_frame"]}
