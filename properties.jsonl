{"id": "C01", "title": "No undefined behaviour and no failing assertion", "statement": "For every statechart that compiles and every history of initiate/process_event/post_event/terminate/clear-history calls and the final destructor call, the library never dereferences a dangling or null state pointer, never destroys a state object twice, never decrements an empty state list and never trips one of its BOOST_ASSERTs, whatever the state constructors, exit functions, reactions, transition actions and unconsumed_event do (post events, clear history, throw), provided initiate() is only issued when its implicit terminate() really terminates the machine.", "quantifier": "all well-formed charts, all user callbacks including throwing ones, all translators, all finite API histories", "why_tests_cant": "The pointer and reference-count manipulations depend on where an exception is thrown and on which orthogonal regions are still populated; tests cover a handful of shapes.", "anchors": ["include/boost/statechart/state_machine.hpp: terminate_impl, add, handle_exception_event", "include/boost/statechart/simple_state.hpp: exit_impl, deep_construct, ~simple_state", "include/boost/statechart/detail/node_state.hpp: remove_from_state_list", "include/boost/statechart/detail/leaf_state.hpp: remove_from_state_list", "include/boost/statechart/detail/state_base.hpp: intrusive_ptr_release"]}
{"id": "C02", "title": "Every state object is destroyed exactly once", "statement": "Every state object whose constructor completed is destructed exactly once, its destructor never runs before its constructor completed, no state object whose constructor threw is destructed, and whenever terminated() is true no state object is alive.", "quantifier": "all charts, all user callbacks, all API histories", "why_tests_cant": "Leaks and double destruction only appear for particular interleavings of exceptions and regions.", "anchors": ["include/boost/statechart/simple_state.hpp: intrusive_ptr_release, ~simple_state, shallow_construct", "include/boost/statechart/state_machine.hpp: terminate_impl, terminator"]}
{"id": "C03", "title": "The machine is stable between calls", "statement": "Whenever initiate(), process_event() or terminate() has returned or thrown, every active state that declares inner states has at least one active inner state, and terminated() is true exactly when state_begin() == state_end().", "quantifier": "all charts, all user callbacks, all API histories", "why_tests_cant": "A partially constructed configuration can only be excluded by an invariant over all throw points.", "anchors": ["include/boost/statechart/state_machine.hpp: send_event, handle_exception_event, terminated, state_begin, state_end"]}
{"id": "C04", "title": "Active configuration is well formed", "statement": "Between calls at most one state per orthogonal region is active, the outer state of an active state is active, and iterating [state_begin(), state_end()) yields every active innermost state exactly once and nothing else.", "quantifier": "all charts, all user callbacks, all API histories", "why_tests_cant": "Relates the iteration order list, which is permuted by swaps on every exit, to the tree of active states.", "anchors": ["include/boost/statechart/state_machine.hpp: add_impl, state_iterator", "include/boost/statechart/detail/leaf_state.hpp: remove_from_state_list", "include/boost/statechart/detail/node_state.hpp: add_inner_state, remove_inner_state"]}
{"id": "C05", "title": "Exit order", "statement": "When a transition, a termination or terminate() exits states without any exception, exit() is called on an inner state before its outer state, states in a higher-numbered orthogonal region are completely exited before those in a lower-numbered sibling region, and each exit() call is directly followed by the destruction of that state object. (With BOOST_STATECHART_RELAX_TRANSITION_CONTEXT a transition may split this order in two, see C52.)", "quantifier": "all charts, all stable configurations, all non-throwing user callbacks", "why_tests_cant": "The order must hold for arbitrary nesting and arbitrary sets of still-active regions.", "anchors": ["include/boost/statechart/detail/node_state.hpp: remove_from_state_list", "include/boost/statechart/simple_state.hpp: exit_impl", "include/boost/statechart/state_machine.hpp: terminate_impl"]}
{"id": "C06", "title": "A transition exits exactly the states below the innermost common context", "statement": "A transition from S to D destroys exactly the active states that are S's ancestor-or-self directly below the innermost common context of S and D, plus all states inside that one; every other active state keeps its object and receives no exit() call.", "quantifier": "all charts, all configurations, all valid source/destination pairs, all user callbacks", "why_tests_cant": "Requires reasoning about reference counts for every configuration: outer states are kept alive only by counted pointers.", "anchors": ["include/boost/statechart/simple_state.hpp: transit_impl, exit_impl", "include/boost/statechart/state_machine.hpp: terminate_as_part_of_transit"]}
{"id": "C07", "title": "Exit, then transition action, then entry", "statement": "In a transition all exit() calls and destructors come before the transition action, which comes before every constructor of a newly entered state; if the action throws nothing is entered by that transition. (With BOOST_STATECHART_RELAX_TRANSITION_CONTEXT part of the exits follow the action, see C52; entry still follows both.)", "quantifier": "all charts, configurations, transitions and user callbacks", "why_tests_cant": "Universal over transitions and callbacks.", "anchors": ["include/boost/statechart/simple_state.hpp: transit_impl, transition_function", "include/boost/statechart/detail/constructor.hpp: outer_constructor, inner_constructor"]}
{"id": "C08", "title": "Entry order", "statement": "Entering constructs an outer state before its inner states, and the inner states of orthogonal region i (with everything inside them) before those of region j > i; this holds for initiate() and for transitions.", "quantifier": "all charts, all non-throwing user callbacks", "why_tests_cant": "Universal over nesting, region counts and transition targets in the middle of region lists.", "anchors": ["include/boost/statechart/detail/constructor.hpp: outer_constructor", "include/boost/statechart/simple_state.hpp: deep_construct, deep_construct_inner"]}
{"id": "C09", "title": "Destination and complete regions after a transition", "statement": "After a transition to D completes, D and all its outer states are active, and every state entered by the transition has an active inner state in each of its orthogonal regions.", "quantifier": "all charts, configurations, valid transitions, non-throwing user callbacks", "why_tests_cant": "Universal over charts.", "anchors": ["include/boost/statechart/detail/constructor.hpp: make_context_list, constructor", "include/boost/statechart/simple_state.hpp: transit_impl"]}
{"id": "C10", "title": "Termination of a state cascades exactly as far as needed", "statement": "terminate() on a state S (or a termination reaction) destroys S, everything inside S, and exactly those outer states of S all of whose other inner regions are empty, continuing outward until an outer state with another active inner state is found; it terminates the machine iff that reaches the outermost state.", "quantifier": "all charts, all stable configurations, all user callbacks", "why_tests_cant": "The cascade is driven by reference counts; its extent depends on the history of earlier terminations.", "anchors": ["include/boost/statechart/state_machine.hpp: terminate_as_reaction", "include/boost/statechart/simple_state.hpp: exit_impl"]}
{"id": "C11", "title": "Reaction search order within a state and outward", "statement": "For an innermost state, reaction search tries that state's reactions in declaration order, takes the first whose event type matches, and moves to the directly outer state only if no reaction matched or the reaction forwarded the event.", "quantifier": "all charts, events, active configurations, user callbacks", "why_tests_cant": "Universal over reaction lists and nesting depth.", "anchors": ["include/boost/statechart/simple_state.hpp: react_impl, local_react", "include/boost/statechart/detail/reaction_dispatcher.hpp: reaction_dispatcher"]}
{"id": "C12", "title": "An event is consumed at most once and reported unconsumed exactly when nobody consumed it", "statement": "Dispatch visits the active innermost states in state_begin() order and stops at the first whose search discards, transits, terminates or defers; unconsumed_event is called exactly once if all of them forwarded and is not called otherwise. On a terminated machine every dispatched event is reported to unconsumed_event.", "quantifier": "all charts, configurations, events, user callbacks", "why_tests_cant": "Universal over configurations and forwarding behaviours.", "anchors": ["include/boost/statechart/state_machine.hpp: send_event"]}
{"id": "C13", "title": "Posted events are processed first-in first-out after the current event", "statement": "Events posted by any user code while an event (or initiate) is being processed are dispatched only after that event's processing finished and, among themselves, in the order they were posted, unless a deferral release or a termination intervenes.", "quantifier": "all charts, user callbacks, any number of posted events", "why_tests_cant": "Unbounded queues and arbitrary posting patterns.", "anchors": ["include/boost/statechart/state_machine.hpp: post_event_impl, process_queued_events, process_event, initiate"]}
{"id": "C14", "title": "process_event and initiate drain the queue", "statement": "When process_event() or initiate() returns normally no posted event is pending; the only events still held are deferred ones.", "quantifier": "all charts, user callbacks, histories (for calls that return)", "why_tests_cant": "Universal over posting patterns.", "anchors": ["include/boost/statechart/state_machine.hpp: process_queued_events"]}
{"id": "C15", "title": "Deferred events wait and come back in order, before posted events", "statement": "An event for which the reaction is deferral is deferred, unless the allocator throws. A deferred event is not dispatched again until a state object that deferred at least one event is destructed; at that moment all deferred events, in deferral order, are put in front of the pending posted events.", "quantifier": "all charts, user callbacks, histories", "why_tests_cant": "Depends on arbitrary interleavings of deferral, posting and exits.", "anchors": ["include/boost/statechart/state_machine.hpp: release_events, process_event, process_queued_events", "include/boost/statechart/simple_state.hpp: defer_event, ~simple_state"]}
{"id": "C16", "title": "No event is lost or duplicated", "statement": "As long as the machine is not terminated explicitly or by an escaping exception, every event passed to process_event or posted is, at every return point, accounted for exactly once: dispatched with a non-deferring outcome, or still pending, or still deferred, or it could not be deferred because the allocator threw.", "quantifier": "all charts, user callbacks, histories", "why_tests_cant": "A conservation law over unbounded histories.", "anchors": ["include/boost/statechart/state_machine.hpp: process_event, process_queued_events, release_events, post_event_impl"]}
{"id": "C17", "title": "terminate() and escaping exceptions discard all events and history", "statement": "When terminate() returns and no user code threw meanwhile, and after any call that an exception escaped other than one thrown by unconsumed_event or by the allocator when an event was to be deferred, the machine is terminated and there are no pending events, no deferred events and no recorded history.", "quantifier": "all charts, user callbacks, histories", "why_tests_cant": "Universal over states of the queues and maps.", "anchors": ["include/boost/statechart/state_machine.hpp: terminate_impl, terminator"]}
{"id": "C18", "title": "An exception that escapes destroys all states without calling exit()", "statement": "If an exception escapes from initiate(), terminate() or process_event() and it was not thrown by unconsumed_event or by the allocator when an event was to be deferred, then terminated() is true, all state objects are destructed, and no exit() was called after the exception was thrown.", "quantifier": "all charts, translators, user callbacks, throw points, histories", "why_tests_cant": "Every callback is a potential throw point in every configuration.", "anchors": ["include/boost/statechart/state_machine.hpp: terminator, send_event, handle_exception_event", "include/boost/statechart/simple_state.hpp: exit_impl"]}
{"id": "C19", "title": "A throwing unconsumed_event loses nothing", "statement": "If unconsumed_event throws, the exception reaches the caller, the active states are unchanged by the throw, and the pending and deferred events remain available to the next process_event call.", "quantifier": "all charts, user callbacks, histories", "why_tests_cant": "Universal over queue contents.", "anchors": ["include/boost/statechart/state_machine.hpp: send_event, process_queued_events"]}
{"id": "C20", "title": "exit() is called at most once, right before destruction", "statement": "For each state object exit() is called at most once, and only immediately before that object's destructor (in between there is at most an exception, of exit() or of the history record); the machine destructor never calls exit().", "quantifier": "all charts, user callbacks, histories", "why_tests_cant": "Universal over histories and throw points.", "anchors": ["include/boost/statechart/simple_state.hpp: exit_impl", "include/boost/statechart/state_machine.hpp: ~state_machine, terminate_impl"]}
{"id": "C21", "title": "Exception events start at the outermost unstable state and only move outward", "statement": "When user code throws and the translator produces an exception event, reaction search for it starts at the outermost unstable state if the machine is unstable and otherwise at the innermost state being dispatched to, and then visits only its outer states, never another region. (Without BOOST_STATECHART_RELAX_TRANSITION_CONTEXT; C52 says what happens with it.)", "quantifier": "all charts, translators, throw points, configurations", "why_tests_cant": "The outermost unstable state is maintained incrementally at every entry and exit.", "anchors": ["include/boost/statechart/state_machine.hpp: handle_exception_event, add", "include/boost/statechart/simple_state.hpp: set_outermost_unstable_state, exit_impl"]}
{"id": "C22", "title": "Successful and unsuccessful exception handling", "statement": "An exception is swallowed exactly when the machine was not terminated, the translator produced an event, the reaction consumed it by discarding, transiting or terminating, and the machine is stable afterwards; otherwise (and always when it was thrown by the allocator for an event to be deferred) the original exception (or the one thrown by the exception event reaction) reaches the caller.", "quantifier": "all charts, translators, user callbacks", "why_tests_cant": "Universal over throw points and reactions.", "anchors": ["include/boost/statechart/state_machine.hpp: handle_exception_event", "include/boost/statechart/exception_translator.hpp", "include/boost/statechart/null_exception_translator.hpp"]}
{"id": "C23", "title": "No exit() during exception handling", "statement": "From the moment an exception is thrown until the exception event reaction has completed, states that leave the configuration are only destructed; exit() is not called and no history is recorded for them.", "quantifier": "all charts, translators, throw points", "why_tests_cant": "Universal over throw points.", "anchors": ["include/boost/statechart/state_machine.hpp: handle_exception_event (performFullExit_)", "include/boost/statechart/simple_state.hpp: exit_impl"]}
{"id": "C24", "title": "triggering_event()", "statement": "In every callback made while event e is dispatched triggering_event() designates e, in every callback made while an exception event is handled it designates the exception event, and in callbacks made by initiate()'s construction or by terminate() it is null; after each call returns or throws it is null again.", "quantifier": "all charts, user callbacks, histories", "why_tests_cant": "Set and restored by nested scope guards across exceptions.", "anchors": ["include/boost/statechart/state_machine.hpp: terminator, triggering_event"]}
{"id": "C25", "title": "Shallow history", "statement": "Entering a region through shallow history enters the direct inner state of that region that was most recently exited normally (then its default inner states), or the given default state if none was recorded since the last initiate/terminate/clear.", "quantifier": "all charts, histories of exits, clears, re-entries", "why_tests_cant": "Universal over histories.", "anchors": ["include/boost/statechart/state_machine.hpp: store_shallow_history, construct_with_shallow_history", "include/boost/statechart/simple_state.hpp: check_store_shallow_history", "include/boost/statechart/shallow_history.hpp"]}
{"id": "C26", "title": "Deep history", "statement": "Entering a region through deep history re-activates exactly the chain of states down to the innermost state that was most recently exited normally in that region, or the default state if none was recorded.", "quantifier": "all charts, histories", "why_tests_cant": "Universal over histories and nesting depth.", "anchors": ["include/boost/statechart/state_machine.hpp: store_deep_history, construct_with_deep_history", "include/boost/statechart/simple_state.hpp: store_deep_history_impl, deep_history_storer", "include/boost/statechart/deep_history.hpp"]}
{"id": "C27", "title": "Clearing history", "statement": "After clear_shallow_history/clear_deep_history<C, i>() the next entry of region i of C through that kind of history enters the default state, unless a state of that region is exited in between; other regions' history is unaffected.", "quantifier": "all charts, histories", "why_tests_cant": "Universal over map contents.", "anchors": ["include/boost/statechart/state_machine.hpp: clear_shallow_history, clear_deep_history, history_key"]}
{"id": "C28", "title": "Re-initiating is like starting afresh", "statement": "After a terminate() during which no user code throws (and after a call that ended with an exception not thrown by unconsumed_event() or by the allocator when an event was to be deferred), the behaviour of a machine, i.e. all callbacks made and results returned by any later calls including destruction, is the same as that of a newly constructed machine in the same user-data state. The same holds for what initiate() does after its own terminate().", "quantifier": "all charts, user callbacks, histories before and after", "why_tests_cant": "An equivalence over all continuations.", "anchors": ["include/boost/statechart/state_machine.hpp: initiate, terminate, terminate_impl"]}
{"id": "C29", "title": "In-state reactions, discards and forwards do not change the configuration", "statement": "An event whose dispatch performs no transition, termination or exception handling leaves the set of active state objects, their order of iteration and the recorded history unchanged and runs no constructor, exit() or destructor.", "quantifier": "all charts, configurations, events", "why_tests_cant": "Universal.", "anchors": ["include/boost/statechart/simple_state.hpp: react_impl, local_react", "include/boost/statechart/in_state_reaction.hpp"]}
{"id": "C30", "title": "state_cast / state_downcast", "statement": "state_downcast<const S *>() returns the unique active object of type S if S is active and null otherwise; state_cast to a base class returns the first match walking outward from each innermost state in iteration order.", "quantifier": "all charts, reachable configurations, target types", "why_tests_cant": "Universal over configurations.", "anchors": ["include/boost/statechart/state_machine.hpp: state_cast, state_downcast", "include/boost/statechart/simple_state.hpp: outer_state_ptr"]}
{"id": "C31", "title": "initiate() on a running machine starts from an empty configuration", "statement": "When initiate() constructs the initial state no other state is active, so afterwards exactly one outermost state is active.", "quantifier": "all charts, translators, user callbacks, histories", "why_tests_cant": "Needs an exit() that throws and an exception reaction that recovers, while initiate() is called on a running machine.", "anchors": ["include/boost/statechart/state_machine.hpp: initiate, terminate, add_inner_state"]}
{"id": "C32", "title": "Machine destruction", "statement": "Destroying a machine in any reachable state destructs all its active states, innermost first and highest region first, without calling exit().", "quantifier": "all charts, histories", "why_tests_cant": "Universal.", "anchors": ["include/boost/statechart/state_machine.hpp: ~state_machine, terminate_impl"]}
{"id": "C33", "title": "Innermost common context of a transition", "statement": "The context under which a transition exits and enters is the innermost state (or the machine) that is a proper outer context of both source and destination; transitions whose exit and entry side lie in different orthogonal regions of it do not compile.", "quantifier": "all charts, all source/destination pairs", "why_tests_cant": "Compile-time computation over arbitrary type lists.", "anchors": ["include/boost/statechart/simple_state.hpp: transit_impl, context_type_list", "include/boost/statechart/detail/constructor.hpp: make_context_list"]}
{"id": "C34", "title": "fifo_worker: every work item runs at most once, in queueing order", "statement": "For every interleaving of any number of threads calling queue_work_item and of worker calls operator(), the sequence of executed work items is a prefix of the sequence of items in the order in which they entered the queue; in particular items queued by one thread run in that thread's order and no item is lost or run twice. A call of queue_work_item either puts exactly its item into the queue before it returns, or it throws because there is no memory, and then nothing has happened and the worker can be used further.", "quantifier": "all schedules, all numbers of producer threads, all items (including ones that queue items or throw), calls of queue_work_item failing at any time", "why_tests_cant": "Concurrency: schedules cannot be enumerated by tests.", "anchors": ["include/boost/statechart/fifo_worker.hpp: queue_work_item, dequeue_item, operator()"]}
{"id": "C35", "title": "fifo_worker: no lost wake-up", "statement": "A worker blocked in operator() on an empty queue is never left blocked with no pending notification while the queue is non-empty.", "quantifier": "all schedules", "why_tests_cant": "Concurrency.", "anchors": ["include/boost/statechart/fifo_worker.hpp: queue_work_item_impl, dequeue_item"]}
{"id": "C36", "title": "fifo_worker: item count", "statement": "operator()(n) returns the number of items it executed; that is at most n when n > 0; a non-waiting worker returns early only if the queue was empty at that moment or the worker was terminated.", "quantifier": "all queue contents, n, work items", "why_tests_cant": "Universal over queue contents and re-entrant queueing.", "anchors": ["include/boost/statechart/fifo_worker.hpp: operator(), dequeue_item"]}
{"id": "C37", "title": "fifo_worker: termination", "statement": "terminate() takes effect in queue order: items queued before it are executed first, items queued after it are never executed by this or later operator() calls, and terminated() becomes true exactly when the termination item was executed.", "quantifier": "all schedules, queue contents", "why_tests_cant": "Universal.", "anchors": ["include/boost/statechart/fifo_worker.hpp: terminate, terminate_impl, terminated, operator()"]}
{"id": "C38", "title": "fifo_worker: a throwing work item", "statement": "If a work item throws, the exception propagates from operator(), exactly that item has been removed, and the remaining items stay queued in order for the next call.", "quantifier": "all queue contents, all items", "why_tests_cant": "Universal.", "anchors": ["include/boost/statechart/fifo_worker.hpp: operator(), dequeue_item"]}
{"id": "C39", "title": "Scheduler handles", "statement": "initiate_processor, terminate_processor, queue_event and destroy_processor requests on a handle are applied in request order, after the creation of the processor, and are silently ignored once the processor has been destroyed; requests for one processor never affect another processor. If create_processor throws because its request cannot be queued, nothing of the processor is left and nothing is ever requested of it.", "quantifier": "all request sequences over all handles", "why_tests_cant": "Universal over request sequences.", "anchors": ["include/boost/statechart/fifo_scheduler.hpp: create_processor, destroy_processor, initiate_processor, terminate_processor, queue_event", "include/boost/statechart/processor_container.hpp: create_processor_impl, destroy_processor_impl, queue_event_impl"]}
{"id": "C40", "title": "Requests to a processor whose constructor threw", "statement": "If the constructor of a processor throws while its creation request is executed, later requests on its handle are ignored. The same holds if there is no memory to register the processor with the scheduler.", "quantifier": "all request sequences", "why_tests_cant": "Needs a throwing constructor in combination with later requests.", "anchors": ["include/boost/statechart/processor_container.hpp: create_processor_impl, initiate_processor_impl, queue_event_impl"]}
{"id": "C41", "title": "Queued events are independent of the caller's event object", "statement": "post_event, process_event (when the event is deferred) and queue_event keep either a reference-counted share of a heap event or a copy of a non-counted event, so the queued event stays valid and equal to the original after the caller's object is gone, and each event object is released exactly once.", "quantifier": "all sequences of posts, copies and releases", "why_tests_cant": "Lifetime property over histories.", "anchors": ["include/boost/statechart/event_base.hpp: intrusive_from_this", "include/boost/statechart/event.hpp: clone", "include/boost/statechart/detail/counted_base.hpp"]}
{"id": "C42", "title": "Reaction results are used exactly once", "statement": "A result value obtained from discard_event/forward_event/defer_event/transit/terminate and passed on by value exactly once never trips the library's assertions and is read exactly once with its original value; dropping or duplicating it is detected in debug builds.", "quantifier": "all chains of copies", "why_tests_cant": "Universal over copy chains.", "anchors": ["include/boost/statechart/result.hpp: safe_reaction_result, result_utility"]}
{"id": "C43", "title": "History keys form a strict weak order", "statement": "The comparison used for the history maps is a strict weak order whose equivalence is equality of (context type, region), so that std::map never confuses or loses entries.", "quantifier": "all keys", "why_tests_cant": "Universal.", "anchors": ["include/boost/statechart/state_machine.hpp: history_key"]}
{"id": "C44", "title": "Waiting longer for the event queue to drain never changes the outcome", "statement": "The result of a call that returns does not depend on how many queue iterations a client is prepared to wait for: if it finishes within some number of iterations then it finishes with the same result and the same effects for every larger number.", "quantifier": "all charts, callbacks, histories", "why_tests_cant": "Universal; ties the fuelled model to the unbounded loop.", "anchors": ["include/boost/statechart/state_machine.hpp: process_queued_events"]}
{"id": "C45", "title": "terminate() always terminates", "statement": "Whenever terminate() returns (normally) the machine is terminated and no pending or deferred event and no history is left, even if an exit() threw during it.", "quantifier": "all charts, translators, user callbacks, histories", "why_tests_cant": "Needs an exit() that throws during terminate() and an exception reaction that handles it, by a transition or by terminating.", "anchors": ["include/boost/statechart/state_machine.hpp: terminate, terminator, send_event"]}
{"id": "C46", "title": "fifo_worker: shared data is accessed exclusively and queueing never deadlocks", "statement": "No two threads are ever at the same time about to touch the work queue; only the thread calling operator() changes the terminated flag; no lock is held while a work item (or any client code) runs; and a call of queue_work_item() or terminate() from any thread, including from within a work item, can always complete by steps of the library alone, with exactly that item queued.", "quantifier": "all schedules, any number of threads, all work items, both waiting and non-waiting workers", "why_tests_cant": "Concurrency: data races and deadlocks depend on schedules that tests do not control.", "anchors": ["include/boost/statechart/fifo_worker.hpp: queue_work_item_impl, dequeue_item, terminate, operator()"]}
{"id": "C47", "title": "context<>() and outermost_context() name live objects", "statement": "On any active state, context< X >() returns the one active object of class X if X is the state's class or one of its enclosing states, and the machine if X is the machine class; outermost_context() returns the machine. Neither ever follows a dangling pointer.", "quantifier": "all charts, reachable configurations, active states and enclosing classes", "why_tests_cant": "Universal over configurations; a stale context pointer usually still reads plausible memory.", "anchors": ["include/boost/statechart/simple_state.hpp: context, context_impl, outermost_context", "include/boost/statechart/state_machine.hpp: outermost_context"]}
{"id": "C48", "title": "A deferred event waits for the state that deferred it", "statement": "Whenever an event is in the deferred queue, the state object whose deferral reaction put it there is still active; in particular a terminated machine has no deferred events.", "quantifier": "all charts, user callbacks, histories of calls", "why_tests_cant": "A deferred event that outlives its state is silently lost until some other deferring state is exited; it depends on how the deferring state was left (transition, terminate, abort by exception, destruction of the outer state).", "anchors": ["include/boost/statechart/simple_state.hpp: defer_event, deferred_events, exit_impl", "include/boost/statechart/state_machine.hpp: release_events, terminate_impl, send_event"]}
{"id": "C49", "title": "The event loop ends unless user code keeps posting events", "statement": "initiate() and process_event() never loop on their own: if user code posts only finitely many events during the call, the call ends. More precisely, if M is the number of events waiting (posted or deferred) before the call, plus the event handed in, plus those posted during the call, at most 1 + 2 + ... + M events are taken from the queue; deferred events coming back cannot keep the loop alive.", "quantifier": "all charts, user callbacks, histories of calls, numbers of iterations", "why_tests_cant": "Termination for all inputs; deferral and release could cycle for particular combinations of deferring states and transitions, possibly through exceptions.", "anchors": ["include/boost/statechart/state_machine.hpp: process_event, process_queued_events, release_events, send_event"]}
{"id": "C50", "title": "An asynchronous machine behaves like a synchronous one fed with the queued requests", "statement": "A state machine run by a scheduler is at any moment in exactly the state, with exactly the calls to user code made, of a machine that is used directly from one thread by the calls that the executed requests stand for (initiate(), process_event(), terminate()), in the order in which the requests were queued; threads, interleavings, other machines, repeated calls of the scheduler and exceptions thrown by any machine make no difference. After its destruction it does not exist and later requests for it have no effect.", "quantifier": "all charts, user callbacks, numbers of machines and threads, interleavings, requests, exceptions", "why_tests_cant": "Ranges over all thread interleavings and over all machines run by the same scheduler.", "anchors": ["include/boost/statechart/asynchronous_state_machine.hpp", "include/boost/statechart/event_processor.hpp", "include/boost/statechart/processor_container.hpp: create_processor_impl0, initiate_processor_impl, queue_event_impl, terminate_processor_impl, destroy_processor_impl", "include/boost/statechart/fifo_scheduler.hpp"]}
{"id": "C51", "title": "Callbacks can look at the machine: lookups are safe and tell the truth", "statement": "While any user code runs (a constructor of a state<>, an exit(), a destructor, an action, a reaction, unconsumed_event()) and between calls, state_begin()/state_end(), state_cast<>(), state_downcast<>(), context<>() and outermost_context() never touch a destroyed object. What they find is true: the visited innermost states are exactly those that are constructed, not destroyed and whose exit() has not been called, each once and in the documented order; everything found by going outward from them, and every outer context of the state whose code runs, is alive and not being left.", "quantifier": "all charts, user callbacks, histories of calls, all moments at which user code runs (including during stack unwinding)", "why_tests_cant": "Needs every intermediate configuration of every exit, unwinding and entry sequence; a pointer that dangles only while a sibling region is half destroyed is seen by hardly any test.", "anchors": ["include/boost/statechart/state_machine.hpp: state_cast, state_downcast, state_begin, state_end, add, remove_from_unstable", "include/boost/statechart/simple_state.hpp: context, outermost_context, exit_impl, ~simple_state", "include/boost/statechart/detail/leaf_state.hpp: remove_from_state_list", "include/boost/statechart/detail/state_base.hpp: outer_state_ptr"]}
{"id": "C52", "title": "Relaxed transition context: the action runs while its state is still active", "statement": "With BOOST_STATECHART_RELAX_TRANSITION_CONTEXT, a transition whose action is a member of an outer state O of the source leaves exactly the states inside O, calls the action while O and all its outer states are active, and only then leaves O and the remaining states up to the innermost common context, before anything is entered. If O is not left by the transition, or the action is a member of the machine, everything is left before the action as without the macro. Each of the two halves is left in the usual exit order. The order of the whole need not be the reverse of the entry order, and an exception in the second half may be sent to O rather than to the outermost unstable state: both are refuted.", "quantifier": "all charts, action owners, configurations, transitions and user callbacks", "why_tests_cant": "The repository runs its tests with the macro but every action in them is a member of a state that is not left, so the relaxed path is never taken; the claim quantifies over nestings and regions.", "anchors": ["include/boost/statechart/simple_state.hpp: transit_impl (lines 727-812), context_ptr", "doc/configuration.html: BOOST_STATECHART_RELAX_TRANSITION_CONTEXT"]}
{"id": "C53", "title": "A transition action is called on the right object", "statement": "A transition action is called on the innermost common context of source and destination: on the machine object, or on the state object of that class that is active when the action is called (never on a state that was already left). With BOOST_STATECHART_RELAX_TRANSITION_CONTEXT an action that is a member of an outer state O of the source is called on the active object of class O if the transition leaves O, otherwise on the innermost common context, which is O or lies inside O.", "quantifier": "all charts, action owners, configurations, transitions and user callbacks", "why_tests_cant": "The context is found by walking raw pointers from objects that are being destroyed; a test sees a wrong object only if the wrong object behaves visibly differently.", "anchors": ["include/boost/statechart/simple_state.hpp: transit_impl, transition_function", "include/boost/statechart/simple_state.hpp: context_ptr, context"]}
{"id": "C54", "title": "What an allocator exception can leave behind", "statement": "When the Allocator throws, the exception is thrown on at once like one of user code. During a transition, memory for new states is requested only after all states to be left have been left (and exited), and the state that could not be created is the next one in entry order, or the innermost state that has just been constructed and is then destructed again; likewise in initiate(). Leaving a state needs memory only to record it in a history: if there is none then exit() of that state has just returned, the state is destructed, no state has been entered yet, the state has been recorded in the histories that come before the one without memory (first the shallow history of its outer state, then the deep histories from the inside out), and all other history keeps what it recorded before. When an event cannot be deferred the exception is not translated: it reaches the caller, the machine keeps its active states, its queued and its deferred events, and only the event that was to be deferred is lost.", "quantifier": "all charts, user callbacks, allocators, histories", "why_tests_cant": "Every allocation in every configuration is a potential throw point; tests use the default allocator, which never throws.", "anchors": ["include/boost/statechart/simple_state.hpp: construct, deep_construct", "include/boost/statechart/state_machine.hpp: store_shallow_history, store_deep_history", "include/boost/statechart/state_machine.hpp: add_impl, process_event, process_queued_events", "doc/reference.html: Throws clauses of initiate and process_event"]}
{"id": "C55", "title": "Type information tells classes apart, and custom identifiers are those set last", "statement": "For every state or event object, dynamic_type() equals C::static_type() exactly if C is the class of the object; this holds for all copies, including the internal clones of events, and with and without BOOST_STATECHART_USE_NATIVE_RTTI. custom_dynamic_type_ptr<T>() returns 0 as long as no identifier has been set for the class of the object; afterwards it returns the identifier set last, whether the object was created before or after that; a null identifier can be read as any type, and reading another one as a wrong type is caught by an assertion. For a class derived from MostDerived the two versions differ: without native RTTI its objects have the type of MostDerived, with native RTTI they match no static_type(), while clones of them do.", "quantifier": "all programs that create, copy and clone objects and set identifiers, all classes", "why_tests_cant": "TypeInfoTest tries two classes, one object each and one order of the operations, in one of the two build versions.", "anchors": ["include/boost/statechart/detail/rtti_policy.hpp: rtti_base_type, rtti_derived_type", "include/boost/statechart/event.hpp: clone", "doc/reference.html: custom_dynamic_type_ptr, custom_static_type_ptr", "test/TypeInfoTest.cpp"]}
{"id": "C56", "title": "fifo_worker and fifo_scheduler: under a fair scheduler of threads nothing waits for ever", "statement": "If the scheduler and the mutex are fair to all threads, every call of queue_work_item() and terminate() returns, or throws if there is no memory for its item; a call of operator() that looks for work, also one that is blocked because the queue was empty, calls the item that has been in the queue longest; and as long as the worker is not terminated, work items return or throw and operator() is called again when it is left, every item that any thread ever passed to queue_work_item() in a call that did not throw is called some time, those of one thread in the order in which it queued them. Likewise everything that is requested of a processor of a fifo_scheduler happens to it, in order, up to its destruction.", "quantifier": "all fair executions without end, of any number of threads making any calls", "why_tests_cant": "A test observes finitely many steps of a few interleavings; a lost wake-up or a starving caller shows only in executions without end.", "anchors": ["include/boost/statechart/fifo_worker.hpp: queue_work_item, operator(), dequeue_item", "doc/reference.html: FifoWorker concept", "include/boost/statechart/fifo_scheduler.hpp: operator(), queue_event"]}
{"id": "C57", "title": "Destruction of a fifo_scheduler", "statement": "When a fifo_scheduler is destroyed (no thread being inside one of its member functions), every processor that still exists is destroyed, exactly once, and one that was destroyed before is not destroyed again: each experiences exactly what it would if destroy_processor() had been executed for it last. Requests that are still in the queue have no effect; a processor whose creation is still in the queue is never constructed. Nothing that create_processor() allocated is left. A state machine is at its destruction what a machine used synchronously would be after the executed requests.", "quantifier": "all interleavings of any number of threads making any requests before the destruction, all orders of the set of processors", "why_tests_cant": "Which requests are still queued, and which shared_ptr to a processor is the last one, depends on the interleaving and on where exceptions interrupted operator(); tests try a few.", "anchors": ["include/boost/statechart/fifo_scheduler.hpp: container_, worker_", "include/boost/statechart/processor_container.hpp: create_processor, create_processor_impl, destroy_processor_impl, processorSet_", "include/boost/statechart/fifo_worker.hpp: workQueue_"]}
