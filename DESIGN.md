# Formal model of Boost.Statechart: design

## Layers

| layer | files | what it is |
|---|---|---|
| outcomes | `Base.v` | state + exception monad; undefined behaviour and failed assertions are explicit `Fault` outcomes, running out of event-loop iterations is `Div` |
| static structure | `Chart.v` | what the C++ types and metaprograms compute (contexts, regions, history modes, innermost common context, context lists) and the static assertions as the decidable predicate `wf_chart` |
| user code | `Env.v` | constructors, `exit()`, destructors, actions, reactions, `unconsumed_event` and the exception translator as arbitrary total functions over an arbitrary type of user data; queues, history maps, triggering event, ghost trace, ghost record of what each callback sees (`sights`) |
| concrete machine | `Machine.v` | `state_machine`, `simple_state`, `state`, `node_state`, `leaf_state` function by function: heap of reference-counted state objects, `currentStates_` with its end iterator, raw pointers; before each callback, every pointer that the callback may follow is followed (`look_around`) |
| client | `Api.v` | histories of API calls, reachable machine states |
| abstract machine | `Abs.v` | the same functions without pointers: occupancy of regions instead of a heap, no reference counts |
| refinement | `ChartFacts.v`, `NoDiv.v`, `Refine*.v` | concrete machine and abstract machine make the same callbacks and give the same results (including faults) |
| specification | `Spec.v`, `CommonContext.v`, `TraceSpec.v`, `Meaning.v`, `Seen.v` | small declarative definitions used in theorem statements: what is alive after a trace, what a transition leaves and enters, what history a trace records |
| invariants | `Wp.v`, `Good.v`, `Leave.v`, `Vacant.v`, `WpExit.v`, `WpTerm.v`, `Build.v`, `WpBuild.v`, `Steps.v`, `WpReact.v`, `WpEvent.v` | Hoare rules and the invariant of the abstract machine, absence of faults |
| ghost trace | `Ledger.v`, `Tracks.v`, `Replay.v`, `Story.v`, `Calls.v`, `Moves.v` | queues, history maps and active states as functions of the trace; the trace of each call |
| consequences | `Escape.v`, `React.v`, `Kept.v`, `Asked.v`, `Outcome.v`, `Unstable.v`, `Recall.v`, `QueueMono.v`, `Shift.v`, `Sight.v` | exceptions, reaction search, frames, history recall, what callbacks see |
| example machine | `Demo.v` | a chart and a script that use every feature; non-vacuity of the theorems |
| properties | `Props*.v` | the property theorems, nothing but statements and references to lemmas, with examples |
| asynchronous part | `Fifo*.v` (`FifoLive.v`: fair executions without end), `Sched*.v`, `Async*.v` | `fifo_worker` with threads, mutex and condition variable; `processor_container`/`fifo_scheduler`; their composition with the machine model (`asynchronous_state_machine`) |
| lookups | `Cast.v` | `state_cast`, `state_downcast`, `context`, `outermost_context` |
| small value types | `EventRef.v`, `ResultVal.v`, `HistoryKey.v`, `Rtti.v` | event reference counting, `result`, history key order, type information |
| tests | `Tests.v`, `TestsFifo.v`, end of `PropsRtti.v` | the scenarios of /repo/test run in the model, the compile-fail tests as charts that `wf_chart` rejects (tests of the model, not proofs of properties). Missing are `TuTest` (several translation units) and the `InvalidResult*`/`UnconsumedResult` tests, which are about `result` objects (C42) |

The property theorems are about the concrete machine. The abstract machine is a proof device.

## Trusted base

- Coq 8.16.1's kernel (and `vm_compute` for the examples).
- `Print Assumptions` is issued for every property theorem in the `Props*.v` files; expected output
  everywhere: `Closed under the global context` (std++ is used only for definitions and lemmas that
  are themselves axiom-free).
- `vcheck` lists seven names of `Coq.ssr.ssrunder` as library axioms: they are parameters of a module type of Coq's
  standard library that is loaded with std++; no theorem depends on them.
- That the model is a faithful reading of the code. Every definition cites the lines it models.

### Modelled
`state_machine.hpp`, `simple_state.hpp` (with and without `BOOST_STATECHART_RELAX_TRANSITION_CONTEXT`), `state.hpp`, `detail/state_base.hpp`,
`detail/node_state.hpp`, `detail/leaf_state.hpp`, `detail/constructor.hpp`,
`detail/counted_base.hpp`, `detail/reaction_dispatcher.hpp`, `transition.hpp`, `termination.hpp`,
`deferral.hpp`, `in_state_reaction.hpp`, `custom_reaction.hpp`, `shallow_history.hpp`,
`deep_history.hpp`, `exception_translator.hpp`, `null_exception_translator.hpp`, `result.hpp`,
`event_base.hpp`, `event.hpp`, `detail/rtti_policy.hpp`, `fifo_worker.hpp`, `fifo_scheduler.hpp`, `processor_container.hpp`,
`event_processor.hpp`, `asynchronous_state_machine.hpp`.

### Not modelled
- Under `BOOST_STATECHART_RELAX_TRANSITION_CONTEXT`, actions that are members of the source state of the transition: they
  do not compile (see the findings below).
- Allocator exceptions in places other than these four: a state object, a list entry of an innermost state, the history
  elements of a state that is left, a deferred event. The creation of events by client code never fails in the model.
  An exception from the list in `post_event()` or from the map in `clear_*_history()` is, in a callback, a callback that
  throws without having made the call; outside it leaves everything as it was.
- Memory exhaustion in the worker and the scheduler in places other than where an item is put into the queue and where a
  holder is put into the set of holders: function objects and holders are created before a request is queued, and a
  failure leaves everything as it was; a failing `new Processor` is a constructor that throws. Processors the destructor
  of which uses their scheduler while that is being destroyed.
- In the machine model a dynamic type is a number and type comparison is equality; that `detail/rtti_policy.hpp`
  behaves like this, with and without `BOOST_STATECHART_USE_NATIVE_RTTI`, is C55. Not modelled: the order of types
  other than in history keys (C43); event and state classes derived from the class given as MostDerived (C55_derived
  says how the two versions differ there).
- Illegal user code: calling `process_event` recursively from callbacks, touching `*this` after
  `transit()`/`terminate()`, throwing destructors, reaction functions doing more library calls after the
  result function.
- Thread interleavings inside a single state machine (the library forbids sharing).
- C++ memory model weaker than sequential consistency for the mutex-protected worker queue.

## Representation decisions

- Object addresses are never re-used, so a dangling pointer is always detected (`FDangling`).
- `std::list` iterators are indices: `currentStates_` never erases elements.
- The allocator is a user function that may throw (`u_alloc`). It is asked for the list entry of an innermost state each
  time one is entered, also when `std::list` would reuse an old node, and for history elements also when they exist
  already; here the model has all behaviours of the code, and in addition some exceptions that the code cannot have.
- A stored history construct function is represented by the class it constructs.
- Recursions bounded by the static nesting carry fuel derived from the number of classes; that it never runs
  out is part of C01.
- `process_queued_events` may really loop forever; it takes the number of iterations as an argument and all
  theorems quantify over it.

## Plan per property

- C01-C04: refinement to the abstract machine, then an inductive invariant over all API histories.
- C02, C20: trace invariants (every constructed object destroyed once; exit directly before destruction).
- C05-C10: characterisation of `transit`, `terminate` and `initiate` on reachable stable machines:
  the trace suffix equals a declaratively defined list.
- C11, C12: induction over the reaction search; the visited states are a declaratively defined list.
- C13-C16: invariants relating trace (posted/dispatched/deferred) and queues.
- C17-C19, C22, C23: case analysis of the exception paths under the invariant.
- C21 (`Vacant.v`, `Unstable.v`, `PropsReact.v`): the invariant of an aborted transition says which regions became
  empty and that the marked outermost unstable state encloses them all. A region may be empty for good (its state
  terminated), so "unstable" means: a region lost its inner state since the transition began.
- C24: every trace entry carries `triggering_event()`; invariant over all calls.
- C25-C27: history map as a function of the trace; construction reads it.
- C28 (`Shift.v`, `PropsFresh.v`): two-run simulation. Every function of the abstract machine does the same on a
  machine whose addresses are moved by a fixed distance, whose trace has a prefix and whose history maps have extra
  empty entries; `isInnermostCommonOuter_` may differ while there is no state (it can be left true by an action that
  throws after the outermost state was left), because entering an outermost state resets it either way. User code
  sees no addresses in this model, so it cannot tell the machines apart. A terminate() in which an exception is thrown
  and handled is excluded: C45 shows that it may discard nothing.
- C29: frame lemma for reactions that do not transit or terminate.
- C30 (`Cast.v`, `PropsCast.v`): models of `state_cast`/`state_downcast` on the heap, run on machines between calls
  (not at instants inside a call, where user code could also ask).
- C47 (`Cast.v`, `PropsCast.v`): `context()`/`outermost_context()` follow the context pointers of the heap.
- C31: refuted for machines with an exception translator (witness); holds if the translator translates nothing, or if
  nothing is thrown while the machine is terminated.
- C32: destruction order on reachable machines.
- C33: list lemma about the context lists.
- C34-C38 (`Fifo.v`, `FifoInv.v`, `PropsFifo.v`): small-step model of threads, mutex and condition variable;
  one invariant, kept by every step. Nested calls of operator() are part of the model, and so are calls of
  queue_work_item() that throw because there is no memory for the item (`SQFail`, event `FFail`); `C34_calls` describes the
  calls of a thread, each of which puts its item into the queue or throws.
- C39 (`Sched.v`, `SchedInv.v`, `PropsSched.v`): the container's state about one handle follows from the requests
  executed for that handle; `C39_create_threw`: a creation that could not be queued; C40: refuted by a witness; `C40_exact_partial` says
  all that can happen to a handle whose creation failed. The insertion of the holder into the set may fail (`effects_full`);
  then the constructor is not called and all requests on the handle are ignored (fourth case of the theorem).
- C41 (`EventRef.v`, `EventInv.v`, `PropsEvent.v`): heap of event objects with counts; every count equals the number of
  pointers to the object.
- C42 (`ResultVal.v`, `PropsResult.v`): objects holding a result or nothing; assertion failures are stuck.
- C46 (`PropsFifo.v`): exclusion from the mutex invariant; a queueing call is completed by running the holder of the
  lock until it releases it (every holder can), then the caller.
- C43: direct model.
- C44: monotonicity in the number of iterations.
- C45: refuted by witnesses; `C45_exact_partial` shows that an exception that is translated and handled is the only
  cause, and `C45_untranslated_partial` that the claim holds with a translator that translates nothing.
- C48 (`PropsWait.v`): the deferred queue as a function of the trace, plus the release after every destruction of a
  state that deferred.
- C49 (`PropsLoop.v`): potential function over the grammar of the event loop: an iteration either consumes an event or
  defers one without releasing any.
- C50 (`Async.v`, `AsyncInv.v`, `PropsAsync.v`): every processor of the scheduler model is a machine of the synchronous
  model; invariant: it equals a run of the calls that the finished requests stand for. Determinism from C44.
- C51 (`Sight.v`, `PropsSight.v`): every callback of the concrete machine first walks from each listed state, and from its
  own context, to the machine object; dangling or null pointers are faults, so C01 covers the safety. The list of states
  at each callback is recorded; invariant over the steps of the abstract machine: it is the order computed from the
  trace up to that moment. The rest is about traces: who is listed, and that outer states of living states live and stay.
- C52 (`PropsRelax.v`): a chart says whether the macro is defined and which class each action is a member of
  (`ch_relax`). `transit` leaves states in two halves around the action; the Hoare rules and the trace grammar carry both
  lists of left states. Theorems that hold only without the macro have the hypothesis `ch_relax ch = None`: the order of
  all exits in one transition (`C05_transition`), exits before the action (in `C07_phases`), the outermost unstable state
  as first handler (`C21_unstable`). All others are proved with and without it.
- C53 (`PropsRelax.v`): every action in the trace carries the object that it was called on; the grammar of a transition
  says which one that is.
- C54 (`Alloc.v`, `PropsAlloc.v`): an entry `ORefused` in the trace before the exception of an allocator. The grammar of
  an interrupted transition or initiation says what was next when the allocator threw; the rest is about the grammar.
  `C54_record` also uses C20 (what follows an exit) and the history as a function of the trace: the entry of a refused
  history element records the state for the elements that come before it. That such an entry directly follows the exit
  of its state (`Asked.v`) is also needed for C23, C26 and C27.
- C56 (`FifoLive.v`, `PropsLive.v`): executions without end as functions from moments to states; fairness in the form "for
  every moment there is a later one at which the thread makes a step, or from which on it is never able to", which needs
  no classical axiom. The holder of the lock always gets nearer to releasing it, hence every thread inside the library
  makes its next step; the worker gets nearer to calling an item with each of its steps (C35 when it is blocked).
  `C56_requests` adds C39: while the scheduler looks for the next item no request is half executed.
- C57 (`sched_destroy` in `Sched.v`, `PropsEnd.v`): the destructor of the scheduler as destructions of shared pointers,
  first those in queued creations, then those in the set, in any order. The invariants of C39 say how many there are.
- C55 (`Rtti.v`, `PropsRtti.v`): direct model of the static id providers and of objects that point to them; programs are
  lists of creations, copies, clones and settings of identifiers; the objects and the last setting as functions of the list.

## Where the code and the expected property disagree

Each entry is a theorem whose name ends in `_refuted`; the witness is run by the model of the code.

- C31. `initiate()` first calls `terminate()`. If an `exit()` throws there and an exception reaction
  recovers (it transits), `terminate()` returns with the machine running
  (`state_machine.hpp`: `terminate` passes `terminator` to the exception translator; `send_event` of the
  translated event consumes it). `initiate()` then constructs a second outermost state.
- C45. The same path without `initiate()`: `terminate()` returns and the machine runs. If the reaction
  terminates instead of transiting the machine is terminated, but the queue of pending events is not
  discarded, because `terminator` was left by the exception before it reached the clearing statements.
- C40. `create_processor_impl` inserts the (empty) holder into the set before it constructs the processor.
  If the constructor throws the holder stays there empty; the next request on the handle locks it
  successfully and calls through a null pointer.
- C27. Clearing history is not final: exiting a state of the region afterwards records history again. The
  property states that proviso.
- C52, order. With the macro, sibling regions of the action's state are left after it: a state of region 0 can be left
  before a state of region 1 (`C52_reverse_refuted`). Inner states are still left before their outer states.
- C52, exceptions. `transit_impl` terminates twice, around the action. The first `terminate()` makes the action's state
  the outermost unstable state. If an `exit()` in another region throws in the second `terminate()`, the exception event is
  sent to the action's state, although a region of a state outside it has lost its inner state. A reaction there
  makes the machine count as stable, and `process_event` returns with that region empty (`C52_handler_refuted`).
- C52, documentation. doc/configuration.html lets an action be a member of any state between source and common context.
  An action of the source itself does not compile: `context_ptr<MostDerived>()` (`simple_state.hpp:771`) searches the
  source among its own contexts and ends at `state_machine<>`, which has no such member. This was read, not compiled.
- C54, deferral. `process_event` and `process_queued_events` put a deferred event into the deferred queue after
  `send_event` returned and after `terminator` was dismissed (`state_machine.hpp`). If that insertion throws, the exception is not
  translated, the machine is not terminated, and the event is in no queue (`C54_defer_refuted`). doc/reference.html says
  that exceptions leave `process_event` only through the translator or `unconsumed_event`.
