(** Everything of a machine object that is not a state object: event queues, history maps,
    the triggering event, the user's data and a record of what was done. *)
From Verif Require Export Chart.

(** Library calls that user code makes besides returning a result:
    post_event (simple_state.hpp:284-292, state_machine.hpp:430-438), clear_shallow_history and
    clear_deep_history (simple_state.hpp:333-350, state_machine.hpp:448-489). *)
Inductive cmd :=
| CPost (e : event)
| CClearShallow (c : cls) (k : nat)
| CClearDeep (c : cls) (k : nat).

(** What a custom reaction does last (simple_state.hpp:294-331): the result functions of
    simple_state, or throwing an exception. *)
Inductive decision :=
| DDiscard
| DForward
| DDefer
| DTransit (d : init) (act : option nat)
| DTerminate
| DThrow (x : exn).

(** What user code can observe of the machine: triggering_event() and the innermost states in
    [state_begin(), state_end()). *)
Record view := View { v_trig : option event; v_leaves : list cls }.

(** What the library requests from the allocator on its own account: storage for a state object, an element of
    currentStates_ for an innermost state, elements of the history maps for a state that was exited, a copy of an event
    and an element of the deferred queue.  [ARecord c None] is the element of shallowHistoryMap_ for [c],
    [ARecord c (Some h)] the element of deepHistoryMap_ for the region of [h], for innermost state [c]. *)
Inductive asite := AState (c : cls) | AEntry (c : cls) | ARecord (c : cls) (x : option cls) | ADefer (e : event).
Global Instance asite_eq_dec : EqDecision asite.
Proof. solve_decision. Defined.

(** User code, over an arbitrary type [W] of user data. Every function may change the user data and
    issue library calls; all but the destructor may throw.  Simplification: a reaction performs
    its library calls before the result function it returns. *)
Record user (W : Type) := User {
  u_ctor : cls → view → W → W * list cmd * option exn;
  u_exit : cls → view → W → W * list cmd * option exn;
  u_dtor : cls → view → W → W * list cmd;
  u_action : nat → event → view → W → W * list cmd * option exn;
  u_instate : nat → event → view → W → W * list cmd * option exn;
  u_react : cls → nat → event → view → W → W * list cmd * decision;
  u_unconsumed : event → view → W → W * list cmd * option exn;
  (** The allocator of the machine (or of the event), called by simple_state::operator new
      (simple_state.hpp:442-447, detail/memory.hpp:42-74), event::operator new (event.hpp:38-41) and the lists
      and maps of the machine.  Allocators have no access to the machine. *)
  u_alloc : asite → W → W * option exn;
  (** The exception translator: the event passed to the handler, or None if the exception is not
      caught (null_exception_translator.hpp:24-38, exception_translator.hpp:26-52). *)
  u_translate : exn → option event }.
Arguments u_ctor {W} _ _ _ _.
Arguments u_exit {W} _ _ _ _.
Arguments u_dtor {W} _ _ _ _.
Arguments u_action {W} _ _ _ _ _.
Arguments u_instate {W} _ _ _ _ _.
Arguments u_react {W} _ _ _ _ _ _.
Arguments u_unconsumed {W} _ _ _ _.
Arguments u_alloc {W} _ _ _.
Arguments u_translate {W} _ _.

(** detail/reaction_dispatcher.hpp, result.hpp:25-41; no_reaction never leaves local_react. *)
Inductive rr := RForward | RDiscard | RDefer.
Global Instance rr_eq_dec : EqDecision rr.
Proof. solve_decision. Defined.

(** What happened. Ghost: not part of the code, records the calls to user code and library calls
    made by user code, and the steps of event processing, in order. *)
Inductive okind :=
| OCtor (p : ptr) (c : cls)             (* a state constructor completed *)
| OCtorThrow (p : ptr) (c : cls)        (* a state constructor threw *)
| OExit (p : ptr) (c : cls)             (* exit() was called *)
| ODtor (p : ptr) (c : cls)             (* a state destructor was called *)
| OAction (x : option ptr) (a : nat) (e : event) (* a transition action was called on x (None: the machine) *)
| OInState (a : nat) (e : event)        (* an in-state reaction's action was called *)
| OReact (p : ptr) (c : cls) (i : nat) (e : event) (* a custom reaction was called *)
| OUnconsumed (e : event)               (* unconsumed_event() was called *)
| OThrow (x : exn)                      (* the user code just called threw *)
| ORefused (a : asite)                  (* the allocator is about to throw *)
| OCatch (x : exn)                      (* an exception reaches the exception translator *)
| OPost (e : event)                     (* an event was posted *)
| OTake (e : event)                     (* the event loop takes an event from the queue *)
| ODispatch (e : event) (ls : list cls) (* the machine starts dispatching an event; [ls] are the
                                           states in [state_begin(), state_end()) *)
| OVisit (p : ptr) (c : cls) (e : event) (* a state is asked to react *)
| OResult (p : ptr) (c : cls) (r : rr)  (* the state's own reactions are done with the event *)
| ODefer (e : event)                    (* the dispatched event is put in the deferred queue *)
| ORelease                              (* the deferred events are released *)
| OHandle (p : ptr) (e : event)         (* an exception event is sent to a state *)
| OTransit (p : ptr) (c : cls) (d : init) (* a transition starts *)
| OTerminate (p : ptr) (c : cls)        (* terminate() of a state starts *)
| OProcess (e : event)                  (* process_event() was called *)
| ODone                                 (* dispatching an event ended, normally or by an exception *)
| OHandled                              (* handling an exception event succeeded *)
| OUnhandled                            (* handling an exception event ended with an exception *)
| OHistS (c h : cls)                    (* shallow_history<c> is about to enter h *)
| OHistD (c l : cls)                    (* deep_history<c> is about to enter the innermost state l *)
| OClearS (c : cls) (k : nat)           (* clear_shallow_history<c, k>() was called *)
| OClearD (c : cls) (k : nat)           (* clear_deep_history<c, k>() was called *)
| OReset.                               (* all events and all history are discarded *)

(** Each entry carries the value of triggering_event() at that moment. *)
Record obs := Obs { ob_trig : option event; ob : okind }.

Notation hist := (gmap (option nat * nat) (option nat)) (only parsing).

(** Members of state_machine (state_machine.hpp:1070-1081): eventQueue_, deferredEventQueue_,
    shallowHistoryMap_, deepHistoryMap_ (a stored construct function is represented by the class it
    constructs: the historized state, resp. the innermost state), pTriggeringEvent_,
    isInnermostCommonOuter_, performFullExit_; plus user data, the ghost trace, and, also ghost, for each
    call of user code how long the trace was and what [state_begin(), state_end()) contained. *)
Record env (W : Type) := Env {
  queue : list event;
  deferred : list event;
  shallow_map : hist;
  deep_map : hist;
  trig : option event;
  ico : bool;
  full : bool;
  world : W;
  trace : list obs;
  sights : list (nat * list cls) }.
Arguments Env {W}.
Arguments queue {W}. Arguments deferred {W}. Arguments shallow_map {W}. Arguments deep_map {W}.
Arguments trig {W}. Arguments ico {W}. Arguments full {W}. Arguments world {W}. Arguments trace {W}. Arguments sights {W}.

Section setters.
Context {W : Type}.
Definition set_queue (q : list event) (e : env W) : env W :=
  Env q (deferred e) (shallow_map e) (deep_map e) (trig e) (ico e) (full e) (world e) (trace e) (sights e).
Definition set_deferred (q : list event) (e : env W) : env W :=
  Env (queue e) q (shallow_map e) (deep_map e) (trig e) (ico e) (full e) (world e) (trace e) (sights e).
Definition set_shallow (m : hist) (e : env W) : env W :=
  Env (queue e) (deferred e) m (deep_map e) (trig e) (ico e) (full e) (world e) (trace e) (sights e).
Definition set_deep (m : hist) (e : env W) : env W :=
  Env (queue e) (deferred e) (shallow_map e) m (trig e) (ico e) (full e) (world e) (trace e) (sights e).
Definition set_trig (t : option event) (e : env W) : env W :=
  Env (queue e) (deferred e) (shallow_map e) (deep_map e) t (ico e) (full e) (world e) (trace e) (sights e).
Definition set_ico (b : bool) (e : env W) : env W :=
  Env (queue e) (deferred e) (shallow_map e) (deep_map e) (trig e) b (full e) (world e) (trace e) (sights e).
Definition set_full (b : bool) (e : env W) : env W :=
  Env (queue e) (deferred e) (shallow_map e) (deep_map e) (trig e) (ico e) b (world e) (trace e) (sights e).
Definition set_world (w : W) (e : env W) : env W :=
  Env (queue e) (deferred e) (shallow_map e) (deep_map e) (trig e) (ico e) (full e) w (trace e) (sights e).
Definition log (k : okind) (e : env W) : env W :=
  Env (queue e) (deferred e) (shallow_map e) (deep_map e) (trig e) (ico e) (full e) (world e)
    (trace e ++ [Obs (trig e) k]) (sights e).
Definition saw (l : list cls) (e : env W) : env W :=
  Env (queue e) (deferred e) (shallow_map e) (deep_map e) (trig e) (ico e) (full e) (world e)
    (trace e) (sights e ++ [(length (trace e), l)]).
End setters.

(** The state of a machine: the part about state objects ([X]) and the environment. *)
Record mst (W X : Type) := MSt { core : X; en : env W }.
Arguments MSt {W X}. Arguments core {W X}. Arguments en {W X}.

Section calls.
Context {W X : Type} (ch : chart) (U : user W).
Context (leaves : X → list cls).
Notation MM := (M (mst W X)).

Definition on_env (f : env W → env W) : MM unit := modify (λ s, MSt (core s) (f (en s))).
Definition on_core (f : X → X) : MM unit := modify (λ s, MSt (f (core s)) (en s)).
Definition emit (k : okind) : MM unit := on_env (log k).

(** post_event_impl, state_machine.hpp:521-530. *)
Definition do_post (e : event) (v : env W) : env W := set_queue (queue v ++ [e]) (log (OPost e) v).

(** clear_shallow_history / clear_deep_history, state_machine.hpp:448-489: the static assertion on
    the history mode, mpl::at_c, and the key of region k of the historized state's context
    (history_key::make_history_key, state_machine.hpp:186-194). *)
Definition clear_ok (kind : cdef → bool) (c : cls) (k : nat) : bool :=
  kind (cd ch c) && bool_decide (k < nreg ch c).
Definition do_cmd (x : cmd) : MM unit :=
  match x with
  | CPost e => on_env (do_post e)
  | CClearShallow c k =>
      if clear_ok cd_shallow c k
      then on_env (λ v, set_shallow (<[(Some c, k) := None]> (shallow_map v)) (log (OClearS c k) v))
      else faulty FStatic
  | CClearDeep c k =>
      if clear_ok cd_deep c k
      then on_env (λ v, set_deep (<[(Some c, k) := None]> (deep_map v)) (log (OClearD c k) v))
      else faulty FStatic
  end.

(** Calling a piece of user code: it sees the machine, changes the user data, issues its library
    calls in order and then returns. *)
Definition ucall {A} (f : view → W → W * list cmd * A) : MM A :=
  let! s := gets id in
  let v := View (trig (en s)) (leaves (core s)) in
  let '(w, cs, r) := f v (world (en s)) in
  on_env (λ e, set_world w (saw (leaves (core s)) e)) ;!
  iter do_cmd cs ;!
  ret r.

(** A call that may end in an exception. *)
Definition ucall_x (f : view → W → W * list cmd * option exn) : MM unit :=
  let! r := ucall f in
  match r with
  | None => ret tt
  | Some x => emit (OThrow x) ;! throw x
  end.

(** Requesting storage (detail/memory.hpp:42-74).  Simplifications: only requests of the library itself are
    modelled; a request made by a library call of user code (post_event, clear_shallow_history) is user code that
    throws; a request for the handle of an event posted by the client always succeeds. *)
Definition alloc (a : asite) : MM unit :=
  let! s := gets id in
  let '(w, r) := u_alloc U a (world (en s)) in
  on_env (set_world w) ;!
  match r with
  | None => ret tt
  | Some x => emit (ORefused a) ;! emit (OThrow x) ;! throw x
  end.
End calls.
