(** * Processors run by a scheduler ([fifo_scheduler], [processor_container])

    Model of /repo/include/boost/statechart/fifo_scheduler.hpp 29-194 and processor_container.hpp 60-430 on top of the
    model of [fifo_worker] (Fifo.v): the work items are the requests, and the container changes when a request is
    made, when it is executed and when its execution ends.

    Simplifications:
    - what a processor does when it is constructed, initiated, terminated or sent an event is arbitrary
      (event_processor.hpp 23-78 and asynchronous_state_machine.hpp 31-80 only forward the call);
    - the overloads of create_processor() for 1 to 6 constructor arguments are one operation;
    - a processor does not call operator() of its own scheduler, see [legal];
    - exhausted memory is modelled where an item is put into the queue (Fifo.v, [SQFail]) and where a holder is put into
      the set ([effects_full]); a failing [new Processor] counts as a constructor that throws;
    - the destructor of a processor does not use the scheduler while that is destroyed, see [sched_destroy]. *)
From stdpp Require Import gmap.
From Verif Require Export FifoSpec.

(** A handle is a weak_ptr to a holder (processor_container.hpp 76).  Handle 0 is a default-constructed handle. *)
Notation handle := nat (only parsing).

(** The work items made by processor_container.hpp 112-302, and other work items (fifo_scheduler.hpp 159-171). *)
Inductive req :=
| RCreate (h : handle)              (* create_processor_impl0..6 *)
| RInitiate (h : handle)            (* initiate_processor_impl *)
| RTerminate (h : handle)           (* terminate_processor_impl *)
| REvent (h : handle) (e : nat)     (* queue_event_impl *)
| RDestroy (h : handle)             (* destroy_processor_impl *)
| RWork (n : nat).                  (* any other work item *)

(** What happens to processors. *)
Inductive aev :=
| AConstruct (h : handle)           (* the constructor is called *)
| AInit (h : handle)                (* initiate() is called *)
| ATerm (h : handle)                (* terminate() is called *)
| AEvent (h : handle) (e : nat)     (* process_event(e) is called *)
| ADestruct (h : handle)            (* the destructor is called *)
| AFault (h : handle).              (* a null pointer is dereferenced: undefined behaviour *)

(** processor_container.hpp 72-76, 422-429: the set of holders; for every handle how many shared_ptrs to its holder
    exist and whether the holder holds a processor; the shared_ptr that the function being executed holds. *)
Record cont := Cont {
  cset : gset handle;               (* processorSet_ *)
  cuse : handle → nat;              (* use_count() of the holder, 0: there is none (any more) *)
  cproc : handle → bool;            (* the holder's pointer is not null *)
  cheld : option handle;            (* the local variable pProcessor, lines 383, 393, 403, 414 *)
  clog : list aev                   (* ghost *)
}.
Definition cont_init : cont := Cont ∅ (λ _, 0) (λ _, false) None [].

Definition set_fn {A} (f : handle → A) (h : handle) (a : A) : handle → A :=
  λ h', if decide (h' = h) then a else f h'.
Definition set_use (h : handle) (n : nat) (c : cont) : cont :=
  Cont (cset c) (set_fn (cuse c) h n) (cproc c) (cheld c) (clog c).
Definition set_proc (h : handle) (c : cont) : cont :=
  Cont (cset c) (cuse c) (set_fn (cproc c) h true) (cheld c) (clog c).
Definition set_set (x : gset handle) (c : cont) : cont :=
  Cont x (cuse c) (cproc c) (cheld c) (clog c).
Definition set_held (o : option handle) (c : cont) : cont :=
  Cont (cset c) (cuse c) (cproc c) o (clog c).
Definition say (a : aev) (c : cont) : cont :=
  Cont (cset c) (cuse c) (cproc c) (cheld c) (clog c ++ [a]).

(** A shared_ptr to the holder is copied. *)
Definition share (h : handle) (c : cont) : cont := set_use h (S (cuse c h)) c.
(** A shared_ptr to the holder is destroyed; the last one destroys the holder, which destroys the processor. *)
Definition unshare (h : handle) (c : cont) : cont :=
  let c' := set_use h (pred (cuse c h)) c in
  if decide (cuse c' h = 0) then (if cproc c h then say (ADestruct h) c' else c') else c'.

(** create_processor in the calling thread, lines 112-124, 304-307: the holder is created; when the function returns
    the work item owns it. *)
Definition create_call (h : handle) (c : cont) : cont := set_use h 1 c.

(** create_processor_impl0, lines 309-316: up to the constructor call, and after it. *)
Definition create_start (h : handle) (c : cont) : cont :=
  say (AConstruct h)
    (if decide (h ∈ cset c) then c else set_set ({[h]} ∪ cset c) (share h c)).
Definition create_end (ok : bool) (h : handle) (c : cont) : cont :=
  unshare h (if ok then set_proc h c else c).

(** initiate_processor_impl, terminate_processor_impl, queue_event_impl, lines 391-420: lock(), then the call through
    the holder's pointer; at the end pProcessor is destroyed. *)
Definition op_start (h : handle) (a : aev) (c : cont) : cont :=
  if decide (cuse c h = 0) then c
  else if cproc c h then say a (set_held (Some h) (share h c))
  else say (AFault h) c.
Definition op_end (c : cont) : cont :=
  match cheld c with
  | Some h => unshare h (set_held None c)
  | None => c
  end.

(** destroy_processor_impl, lines 381-389. *)
Definition destroy_start (h : handle) (c : cont) : cont :=
  if decide (cuse c h = 0) then c
  else
    let c := set_held (Some h) (share h c) in
    if decide (h ∈ cset c) then unshare h (set_set (cset c ∖ {[h]}) c) else c.

Definition exec_start (r : req) (c : cont) : cont :=
  match r with
  | RCreate h => create_start h c
  | RInitiate h => op_start h (AInit h) c
  | RTerminate h => op_start h (ATerm h) c
  | REvent h e => op_start h (AEvent h e) c
  | RDestroy h => destroy_start h c
  | RWork _ => c
  end.
(** The function returned ([ok]) or an exception left it; then the work item is destroyed
    (fifo_worker.hpp 124-136). *)
Definition exec_end (ok : bool) (r : req) (c : cont) : cont :=
  match r with
  | RCreate h => create_end ok h c
  | RWork _ => c
  | _ => op_end c
  end.

(** What the steps of the worker mean for the container. *)
Definition effect (fs : list (frame req)) (e : fev req) (c : cont) : cont :=
  match e with
  | FCall _ (IUser (RCreate h)) => create_call h c
  (* the exception destroys the item in create_processor(), fifo_scheduler.hpp 47-55; the holder was only in that *)
  | FFail _ (IUser (RCreate h)) => unshare h c
  | FStart (IUser r) => exec_start r c
  | FItemRet =>
    match fs with Frame _ _ (Some (IUser r)) :: _ => exec_end true r c | _ => c end
  | FThrow =>
    match fs with Frame _ _ (Some (IUser r)) :: _ => exec_end false r c | _ => c end
  | _ => c
  end.

Definition handle_of (r : req) : option handle :=
  match r with
  | RCreate h | RInitiate h | RTerminate h | REvent h _ | RDestroy h => Some h
  | RWork _ => None
  end.

(** What clients can do: create_processor() makes a new handle; a handle is known only to those who got it from
    create_processor(), which has queued the creation by then; operator() is not called by work items. *)
Definition legal (s : fifo req) (e : fev req) : Prop :=
  match e with
  | FCall _ (IUser (RCreate h)) => h ≠ 0 ∧ ∀ t, FCall t (IUser (RCreate h)) ∉ ftr s
  | FCall _ (IUser r) =>
    match handle_of r with
    | Some h => h = 0 ∨ IUser (RCreate h) ∈ pushed (ftr s)
    | None => True
    end
  | FRun _ => fstack s = []
  | _ => True
  end.

Record sched := Sched { sf : fifo req; scont : cont }.

Definition faulted (c : cont) : Prop := ∃ h, AFault h ∈ clog c.

(** The same, with the exception of line 314: if there is no memory for the entry of the set, create_processor_impl0 ends
    with an exception before the constructor is called; so it only returns if the holder is in the set. *)
Inductive effects (fs : list (frame req)) (e : fev req) (c : cont) : cont → Prop :=
| effects_usual :
    (∀ h n k fs', e = FItemRet → fs = Frame n k (Some (IUser (RCreate h))) :: fs' → h ∈ cset c) →
    effects fs e c (effect fs e c)
| effects_full h : e = FStart (IUser (RCreate h)) → effects fs e c c.

(** Undefined behaviour ends the execution. *)
Inductive sstep (t : tid) : sched → sched → Prop :=
| sstep_quiet s s' c : step t s s' → ftr s' = ftr s → ¬ faulted c →
    sstep t (Sched s c) (Sched s' c)
| sstep_event s s' c c' e : step t s s' → ftr s' = ftr s ++ [e] → legal s e → ¬ faulted c →
    effects (fstack s) e c c' → sstep t (Sched s c) (Sched s' c').

Inductive sreach (wait : bool) : sched → Prop :=
| sreach_init : sreach wait (Sched (fifo_init wait) cont_init)
| sreach_step t S S' : sreach wait S → sstep t S S' → sreach wait S'.

(** The destructor of the scheduler (implicit; members in the reverse order of fifo_scheduler.hpp 192-193): the queue of
    worker_ is destroyed (fifo_worker.hpp 190) with the items that were not executed, of which only those of
    create_processor() own their holder (processor_container.hpp 120-123; the others have a weak_ptr), and then
    processorSet_ (line 429), the elements of which are ordered by address: [order] can be any order. *)
Definition drop_item (c : cont) (i : item req) : cont :=
  match i with IUser (RCreate h) => unshare h c | _ => c end.
Definition sched_destroy (order : list handle) (S : sched) : cont :=
  foldl (λ c h, unshare h c) (set_set ∅ (foldl drop_item (scont S) (fqueue (sf S)))) order.
(** When that is allowed: no thread is inside a member function of the scheduler. *)
Definition unused (S : sched) : Prop := fstack (sf S) = [] ∧ ∀ t, fpc (sf S) t = TUser.

(** ** Specification *)

Global Instance req_eq_dec : EqDecision req.
Proof. solve_decision. Defined.

(** The requests for [h] among work items, in order. *)
Definition reqs_of (h : handle) (l : list (item req)) : list req :=
  omap (λ i, match i with
             | IUser r => if decide (handle_of r = Some h) then Some r else None
             | ITerm => None
             end) l.

Definition handle_of_aev (a : aev) : handle :=
  match a with AConstruct h | AInit h | ATerm h | AEvent h _ | ADestruct h | AFault h => h end.
(** What happened to processor [h]. *)
Definition log_of (h : handle) (l : list aev) : list aev :=
  filter (λ a, handle_of_aev a = h) l.

(** What a processor must experience, given the requests executed for its handle: it is constructed, then every
    request is applied in order up to its destruction, after which requests are ignored. *)
Fixpoint serve (h : handle) (l : list req) : list aev :=
  match l with
  | [] => []
  | RInitiate _ :: l => AInit h :: serve h l
  | RTerminate _ :: l => ATerm h :: serve h l
  | REvent _ e :: l => AEvent h e :: serve h l
  | RDestroy _ :: _ => [ADestruct h]
  | _ :: l => serve h l
  end.
Definition served (h : handle) (l : list req) : list aev :=
  match l with
  | RCreate _ :: l => AConstruct h :: serve h l
  | _ => []
  end.

(** The creation of processor [h] ended with an exception: of the constructor, or because there was no memory. *)
Definition ctor_threw (h : handle) (l : list (fev req)) : Prop :=
  ∃ l1 l2 n k fs, l = l1 ++ FThrow :: l2 ∧ frames l1 = Frame n k (Some (IUser (RCreate h))) :: fs.
