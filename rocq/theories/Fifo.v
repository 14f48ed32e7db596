(** * The work queue shared between threads ([fifo_worker])

    Model of /repo/include/boost/statechart/fifo_worker.hpp 55-199 in builds with threads
    (BOOST_HAS_THREADS).  Every statement of the class that touches shared data is one step of a small-step
    semantics in which any number of threads interleave.

    Simplifications:
    - sequential consistency: everything shared is only touched while the mutex is held, except
      [terminated_], which only the one thread calling operator() touches
      (doc/reference.html, FifoWorker concept: "Must only be called from exactly one thread");
    - boost::mutex and boost::condition are modelled by their contract, including spurious wake-ups;
    - an exception of the allocator is modelled where the function object is put into the queue (line 86); the
      creation of function objects, which clients do, never fails, nor does swapping them (line 87);
    - destruction of the worker is part of Sched.v;
    - a work item is what it does when called; what user work items do is arbitrary: while a work item
      runs, its thread may at any time queue items, call terminate(), ask terminated(), call operator()
      again, return or throw. *)
From stdpp Require Export prelude list.

(** boost::function0<void> (fifo_worker.hpp 70): a user function or the item queued by terminate() 104-108.
    An empty function object is not an item; see [SEmpty]. *)
Inductive item (P : Type) :=
| IUser (p : P)
| ITerm.
Arguments IUser {P} _.
Arguments ITerm {P}.

Global Instance item_eq_dec {P} `{EqDecision P} : EqDecision (item P).
Proof. solve_decision. Defined.

(** Threads; thread 0 is the one that calls operator(). *)
Notation tid := nat (only parsing).
Notation worker := 0 (only parsing).

(** What is observed, in the order in which it happens. *)
Inductive fev (P : Type) :=
| FCall (t : tid) (i : item P)      (* thread t calls queue_work_item(i), or terminate() if i = ITerm *)
| FPush (t : tid) (i : item P)      (* i enters the queue *)
| FCallRet (t : tid)                (* that call returns *)
| FCallEmpty (t : tid)              (* thread t calls queue_work_item with an empty function object *)
| FRun (n : nat)                    (* operator()(n) is called *)
| FStart (i : item P)               (* it calls i *)
| FItemRet                          (* the item called last returns *)
| FThrow                            (* the item called last throws; operator() is left by the exception *)
| FRunRet (k : nat)                 (* operator() returns k *)
| FAsk (b : bool)                   (* terminated() is called and returns b *)
| FFail (t : tid) (i : item P).     (* the call of queue_work_item(i) or terminate() by thread t throws *)
Arguments FCall {P} _ _.
Arguments FPush {P} _ _.
Arguments FCallRet {P} _.
Arguments FCallEmpty {P} _.
Arguments FRun {P} _.
Arguments FStart {P} _.
Arguments FItemRet {P}.
Arguments FThrow {P}.
Arguments FRunRet {P} _.
Arguments FAsk {P} _.
Arguments FFail {P} _ _.

(** Where a thread is. *)
Inductive tpc (P : Type) :=
| TUser                             (* outside the library, or inside a work item *)
(* queue_work_item, fifo_worker.hpp 75-92 *)
| TQLock (i : item P)               (* about to lock, line 83 *)
| TQPush (i : item P)               (* locked, about to push, lines 86-87 *)
| TQNotify                          (* locked, about to notify, line 90 *)
| TQUnlock                          (* about to unlock, line 92 *)
(* operator(), lines 117-139 *)
| TTest                             (* the loop condition, lines 121-122 *)
| TGot (r : option (item P))        (* dequeue_item returned, line 126 *)
| TTerm                             (* terminate_impl runs, lines 178-181 *)
(* dequeue_item, lines 143-176 *)
| TDLock                            (* about to lock, line 146 *)
| TDCheck                           (* locked, line 148 *)
| TDWhile                           (* locked, line 153 *)
| TDSleep                           (* locked, the queue was empty, about to wait, line 155 *)
| TDWait                            (* blocked in wait, line 155 *)
| TDWoken                           (* notified, about to lock again, line 155 *)
| TDPop                             (* locked, lines 172-174 *)
| TDUnlock (r : option (item P)).   (* about to unlock and return r, lines 150 and 175 *)
Arguments TUser {P}.
Arguments TQLock {P} _.
Arguments TQPush {P} _.
Arguments TQNotify {P}.
Arguments TQUnlock {P}.
Arguments TTest {P}.
Arguments TGot {P} _.
Arguments TTerm {P}.
Arguments TDLock {P}.
Arguments TDCheck {P}.
Arguments TDWhile {P}.
Arguments TDSleep {P}.
Arguments TDWait {P}.
Arguments TDWoken {P}.
Arguments TDPop {P}.
Arguments TDUnlock {P} _.

(** A call of operator() in progress: its parameter and its local variables (lines 117-124). *)
Record frame (P : Type) := Frame {
  fmax : nat;                       (* maxItemCount *)
  fcount : nat;                     (* itemCount *)
  fitem : option (item P)           (* item, while it is being called *)
}.
Arguments Frame {P} _ _ _.
Arguments fmax {P} _.
Arguments fcount {P} _.
Arguments fitem {P} _.

(** fifo_worker.hpp 184-198, the threads, and the calls of operator() in progress (innermost first). *)
Record fifo (P : Type) := Fifo {
  fwait : bool;                     (* waitOnEmptyQueue_ *)
  fmtx : option tid;                (* mutex_: who holds it *)
  fqueue : list (item P);           (* workQueue_ *)
  fterm : bool;                     (* terminated_ *)
  fpc : tid → tpc P;
  fstack : list (frame P);
  ftr : list (fev P)                (* ghost: what happened so far *)
}.
Arguments Fifo {P} _ _ _ _ _ _ _.
Arguments fwait {P} _.
Arguments fmtx {P} _.
Arguments fqueue {P} _.
Arguments fterm {P} _.
Arguments fpc {P} _ _.
Arguments fstack {P} _.
Arguments ftr {P} _.

Section model.
Context {P : Type}.
Implicit Types (s : fifo P) (t : tid) (i : item P).

Definition set_pc (f : tid → tpc P) (t : tid) (p : tpc P) : tid → tpc P :=
  λ u, if decide (u = t) then p else f u.

(** fifo_worker.hpp 60-68. *)
Definition fifo_init (wait : bool) : fifo P :=
  Fifo wait None [] false (λ _, TUser) [] [].

(** Move thread [t] to [p] and observe [l]. *)
Definition goto (s : fifo P) (t : tid) (p : tpc P) (l : list (fev P)) : fifo P :=
  Fifo (fwait s) (fmtx s) (fqueue s) (fterm s) (set_pc (fpc s) t p) (fstack s) (ftr s ++ l).
Definition with_mtx (s : fifo P) (m : option tid) : fifo P :=
  Fifo (fwait s) m (fqueue s) (fterm s) (fpc s) (fstack s) (ftr s).
Definition with_queue (s : fifo P) (q : list (item P)) : fifo P :=
  Fifo (fwait s) (fmtx s) q (fterm s) (fpc s) (fstack s) (ftr s).
Definition with_term (s : fifo P) (b : bool) : fifo P :=
  Fifo (fwait s) (fmtx s) (fqueue s) b (fpc s) (fstack s) (ftr s).
Definition with_stack (s : fifo P) (fs : list (frame P)) : fifo P :=
  Fifo (fwait s) (fmtx s) (fqueue s) (fterm s) (fpc s) fs (ftr s).

(** condition::notify_one (line 90): at most one thread, the worker, can be blocked in wait. *)
Definition notify (s : fifo P) : fifo P :=
  match fpc s worker with
  | TDWait => goto s worker TDWoken []
  | _ => s
  end.

(** The loop condition of operator(), lines 121-122. *)
Definition go_on (s : fifo P) (f : frame P) : bool :=
  negb (fterm s) && ((fmax f =? 0) || (fcount f <? fmax f)).

(** One step of thread [t]. *)
Inductive step : tid → fifo P → fifo P → Prop :=
(* queue_work_item( item ), 75-92; terminate() 104-108 queues [ITerm] *)
| SEmpty t s : fpc s t = TUser →
    step t s (goto s t TUser [FCallEmpty t])
| SCall t s i : fpc s t = TUser →
    step t s (goto s t (TQLock i) [FCall t i])
| SQLock t s i : fpc s t = TQLock i → fmtx s = None →
    step t s (goto (with_mtx s (Some t)) t (TQPush i) [])
| SQPush t s i : fpc s t = TQPush i →
    step t s (goto (with_queue s (fqueue s ++ [i])) t TQNotify [FPush t i])
(* push_back throws (line 86); the lock is released when the exception leaves the function *)
| SQFail t s i : fpc s t = TQPush i →
    step t s (goto (with_mtx s None) t TUser [FFail t i])
| SQNotify t s : fpc s t = TQNotify →
    step t s (goto (notify s) t TQUnlock [])
| SQUnlock t s : fpc s t = TQUnlock →
    step t s (goto (with_mtx s None) t TUser [FCallRet t])
(* operator()( n ), 117-139 *)
| SRun s n : fpc s worker = TUser →
    step worker s (goto (with_stack s (Frame n 0 None :: fstack s)) worker TTest [FRun n])
| STestGo s f fs : fpc s worker = TTest → fstack s = f :: fs → go_on s f = true →
    step worker s (goto s worker TDLock [])
| STestEnd s f fs : fpc s worker = TTest → fstack s = f :: fs → go_on s f = false →
    step worker s (goto (with_stack s fs) worker TUser [FRunRet (fcount f)])
| SGotNone s f fs : fpc s worker = TGot None → fstack s = f :: fs →
    step worker s (goto (with_stack s fs) worker TUser [FRunRet (fcount f)])
| SGotUser s f fs p : fpc s worker = TGot (Some (IUser p)) → fstack s = f :: fs →
    step worker s (goto (with_stack s (Frame (fmax f) (fcount f) (Some (IUser p)) :: fs)) worker TUser
                     [FStart (IUser p)])
| SGotTerm s f fs : fpc s worker = TGot (Some ITerm) → fstack s = f :: fs →
    step worker s (goto (with_stack s (Frame (fmax f) (fcount f) (Some ITerm) :: fs)) worker TTerm
                     [FStart ITerm])
| STerm s f fs : fpc s worker = TTerm → fstack s = f :: fs →
    step worker s (goto (with_stack (with_term s true) (Frame (fmax f) (S (fcount f)) None :: fs))
                     worker TTest [FItemRet])
| SItemRet s f fs : fpc s worker = TUser → fstack s = f :: fs →
    step worker s (goto (with_stack s (Frame (fmax f) (S (fcount f)) None :: fs)) worker TTest [FItemRet])
| SThrow s f fs : fpc s worker = TUser → fstack s = f :: fs →
    step worker s (goto (with_stack s fs) worker TUser [FThrow])
(* terminated(), 112-115 *)
| SAsk s : fpc s worker = TUser →
    step worker s (goto s worker TUser [FAsk (fterm s)])
(* dequeue_item(), 143-176 *)
| SDLock s : fpc s worker = TDLock → fmtx s = None →
    step worker s (goto (with_mtx s (Some worker)) worker TDCheck [])
| SDCheckEmpty s : fpc s worker = TDCheck → negb (fwait s) && bool_decide (fqueue s = []) = true →
    step worker s (goto s worker (TDUnlock None) [])
| SDCheck s : fpc s worker = TDCheck → negb (fwait s) && bool_decide (fqueue s = []) = false →
    step worker s (goto s worker TDWhile [])
| SDEmpty s : fpc s worker = TDWhile → fqueue s = [] →
    step worker s (goto s worker TDSleep [])
| SDWait s : fpc s worker = TDSleep →
    step worker s (goto (with_mtx s None) worker TDWait [])
| SDSpurious s : fpc s worker = TDWait →
    step worker s (goto s worker TDWoken [])
| SDWoken s : fpc s worker = TDWoken → fmtx s = None →
    step worker s (goto (with_mtx s (Some worker)) worker TDWhile [])
| SDLeave s : fpc s worker = TDWhile → fqueue s ≠ [] →
    step worker s (goto s worker TDPop [])
| SDPop s i q : fpc s worker = TDPop → fqueue s = i :: q →
    step worker s (goto (with_queue s q) worker (TDUnlock (Some i)) [])
| SDUnlock s r : fpc s worker = TDUnlock r →
    step worker s (goto (with_mtx s None) worker (TGot r) []).

(** The states that some interleaving of any clients reaches. *)
Inductive freach (wait : bool) : fifo P → Prop :=
| freach_init : freach wait (fifo_init wait)
| freach_step t s s' : freach wait s → step t s s' → freach wait s'.

End model.
