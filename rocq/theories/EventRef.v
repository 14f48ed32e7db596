(** * Event objects and the pointers that keep them (event_base.hpp, event.hpp, detail/counted_base.hpp)

    Model of the reference counts of event objects and of every place in the library that copies, moves or destroys an
    [intrusive_ptr< const event_base >].

    Simplifications:
    - the contents of an event are a number;
    - addresses are not reused, so that an access to an object after its end is visible in the model;
    - all pointers are kept in one list, every one with the place where it is stored; the order of the pointers stored
      in the same queue is the order of the queue;
    - the order in which the state machine uses its queues is not fixed here (Machine.v does that): any order is
      allowed, for any number of queues, which covers any number of machines and workers;
    - one operation is one step; the count is atomic (counted_base.hpp 22-27) and an object is accessed only by who
      owns it or holds a pointer to it. *)
From stdpp Require Export prelude gmap list.

Notation addr := nat (only parsing).

(** Who ends the object: [Own] its owner, because it is an automatic variable, a member, or was made with new and is
    deleted by the client; [Made] the last pointer, the client made it with new and gave it to an intrusive_ptr;
    [Cloned] the last pointer, it was made by clone() (event.hpp 60-64). *)
Inductive kind := Own | Made | Cloned.
Global Instance kind_eq_dec : EqDecision kind.
Proof. solve_decision. Defined.

Record obj := Obj { okind : kind; oval : nat; ocnt : nat; olive : bool }.

(** Where a pointer is stored: in a variable of the client; in a queue (eventQueue_, deferredEventQueue_ or a work
    item in workQueue_); in a local variable of the library ([pEvent], a work item being executed, a temporary). *)
Inductive place := PClient | PQueue (q : nat) | PLocal.
Global Instance place_eq_dec : EqDecision place.
Proof. solve_decision. Defined.

(** A pointer; if it was made for an event given to the library, then the number of that occasion. *)
Record ref := Ref { rplace : place; rpost : option nat; raddr : addr }.

(** ghost: what happened *)
Inductive eev :=
| TNew (a : addr) (k : kind) (v : nat)           (* an object begins *)
| TWrite (a : addr) (v : nat)                    (* its owner changes the contents *)
| TEnd (a : addr)                                (* its owner ends it *)
| TDel (a : addr)                                (* intrusive_ptr_release deletes it *)
| TPost (n : nat) (a : addr)                     (* it is given to the library *)
| TSeen (n : nat) (v : nat).                     (* a reaction reads the contents of event number n *)

Record est := Est { eheap : gmap addr obj; erefs : list ref; eposts : nat; enext : addr; etr : list eev }.
Definition est_init : est := Est ∅ [] 0 0 [].

(** [None]: undefined behaviour or a failed assertion *)
Definition M A := est → option (A * est).
Global Instance M_ret : MRet M := λ A x s, Some (x, s).
Global Instance M_bind : MBind M := λ A B f m s, match m s with Some (x, s') => f x s' | None => None end.

Definition ub {A} : M A := λ _, None.
Definition say (e : eev) : M unit := λ s,
  Some ((), Est (eheap s) (erefs s) (eposts s) (enext s) (etr s ++ [e])).
(** access to an object *)
Definition at_ (a : addr) : M obj := λ s,
  match eheap s !! a with
  | Some o => if olive o then Some (o, s) else None
  | None => None
  end.
Definition put (a : addr) (o : obj) : M unit := λ s,
  Some ((), Est (<[a := o]> (eheap s)) (erefs s) (eposts s) (enext s) (etr s)).
Definition new_obj (k : kind) (v : nat) (c : nat) : M addr := λ s,
  Some (enext s, Est (<[enext s := Obj k v c true]> (eheap s)) (erefs s) (eposts s) (S (enext s))
                     (etr s ++ [TNew (enext s) k v])).

(** counted_base.hpp 76-79 *)
Definition add_ref (a : addr) : M unit :=
  o ← at_ a; put a (Obj (okind o) (oval o) (S (ocnt o)) true).
(** event_base.hpp 86-92, counted_base.hpp 81-85, event_base.hpp 35-39: deleting an object that was not made with new,
    or that its owner deletes too, is undefined. *)
Definition release (a : addr) : M unit :=
  o ← at_ a;
  match ocnt o with
  | 0 => ub
  | S c =>
    if decide (c = 0) then
      match okind o with
      | Own => ub
      | _ => put a (Obj (okind o) (oval o) c false) ;; say (TDel a)
      end
    else put a (Obj (okind o) (oval o) c true)
  end.

Definition set_refs (l : list ref) : M unit := λ s,
  Some ((), Est (eheap s) l (eposts s) (enext s) (etr s)).
Definition get_refs : M (list ref) := λ s, Some (erefs s, s).

(** An intrusive_ptr is constructed from a raw pointer or another intrusive_ptr, and destroyed. *)
Definition new_ref (p : place) (n : option nat) (a : addr) : M unit :=
  add_ref a ;; l ← get_refs; set_refs (l ++ [Ref p n a]).
Definition drop_ref (k : nat) : M unit :=
  l ← get_refs;
  match l !! k with
  | Some r => set_refs (delete k l) ;; release (raddr r)
  | None => mret ()
  end.
(** Pointers change their place without being copied (swap(), splice()). *)
Definition move_ref (k : nat) (p : place) : M unit :=
  l ← get_refs;
  match l !! k with
  | Some r => set_refs (delete k l ++ [Ref p (rpost r) (raddr r)])
  | None => mret ()
  end.

(** event_base.hpp 102-113; event.hpp 60-64, counted_base.hpp 68-72: the clone's own count starts at 0.  The result is
    stored in a pointer at [p]. *)
Definition intrusive_from_this (a : addr) (p : place) (n : option nat) : M addr :=
  o ← at_ a;
  if decide (ocnt o ≠ 0) then new_ref p n a ;; mret a
  else b ← new_obj Cloned (oval o) 0; new_ref p n b ;; mret b.

(** ghost: event number [eposts s] is given to the library *)
Definition given (a : addr) : M nat := λ s,
  Some (eposts s, Est (eheap s) (erefs s) (S (eposts s)) (enext s) (etr s ++ [TPost (eposts s) a])).

Definition last_ref : M nat := λ s, Some (pred (length (erefs s)), s).
(** the first pointer in a queue *)
Definition front (q : nat) (l : list ref) : option nat := fst <$> list_find (λ r, rplace r = PQueue q) l.

Inductive op :=
| OOwn (v : nat)                    (* the client makes an object of its own *)
| OOwnCopy (a : addr)               (* the same, with the copy constructor *)
| OEnd (a : addr)                   (* its end *)
| OWrite (a : addr) (v : nat)       (* the client changes the contents of an object it made *)
| OAssign (a b : addr)              (* the same, with the copy assignment operator *)
| OMake (v : nat)                   (* intrusive_ptr p( new E ) *)
| OCopy (k : nat)                   (* the client copies one of its pointers *)
| ODrop (k : nat)                   (* the client destroys one of its pointers *)
| OShare (a : addr)                 (* the client calls intrusive_from_this() *)
| OPost (k : nat) (q : nat)         (* post_event( pEvent ): state_machine.hpp 430-433, 521-525; simple_state.hpp 284-287 *)
| OPostRef (a : addr) (q : nat)     (* post_event( evt ): state_machine.hpp 435-438, 527-530; simple_state.hpp 289-292;
                                       process_event( evt ) when it is deferred: state_machine.hpp 273-278 *)
| OItem (k : nat)                   (* a work item is bound to pEvent: processor_container.hpp 291-300 *)
| OQueueItem (k : nat) (q : nat)    (* queue_work_item: fifo_worker.hpp 71-93, the item is swapped into the queue *)
| ODequeueItem (q : nat)            (* dequeue_item: fifo_worker.hpp 140-183, the item is swapped out of the queue *)
| OTake (q : nat)                   (* process_queued_events: state_machine.hpp 907-908 *)
| OSee (k : nat)                    (* a reaction reads *pEvent: state_machine.hpp 910, processor_container.hpp 418 *)
| ODefer (k : nat) (q : nat)        (* state_machine.hpp 912 *)
| ODone (k : nat)                   (* pEvent, or the work item, is destroyed *)
| OSplice (q q' : nat)              (* release_events: state_machine.hpp 640-648 *)
| OClear (q : nat).                 (* terminate_impl: state_machine.hpp 927-928; destructors *)

Fixpoint clear (q : nat) (n : nat) : M unit :=
  match n with
  | 0 => mret ()
  | S n =>
    l ← get_refs;
    match front q l with
    | Some k => drop_ref k ;; clear q n
    | None => mret ()
    end
  end.

Definition with_ref (k : nat) (f : ref → M unit) : M unit :=
  l ← get_refs; match l !! k with Some r => f r | None => mret () end.
Definition with_front (q : nat) (f : nat → M unit) : M unit :=
  l ← get_refs; match front q l with Some k => f k | None => mret () end.

Definition exec (o : op) : M unit :=
  match o with
  | OOwn v => new_obj Own v 0 ;; mret ()
  | OOwnCopy a => x ← at_ a; new_obj Own (oval x) 0 ;; mret ()
  | OEnd a => x ← at_ a; put a (Obj (okind x) (oval x) (ocnt x) false) ;; say (TEnd a)
  | OWrite a v => x ← at_ a; put a (Obj (okind x) v (ocnt x) true) ;; say (TWrite a v)
  | OAssign a b => x ← at_ a; y ← at_ b; put a (Obj (okind x) (oval y) (ocnt x) true) ;; say (TWrite a (oval y))
  | OMake v => a ← new_obj Made v 0; new_ref PClient None a
  | OCopy k => with_ref k (λ r, new_ref PClient (rpost r) (raddr r))
  | ODrop k => drop_ref k
  | OShare a => intrusive_from_this a PClient None ;; mret ()
  | OPost k q => with_ref k (λ r, n ← given (raddr r); new_ref (PQueue q) (Some n) (raddr r))
  | OPostRef a q =>
    n ← given a; b ← intrusive_from_this a PLocal (Some n); k ← last_ref;
    new_ref (PQueue q) (Some n) b ;; drop_ref k
  | OItem k => with_ref k (λ r, n ← given (raddr r); new_ref PLocal (Some n) (raddr r))
  | OQueueItem k q => move_ref k (PQueue q)
  | ODequeueItem q => with_front q (λ k, move_ref k PLocal)
  | OTake q => with_front q (λ k, with_ref k (λ r, new_ref PLocal (rpost r) (raddr r) ;; drop_ref k))
  | OSee k => with_ref k (λ r, x ← at_ (raddr r);
                match rpost r with Some n => say (TSeen n (oval x)) | None => mret () end)
  | ODefer k q => with_ref k (λ r, new_ref (PQueue q) (rpost r) (raddr r))
  | ODone k => drop_ref k
  | OSplice q q' =>
    l ← get_refs;
    set_refs (((λ r, Ref (PQueue q') (rpost r) (raddr r)) <$> filter (λ r, rplace r = PQueue q) l)
              ++ filter (λ r, rplace r ≠ PQueue q) l)
  | OClear q => l ← get_refs; clear q (length l)
  end.

(** ** What clients may do *)

(** An object that the client can name: one of its own that has not ended, or one to which a variable of the client
    points, or which the library passes to a reaction. *)
Definition nameable (s : est) (a : addr) : Prop :=
  (∃ x, eheap s !! a = Some x ∧ okind x = Own ∧ olive x = true) ∨
  (∃ r, r ∈ erefs s ∧ raddr r = a ∧ (rplace r = PClient ∨ rplace r = PLocal)).
Definition is_kind (s : est) (a : addr) (k : kind) : Prop := ∃ x, eheap s !! a = Some x ∧ okind x = k.
Definition at_place (s : est) (k : nat) (p : place) : Prop := ∃ r, erefs s !! k = Some r ∧ rplace r = p.

(** Clones are const for everybody: the only non-const access is the one that new gives (event.hpp 60-64). *)
Definition allowed (s : est) (o : op) : Prop :=
  match o with
  | OOwnCopy a | OShare a | OPostRef a _ => nameable s a
  | OEnd a => is_kind s a Own ∧ nameable s a
  | OWrite a _ => nameable s a ∧ ¬ is_kind s a Cloned
  | OAssign a b => nameable s a ∧ ¬ is_kind s a Cloned ∧ nameable s b
  | OCopy k | ODrop k | OPost k _ | OItem k => at_place s k PClient
  | OQueueItem k _ | OSee k | ODefer k _ | ODone k => at_place s k PLocal
  | _ => True
  end.

Inductive ereach : est → Prop :=
| ereach_init : ereach est_init
| ereach_step o s s' : ereach s → allowed s o → exec o s = Some ((), s') → ereach s'.

(** ** What the trace says *)

(** The contents of the object at [a]. *)
Definition contents_step (a : addr) (o : option nat) (e : eev) : option nat :=
  match e with
  | TNew b _ v | TWrite b v => if decide (a = b) then Some v else o
  | _ => o
  end.
Definition contents (a : addr) (l : list eev) : option nat := foldl (contents_step a) None l.

Definition made_as (a : addr) (k : kind) (l : list eev) : Prop := ∃ v, TNew a k v ∈ l.
(** The objects that have ended, one entry for every time. *)
Fixpoint ended (l : list eev) : list addr :=
  match l with
  | [] => []
  | TEnd a :: l | TDel a :: l => a :: ended l
  | _ :: l => ended l
  end.
