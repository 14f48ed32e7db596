(** * State machines run by a scheduler ([asynchronous_state_machine])

    Model of /repo/include/boost/statechart/asynchronous_state_machine.hpp 31-80 and event_processor.hpp 23-78: the
    processors of a scheduler (Sched.v) are state machines (Machine.v), and executing a request calls initiate(),
    process_event(), terminate() or the destructor of the machine.

    Simplifications:
    - the constructor of the user's machine class calls nothing of the machine (post_event() there is not modelled);
    - user code of one machine shares no data with the user code of another one; it may use the scheduler, which the
      steps of Sched.v allow at any moment while a request is executed;
    - a call is one step, made when it returns or throws: the machine is only touched by the thread that runs the
      scheduler.  A call that does not end leaves that thread inside the work item for ever. *)
From stdpp Require Import gmap.
From Verif Require Export Sched.
From Verif Require Import Api.

Section async.
Context {W : Type} (ch : handle → chart) (U : handle → user W) (init : handle → W) (code : nat → event).
Notation M := (mst W heapst).

(** [ch h], [U h] and [init h]: the state machine class of the processor with handle [h], its user code, and its user
    data when it has been constructed; [code]: the event that a queued event object is. *)

(** The holder of a handle (processor_container.hpp 72-76) holds no machine yet, holds one, or is gone with its machine
    (which is remembered in order to say what its destructor did). *)
Inductive slot := Absent | Alive (m : M) | Dead (m : M).
Record asys := Asys { asched : sched; amach : handle → slot }.

(** asynchronous_state_machine.hpp 64-79 and event_processor.hpp 40-53: what a request calls.  The number of
    iterations of the event loop is arbitrary. *)
Inductive asks : req → op → Prop :=
| asks_initiate h n : asks (RInitiate h) (OpInitiate n)
| asks_terminate h : asks (RTerminate h) OpTerminate
| asks_event h e n : asks (REvent h e) (OpProcess n (code e)).

(** The call ended: it returned ([ok]) or threw. *)
Definition ends (ok : bool) (r : res unit) : Prop :=
  if ok then r = Ret tt else ∃ x, r = Exn x.

(** The holder is destroyed when its last shared_ptr is (smart pointer contract; [unshare] in Sched.v); with it the
    machine, whose destructor (state_machine.hpp 425-428) terminates it. *)
Inductive survives (g : handle) (c c' : cont) (m : M) : slot → Prop :=
| survives_yes : log_of g (clog c') = log_of g (clog c) → survives g c c' m (Alive m)
| survives_no m' : log_of g (clog c') = log_of g (clog c) ++ [ADestruct g] →
    destroy (ch g) (U g) m = (Ret tt, m') → survives g c c' m (Dead m').

(** What the end of the execution of [r] means for the machine of handle [g]; [c] and [c'] are the container before
    and after. *)
Inductive fate (g : handle) (ok : bool) (r : req) (c c' : cont) : slot → slot → Prop :=
| fate_other x : r ≠ RCreate g → cheld c ≠ Some g → fate g ok r c c' x x
| fate_made x : r = RCreate g → ok = true → fate g ok r c c' x (Alive (fresh (init g)))
| fate_failed x : r = RCreate g → ok = false → fate g ok r c c' x x
| fate_called m o v m' x : cheld c = Some g → asks r o → call (ch g) (U g) o m = (v, m') → ends ok v →
    survives g c c' m' x → fate g ok r c c' (Alive m) x
| fate_released m x : cheld c = Some g → r = RDestroy g → ok = true →
    survives g c c' m x → fate g ok r c c' (Alive m) x.

Definition changes (fs : list (frame req)) (e : fev req) (c c' : cont) (μ μ' : handle → slot) : Prop :=
  match e, fs with
  | FItemRet, Frame _ _ (Some (IUser r)) :: _ => ∀ g, fate g true r c c' (μ g) (μ' g)
  | FThrow, Frame _ _ (Some (IUser r)) :: _ => ∀ g, fate g false r c c' (μ g) (μ' g)
  | _, _ => ∀ g, μ' g = μ g
  end.

(** The machine of handle [g] when the scheduler is destroyed; [c] and [c'] as before. *)
Inductive closes (g : handle) (c c' : cont) : slot → slot → Prop :=
| closes_none x : (∀ m, x ≠ Alive m) → closes g c c' x x
| closes_alive m x : survives g c c' m x → closes g c c' (Alive m) x.

Inductive astep (t : tid) : asys → asys → Prop :=
| astep_quiet S S' μ : sstep t S S' → ftr (sf S') = ftr (sf S) → astep t (Asys S μ) (Asys S' μ)
| astep_event S S' μ μ' e : sstep t S S' → ftr (sf S') = ftr (sf S) ++ [e] →
    changes (fstack (sf S)) e (scont S) (scont S') μ μ' → astep t (Asys S μ) (Asys S' μ').

Inductive areach (wait : bool) : asys → Prop :=
| areach_init : areach wait (Asys (Sched (fifo_init wait) cont_init) (λ _, Absent))
| areach_step t A A' : areach wait A → astep t A A' → areach wait A'.

(** ** Specification *)

(** The request that is being executed. *)
Definition executing (l : list (fev req)) : option req :=
  match frames l with Frame _ _ (Some (IUser r)) :: _ => Some r | _ => None end.
(** The requests for [h] whose execution has ended. *)
Definition finished (h : handle) (l : list (fev req)) : list req :=
  let R := reqs_of h (started l) in
  if decide (executing l ≫= handle_of = Some h) then removelast R else R.

(** The call that a request stands for. *)
Definition means (r : req) (o : op) : Prop :=
  match r, o with
  | RInitiate _, OpInitiate _ => True
  | RTerminate _, OpTerminate => True
  | REvent _ e, OpProcess _ x => x = code e
  | _, _ => False
  end.
(** The machine is what a synchronous machine, constructed with the same user data, is after the calls that the
    requests [L] stand for, each of which returned or threw. *)
Definition synchronous (h : handle) (L : list req) (m : M) : Prop :=
  ∃ ops rs, Forall2 means L ops ∧ run (ch h) (U h) ops (fresh (init h)) = (rs, m) ∧
    Forall (λ r, r = Ret tt ∨ ∃ x, r = Exn x) rs ∧ length rs = length ops.
End async.
Arguments Absent {W}.
Arguments Alive {W} _.
Arguments Dead {W} _.
