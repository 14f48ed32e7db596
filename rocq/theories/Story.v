(** What the machine does with one event, as a grammar of traces.  Everything here is stated in terms of
    the chart and of what was recorded before; nothing refers to how the machine computes. *)
From Verif Require Export Tracks.

(** The entries about states being entered and left, transition actions and history lookups. *)
Definition lifes (ks : list okind) : list okind := filter (λ k, is_life k = true) ks.
(** Entries made while the triggering event is [b]. *)
Definition under (b : option event) (ks : list okind) : list obs := map (Obs b) ks.

(** How the reaction search ends: with a result, or by an exception. *)
Inductive outcome := Done (r : rr) | Threw (y : exn).

(** A piece of the trace that consists of the planned steps and user calls in between. *)
Definition goes (P : list okind → Prop) (ks : list okind) : Prop :=
  Forall (λ k, quiet k = true) ks ∧ P (lifes ks).
(** An allocator refuses. *)
Definition refusal (g : option asite) : list okind := match g with None => [] | Some a => [ORefused a] end.
(** The planned steps are interrupted by the exception [y]; after that, state objects are only destroyed.  If it
    was an allocator that threw, it was asked for what the plan needs at this point. *)
Definition stops (ch : chart) (P : list okind → Prop) (y : exn) (ks : list okind) : Prop :=
  ∃ k1 g k2 rest, ks = k1 ++ refusal g ++ OThrow y :: k2 ∧
    Forall (λ k, quiet k = true) k1 ∧ Forall (λ k, quiet k = true) k2 ∧
    P (lifes k1 ++ rest) ∧ Forall (λ k, fading k = true) (lifes k2) ∧ fits ch g (lifes k1) rest.
(** A call to user code that neither enters nor leaves states. *)
Definition calls (ks : list okind) : Prop := Forall (λ k, quiet k = true ∧ is_life k = false) ks.

(** A transition or a termination takes place. *)
Definition moves (k : okind) : bool :=
  match k with OTransit _ _ _ | OTerminate _ _ => true | _ => false end.
Definition moved (ks : list okind) : Prop := ∃ k, k ∈ ks ∧ moves k = true.

(** The first reaction that matches, with its position. *)
Fixpoint find_reaction (i : nat) (l : list reaction) (e : event) : option (nat * reaction) :=
  match l with
  | [] => None
  | r :: l' => if matches (reaction_pat r) e then Some (i, r) else find_reaction (S i) l' e
  end.

(** Every state object constructed so far has an address below [n]. *)
Definition below (t : list obs) (n : nat) : Prop :=
  ∀ k y, k ∈ map ob t → is_life k = true → about k = Some y → y.2 < n.

Section story.
Context {W : Type} (ch : chart) (U : user W).

Definition leaving (L : list obj) : Prop := StronglySorted (λ y z : obj, exit_before ch y.1 z.1) L.
Definition act_of (cx : option ptr) (act : option nat) (e : event) : list okind :=
  match act with None => [] | Some n => [OAction cx n e] end.

(** The state class that transition action [act] is a member of, if BOOST_STATECHART_RELAX_TRANSITION_CONTEXT is
    defined. *)
Definition action_owner (act : option nat) : option cls :=
  match ch_relax ch, act with Some f, Some n => f n | _, _ => None end.
(** [y] is left after the action is called: the action is a member of an outer state of the source [x] that is itself
    left ([z] is the outermost state that is left), and [y] is not inside that outer state. *)
Definition late (x z : obj) (act : option nat) (y : obj) : Prop :=
  ∃ o, action_owner act = Some o ∧ encloses ch (Some o) x.1 ∧ within ch z.1 o ∧ ¬ encloses ch (Some o) y.1.
(** The class of the object that the action is called on: the outer state that the action is a member of if that is
    left, otherwise the innermost common context. *)
Definition receiver (x z : obj) (act : option nat) (q : option cls) : Prop :=
  (∃ o, action_owner act = Some o ∧ encloses ch (Some o) x.1 ∧ within ch z.1 o ∧ q = Some o) ∨
  (∀ o, action_owner act = Some o → encloses ch (Some o) x.1 → ¬ within ch z.1 o) ∧ q = parent ch z.1.

(** A transition of [x] to [d]: [z] is the active state directly below the innermost common context. *)
Definition transit_plan (t : list obs) (fe : bool) (e : event) (x : obj) (d : init) (act : option nat)
    (ks : list okind) : Prop :=
  ∃ cc z cx L1 L2 n cs kb, transit_ok ch x.1 d = true ∧
    innermost_common ch cc x.1 (init_cls d) ∧
    lives t z ∧ parent ch z.1 = cc ∧ within ch z.1 x.1 ∧
    receiver x z act (fst <$> cx) ∧ (∀ q, cx = Some q → lives t q) ∧
    (∀ y, y ∈ L1 ↔ lives t y ∧ within ch z.1 y.1 ∧ ¬ late x z act y) ∧ leaving L1 ∧
    (∀ y, y ∈ L2 ↔ lives t y ∧ within ch z.1 y.1 ∧ late x z act y) ∧ leaving L2 ∧
    below t n ∧
    builds ch n (path_below ch cc (init_cls d)) d cs kb ∧
    ks = (exits fe L1 ++ act_of (snd <$> cx) act e ++ exits fe L2) ++ kb.

(** Terminating [x] also leaves the outer states that would have nothing inside any more. *)
Definition terminate_plan (t : list obs) (fe : bool) (x : obj) (ks : list okind) : Prop :=
  ∃ L, (∀ y, y ∈ L ↔ lives t y ∧
         (within ch x.1 y.1 ∨
          encloses ch (Some y.1) x.1 ∧
          ∀ w, lives t w → encloses ch (Some y.1) w.1 → within ch x.1 w.1 ∨ encloses ch (Some w.1) x.1)) ∧
    leaving L ∧ ks = exits fe L.

(** Terminating the machine. *)
Definition end_plan (t : list obs) (fe : bool) (ks : list okind) : Prop :=
  ∃ L, (∀ y, y ∈ L ↔ lives t y) ∧ leaving L ∧ ks = exits fe L.

(** Entering the initial state. *)
Definition init_plan (t : list obs) (ks : list okind) : Prop :=
  (∀ x, ¬ lives t x) ∧ ∃ n cs, below t n ∧ builds ch n [] (IState (ch_init ch)) cs ks.

(** What follows from what a reaction decided; [t] is the trace before, [fe] tells whether exit() is
    called. *)
Inductive effect (t : list obs) (fe : bool) (e : event) (x : obj) :
    decision → list okind → outcome → Prop :=
| ef_discard : effect t fe e x DDiscard [] (Done RDiscard)
| ef_forward : effect t fe e x DForward [] (Done RForward)
| ef_defer : effect t fe e x DDefer [] (Done RDefer)
| ef_throw y : effect t fe e x (DThrow y) [OThrow y] (Threw y)
| ef_transit d act ks : goes (transit_plan t fe e x d act) ks →
    effect t fe e x (DTransit d act) (OTransit x.2 x.1 d :: ks) (Done RDiscard)
| ef_transit_x d act y ks : stops ch (transit_plan t fe e x d act) y ks →
    effect t fe e x (DTransit d act) (OTransit x.2 x.1 d :: ks) (Threw y)
| ef_terminate ks : goes (terminate_plan t fe x) ks →
    effect t fe e x DTerminate (OTerminate x.2 x.1 :: ks) (Done RDiscard)
| ef_terminate_x y ks : stops ch (terminate_plan t fe x) y ks →
    effect t fe e x DTerminate (OTerminate x.2 x.1 :: ks) (Threw y).

(** A call to a function of the user that may throw. *)
Inductive called : list okind → option exn → Prop :=
| ca_ret ks : calls ks → called ks None
| ca_throw ks y : calls ks → called (ks ++ [OThrow y]) (Some y).

(** The reactions of one state. *)
Inductive turn (t : list obs) (fe : bool) (e : event) (x : obj) : list okind → outcome → Prop :=
| tu_none : find_reaction 0 (cd_reacts (cd ch x.1)) e = None → turn t fe e x [] (Done RForward)
| tu_transition i p d act ks o :
    find_reaction 0 (cd_reacts (cd ch x.1)) e = Some (i, RTransition p d act) →
    effect t fe e x (DTransit d act) ks o → turn t fe e x ks o
| tu_deferral i p ks o :
    find_reaction 0 (cd_reacts (cd ch x.1)) e = Some (i, RDeferral p) →
    effect t fe e x DDefer ks o → turn t fe e x ks o
| tu_termination i p ks o :
    find_reaction 0 (cd_reacts (cd ch x.1)) e = Some (i, RTermination p) →
    effect t fe e x DTerminate ks o → turn t fe e x ks o
| tu_in_state i p :
    find_reaction 0 (cd_reacts (cd ch x.1)) e = Some (i, RInState p None) → turn t fe e x [] (Done RDiscard)
| tu_in_state_call i p n ks y :
    find_reaction 0 (cd_reacts (cd ch x.1)) e = Some (i, RInState p (Some n)) →
    called ks y →
    turn t fe e x (OInState n e :: ks) (match y with None => Done RDiscard | Some y => Threw y end)
| tu_custom i p ks v w ks' o :
    find_reaction 0 (cd_reacts (cd ch x.1)) e = Some (i, RCustom p) →
    calls ks → effect t fe e x (u_react U x.1 i e v w).2 ks' o →
    turn t fe e x (OReact x.2 x.1 i e :: ks ++ ks') o.

(** The reaction search that starts at [x] and goes outward as long as the event is forwarded. *)
Inductive search (t : list obs) (fe : bool) (e : event) : obj → list okind → outcome → Prop :=
| se_stop x ks r : turn t fe e x ks (Done r) → r ≠ RForward →
    search t fe e x (OVisit x.2 x.1 e :: ks ++ [OResult x.2 x.1 r]) (Done r)
| se_throw x ks y : turn t fe e x ks (Threw y) → search t fe e x (OVisit x.2 x.1 e :: ks) (Threw y)
| se_top x ks : turn t fe e x ks (Done RForward) → parent ch x.1 = None →
    search t fe e x (OVisit x.2 x.1 e :: ks ++ [OResult x.2 x.1 RForward]) (Done RForward)
| se_out x ks z ks' o : turn t fe e x ks (Done RForward) → parent ch x.1 = Some z.1 → lives t z →
    search t fe e z ks' o →
    search t fe e x (OVisit x.2 x.1 e :: ks ++ OResult x.2 x.1 RForward :: ks') o.

(** Every active state, except those in [P], that has regions has something inside. *)
Definition complete_but (t : list obs) (P : obj → Prop) : Prop :=
  ∀ z, lives t z → is_leaf ch z.1 = false → ¬ P z → ∃ w, lives t w ∧ parent ch w.1 = Some z.1.
Definition complete (t : list obs) : Prop := complete_but t (λ _, False).
(** Region [k] of the active state [z] has no inner state. *)
Definition without_inner (t : list obs) (z : obj) (k : nat) : Prop :=
  lives t z ∧ k < nreg ch z.1 ∧ ∀ w, lives t w → parent ch w.1 = Some z.1 → pos ch w.1 ≠ k.
(** [z] is unstable: one of its regions has no inner state, which was not so at [t0]. *)
Definition unstable_since (t0 t : list obs) (z : obj) : Prop :=
  ∃ k, without_inner t z k ∧ ¬ without_inner t0 z k.
(** [x] is the outermost unstable state. *)
Definition outermost_unstable (t0 t : list obs) (x : obj) : Prop :=
  unstable_since t0 t x ∧ ∀ z, unstable_since t0 t z → within ch x.1 z.1.
(** Where the search for a handler starts: in a stable machine ([st]) at the innermost state being
    dispatched to ([cur]), otherwise at a state that is the only one that may have nothing inside; unless
    BOOST_STATECHART_RELAX_TRANSITION_CONTEXT is defined and an event [b] is being processed, it is the outermost
    state with a region that lost its inner state since [t0]. *)
Definition starts_at (t0 t : list obs) (b : option event) (cur : option obj) (st : Prop) (x : obj) : Prop :=
  (st → cur = Some x ∧ complete t) ∧
  (¬ st → is_leaf ch x.1 = false ∧ complete_but t (eq x) ∧ (b = None ∨ ch_relax ch = None → outermost_unstable t0 t x)).

(** What happens to an exception [y] that user code threw; [t0] is the trace up to the beginning of the
    search, of terminate() or of the initial transition, [t] the trace so far, [b] the triggering event, [cur] the innermost state being dispatched to, [st] tells whether the machine is stable. *)
Inductive handled (t0 t : list obs) (b : option event) (cur : option obj) (st : Prop) (y : exn) :
    list obs → outcome → Prop :=
| ha_none : u_translate U y = None ∨ (∀ x, ¬ lives t x) → handled t0 t b cur st y [] (Threw y)
| ha_done xe x ks : u_translate U y = Some xe → lives t x →
    starts_at t0 t b cur st x →
    search t false xe x ks (Done RDiscard) → (st ∨ moved ks) →
    complete (t ++ under (Some xe) (OHandle x.2 xe :: ks)) →
    handled t0 t b cur st y (under (Some xe) (OHandle x.2 xe :: ks) ++ under b [OHandled]) (Done RDiscard)
| ha_rethrow xe x ks r : u_translate U y = Some xe → lives t x →
    starts_at t0 t b cur st x →
    search t false xe x ks (Done r) → (r ≠ RDiscard ∨ ¬ st ∧ ¬ moved ks) →
    handled t0 t b cur st y (under (Some xe) (OHandle x.2 xe :: ks) ++ under b [OUnhandled]) (Threw y)
| ha_throw xe x ks y' : u_translate U y = Some xe → lives t x →
    starts_at t0 t b cur st x →
    search t false xe x ks (Threw y') →
    handled t0 t b cur st y (under (Some xe) (OHandle x.2 xe :: ks) ++ under b [OUnhandled]) (Threw y').
Inductive handling (t0 t : list obs) (b : option event) (cur : option obj) (st : Prop) (y : exn) :
    list obs → outcome → Prop :=
| ha_catch T o : handled t0 (t ++ under b [OCatch y]) b cur st y T o →
    handling t0 t b cur st y (under b [OCatch y] ++ T) o.

(** The innermost states are tried one after the other until one does not forward the event. *)
Inductive dispatch (e : event) : list obs → list cls → list obs → outcome → Prop :=
| di_end t : dispatch e t [] [] (Done RForward)
| di_next t x ls ks T o : lives t x → search t true e x ks (Done RForward) →
    dispatch e (t ++ under (Some e) ks) ls T o →
    dispatch e t (x.1 :: ls) (under (Some e) ks ++ T) o
| di_stop t x ls ks r : lives t x → search t true e x ks (Done r) → r ≠ RForward →
    dispatch e t (x.1 :: ls) (under (Some e) ks) (Done r)
| di_throw t x ls ks y T o : lives t x → search t true e x ks (Threw y) →
    handling t (t ++ under (Some e) ks) (Some e) (Some x) (¬ moved ks) y T o →
    dispatch e t (x.1 :: ls) (under (Some e) ks ++ T) o.

(** An escaping exception ends the machine without calling exit(). *)
Definition ending (t : list obs) (fe : bool) (ks : list okind) : Prop :=
  ∃ ks', ks = ks' ++ [OReset] ∧ goes (end_plan t fe) ks'.

(** The innermost active states. *)
Definition innermost (t : list obs) (ls : list cls) : Prop :=
  NoDup ls ∧ ∀ c, c ∈ ls ↔ is_leaf ch c = true ∧ ∃ p, lives t (c, p).

(** Everything about one event. *)
Inductive one_event (t : list obs) (e : event) : list obs → outcome → Prop :=
| oe_consumed ls T r : innermost t ls →
    dispatch e (t ++ under (Some e) [ODispatch e ls]) ls T (Done r) → r ≠ RForward →
    one_event t e (under (Some e) [ODispatch e ls] ++ T ++ under None [ODone]) (Done r)
| oe_unconsumed ls T ks y : innermost t ls →
    dispatch e (t ++ under (Some e) [ODispatch e ls]) ls T (Done RForward) → called ks y →
    one_event t e (under (Some e) [ODispatch e ls] ++ T ++ under (Some e) (OUnconsumed e :: ks) ++
                   under None [ODone])
      (match y with None => Done RForward | Some y => Threw y end)
| oe_escaped ls T y ks : innermost t ls →
    dispatch e (t ++ under (Some e) [ODispatch e ls]) ls T (Threw y) →
    ending (t ++ under (Some e) [ODispatch e ls] ++ T) false ks →
    one_event t e (under (Some e) [ODispatch e ls] ++ T ++ under (Some e) ks ++ under None [ODone])
      (Threw y).

Definition defers (e : event) (o : outcome) : list okind :=
  match o with Done RDefer => [ODefer e] | _ => [] end.
(** The allocator throws when the event is to be deferred. *)
Definition refused (e : event) (y : exn) : list okind := [ORefused (ADefer e); OThrow y].

(** How a call ends. *)
Inductive ending_of := Returned | Raised (y : exn) | Running.

(** The queued events, one after the other; at most [n] of them, and only then is the machine still running. *)
Inductive event_loop : nat → list obs → list obs → ending_of → Prop :=
| el_end n t : event_loop n t [] Returned
| el_more t : event_loop 0 t [] Running
| el_next n t e T r T' o :
    one_event (t ++ under None [OTake e]) e T (Done r) →
    event_loop n (t ++ under None [OTake e] ++ T ++ under None (defers e (Done r))) T' o →
    event_loop (S n) t (under None [OTake e] ++ T ++ under None (defers e (Done r)) ++ T') o
| el_throw n t e T y :
    one_event (t ++ under None [OTake e]) e T (Threw y) →
    event_loop (S n) t (under None [OTake e] ++ T) (Raised y)
| el_refused n t e T y :
    one_event (t ++ under None [OTake e]) e T (Done RDefer) →
    event_loop (S n) t (under None [OTake e] ++ T ++ under None (refused e y)) (Raised y).

(** process_event() *)
Inductive processing (n : nat) (t : list obs) (e : event) : list obs → ending_of → Prop :=
| pr_next T r T' o :
    one_event (t ++ under None [OProcess e]) e T (Done r) →
    event_loop n (t ++ under None [OProcess e] ++ T ++ under None (defers e (Done r))) T' o →
    processing n t e (under None [OProcess e] ++ T ++ under None (defers e (Done r)) ++ T') o
| pr_throw T y :
    one_event (t ++ under None [OProcess e]) e T (Threw y) →
    processing n t e (under None [OProcess e] ++ T) (Raised y)
| pr_refused T y :
    one_event (t ++ under None [OProcess e]) e T (Done RDefer) →
    processing n t e (under None [OProcess e] ++ T ++ under None (refused e y)) (Raised y).

(** terminate(), and the construction of the initial state: something is done under the exception
    translator, and an exception that is not handled ends the machine. *)
Inductive translated (t : list obs) (P : list okind → outcome → Prop) : list obs → ending_of → Prop :=
| tr_done ks r : P ks (Done r) → translated t P (under None ks) Returned
| tr_handled ks y T r : P ks (Threw y) → handling t (t ++ under None ks) None None False y T (Done r) →
    translated t P (under None ks ++ T) Returned
| tr_escaped ks y T y' ks' : P ks (Threw y) → handling t (t ++ under None ks) None None False y T (Threw y') →
    ending (t ++ under None ks ++ T) false ks' →
    translated t P (under None ks ++ T ++ under None ks') (Raised y').

Definition terminates (t : list obs) (ks : list okind) (o : outcome) : Prop :=
  match o with
  | Done _ => ending t true ks
  | Threw y => stops ch (end_plan t true) y ks
  end.
Definition starts (t : list obs) (ks : list okind) (o : outcome) : Prop :=
  match o with
  | Done _ => goes (init_plan t) ks
  | Threw y => stops ch (init_plan t) y ks
  end.

Definition terminating (t : list obs) (T : list obs) (o : ending_of) : Prop := translated t (terminates t) T o.
Inductive initiating (n : nat) (t : list obs) : list obs → ending_of → Prop :=
| in_term T y : terminating t T (Raised y) → initiating n t T (Raised y)
| in_start T T' y : terminating t T Returned → translated (t ++ T) (starts (t ++ T)) T' (Raised y) →
    initiating n t (T ++ T') (Raised y)
| in_run T T' T'' o : terminating t T Returned → translated (t ++ T) (starts (t ++ T)) T' Returned →
    event_loop n (t ++ T ++ T') T'' o → initiating n t (T ++ T' ++ T'') o.

Definition story (o : op) (t : list obs) : list obs → ending_of → Prop :=
  match o with
  | OpInitiate n => initiating n t
  | OpTerminate => terminating t
  | OpProcess n e => processing n t e
  | OpPost e => λ T r, T = under None [OPost e] ∧ r = Returned
  | OpClearShallow c k => λ T r, T = under None [OClearS c k] ∧ r = Returned
  | OpClearDeep c k => λ T r, T = under None [OClearD c k] ∧ r = Returned
  end.
End story.
