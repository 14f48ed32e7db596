(** What a trace says about the innermost states, the waiting events and the recorded history.  These are
    specifications: they read the trace only, and refer to nothing the machine computes. *)
From Verif Require Export TraceSpec.

(** ** The order of [state_begin(), state_end()) *)

(** A state that is entered is put last; when one is left, the last one takes its place. *)
Fixpoint swap_out (x : obj) (l : list obj) : list obj :=
  match l with
  | [] => []
  | y :: l' =>
      if decide (y = x)
      then match last l' with None => [] | Some z => z :: removelast l' end
      else y :: swap_out x l'
  end.
Definition order_step (ch : chart) (l : list obj) (k : okind) : list obj :=
  match k with
  | OCtor p c => if is_leaf ch c then l ++ [(c, p)] else l
  | OExit p c | ODtor p c => swap_out (c, p) l
  | _ => l
  end.
Definition order_of (ch : chart) (t : list obs) : list obj := foldl (order_step ch) [] (map ob t).

(** ** Waiting events *)

(** Posted events wait in one queue, deferred events in another; a release puts the deferred events in
    front of the posted ones. *)
Definition queue_step (qd : list event * list event) (k : okind) : list event * list event :=
  match k with
  | OPost e => (qd.1 ++ [e], qd.2)
  | OTake _ => (tail qd.1, qd.2)
  | ODefer e => (qd.1, qd.2 ++ [e])
  | ORelease => (qd.2 ++ qd.1, [])
  | OReset => ([], [])
  | _ => qd
  end.
Definition queues (t : list obs) : list event * list event := foldl queue_step ([], []) (map ob t).
Definition pending (t : list obs) : list event := (queues t).1.
Definition waiting (t : list obs) : list event := (queues t).2.

(** The object deferred an event. *)
Definition postponed (t : list obs) (x : obj) : Prop := OResult x.2 x.1 RDefer ∈ map ob t.

(** Events are released right after the destruction of an object that deferred one, and only then; only
    library calls made by the destructor come in between. *)
Definition release_due (t : list obs) : Prop :=
  ∃ t0 b p c u, t = t0 ++ Obs b (ODtor p c) :: u ∧ Forall (λ o, user_call (ob o) = true) u ∧ postponed t0 (c, p).
Definition releases (t : list obs) : Prop :=
  ∀ t1 b p c t2, t = t1 ++ Obs b (ODtor p c) :: t2 → postponed t1 (c, p) →
    ∃ u b' t3, t2 = u ++ Obs b' ORelease :: t3 ∧ Forall (λ o, user_call (ob o) = true) u.

(** ** History *)

(** The trace ends with [h] being left normally: exit() was called and returned. *)
Definition left_normally (t : list obs) (h : cls) : Prop :=
  ∃ t0 b p u b', t = t0 ++ Obs b (OExit p h) :: u ++ [Obs b' (ODtor p h)] ∧
    Forall (λ o, user_call (ob o) = true) u.

(** The element of the deep history for the region of [z] was refused after [h] was exited; [h] is recorded up to that. *)
Definition cut_short (t : list obs) (h z : cls) : Prop := ∃ t0 b, t = t0 ++ [Obs b (ORefused (ARecord h (Some z)))].
(** The trace ends with [h] being recorded, completely or up to some element. *)
Definition noted (t : list obs) (h : cls) (x : option cls) : Prop :=
  match x with None => left_normally t h | Some z => cut_short t h z end.

(** [h] was recorded by [rec] and after that nothing was recorded or erased. *)
Definition latest (rec : list obs → cls → Prop) (del : list obs → Prop) (t : list obs) (h : cls) : Prop :=
  ∃ t1 t2, t = t1 ++ t2 ∧ rec t1 h ∧
    ∀ t3 t4, t2 = t3 ++ t4 → t3 ≠ [] → ¬ del (t1 ++ t3) ∧ ∀ h', ¬ rec (t1 ++ t3) h'.

Section history.
Context (ch : chart).

(** A direct inner state of region [r], of a state with shallow history, was just left. *)
Definition records_shallow (r : option cls * nat) (t : list obs) (h : cls) : Prop :=
  (∃ x, noted t h x) ∧ region ch h = r ∧ ∃ q, r.1 = Some q ∧ cd_shallow (cd ch q) = true.
(** An innermost state somewhere inside region [r], of a state with deep history, was just left; if only part of
    it was recorded, region [r] was before that. *)
Definition records_deep (r : option cls * nat) (t : list obs) (l : cls) : Prop :=
  (∃ x, noted t l x ∧ ∃ h, within ch h l ∧ region ch h = r ∧ ∀ z, x = Some z → encloses ch (Some z) h) ∧
  is_leaf ch l = true ∧
  ∃ q, r.1 = Some q ∧ cd_deep (cd ch q) = true.
(** The history of region [r], or all history, was just erased. *)
Definition erases_shallow (r : option cls * nat) (t : list obs) : Prop :=
  ∃ t0 b k, t = t0 ++ [Obs b k] ∧ (k = OReset ∨ ∃ q, k = OClearS q r.2 ∧ r.1 = Some q).
Definition erases_deep (r : option cls * nat) (t : list obs) : Prop :=
  ∃ t0 b k, t = t0 ++ [Obs b k] ∧ (k = OReset ∨ ∃ q, k = OClearD q r.2 ∧ r.1 = Some q).

(** The element of the shallow history ([None]), or of the deep history for the region of [z], that state [c] fills. *)
Definition element (c : cls) (x : option cls) : Prop :=
  match x with
  | None => ∃ q, parent ch c = Some q ∧ cd_shallow (cd ch q) = true
  | Some z => is_leaf ch c = true ∧ within ch z c ∧ ∃ q, parent ch z = Some q ∧ cd_deep (cd ch q) = true
  end.

(** The regions for which [c] has been recorded when there is no memory for element [x]: first comes the shallow
    history, then the deep histories from the inside out. *)
Definition in_shallow (c : cls) (x : option cls) (r : option cls * nat) : Prop :=
  x ≠ None ∧ r = region ch c ∧ ∃ q, parent ch c = Some q ∧ cd_shallow (cd ch q) = true.
Definition in_deep (c : cls) (x : option cls) (r : option cls * nat) : Prop :=
  ∃ z y q, x = Some z ∧ within ch y c ∧ encloses ch (Some z) y ∧ r = region ch y ∧ parent ch y = Some q ∧ cd_deep (cd ch q) = true.
(** What is recorded for region [r]. *)
Definition shallow_memory (t : list obs) (r : option cls * nat) : cls → Prop :=
  latest (records_shallow r) (erases_shallow r) t.
Definition deep_memory (t : list obs) (r : option cls * nat) : cls → Prop :=
  latest (records_deep r) (erases_deep r) t.
(** What is entered: what is recorded, or the given default. *)
Definition recalls (memory : cls → Prop) (c h : cls) : Prop :=
  memory h ∨ h = c ∧ ∀ h', ¬ memory h'.

(** What the entries of a trace say is true when they are made. *)
Definition entry_true (t : list obs) (k : okind) : Prop :=
  match k with
  | ODispatch _ ls => ls = map fst (order_of ch t)
  | OTake e => head (pending t) = Some e
  | ORelease => release_due t
  | OResult p c RDefer => lives t (c, p)
  | OHistS c h => recalls (shallow_memory t (region ch c)) c h
  | OHistD c l => recalls (deep_memory t (region ch c)) c l
  | _ => True
  end.
Definition truthful (t : list obs) : Prop :=
  ∀ t1 b k t2, t = t1 ++ Obs b k :: t2 → entry_true t1 k.
End history.
