(** Vocabulary for stating properties of what a machine did, independent of how the machine computes. *)
From Verif Require Export Spec.

(** A state object: its class and its address. *)
Notation obj := (nat * nat)%type (only parsing).

(** After [t], the object's constructor has completed and its destructor has not been called. *)
Definition lives (t : list obs) (x : obj) : Prop :=
  OCtor x.2 x.1 ∈ map ob t ∧ ODtor x.2 x.1 ∉ map ob t.

(** The object an entry is about. *)
Definition about (k : okind) : option obj :=
  match k with
  | OCtor p c | OCtorThrow p c | OExit p c | ODtor p c | OVisit p c _ | OReact p c _ _ | OTransit p c _
  | OTerminate p c => Some (c, p)
  | _ => None
  end.

(** What must be true when an entry is made.  A constructor is called at a fresh address, when the region is
    empty and the outer state is active.  A state is left and destroyed when it is alive and nothing is active
    directly inside it any more.  Everything else happens to an object that is alive. *)
Definition entry_ok (ch : chart) (t : list obs) (k : okind) : Prop :=
  match k with
  | OCtor p c | OCtorThrow p c =>
      (∀ k' x, k' ∈ map ob t → about k' = Some x → x.2 ≠ p) ∧
      (∀ x, lives t x → region ch x.1 ≠ region ch c) ∧
      (∀ q, parent ch c = Some q → ∃ p', lives t (q, p'))
  | OExit p c | ODtor p c => lives t (c, p) ∧ ∀ x, lives t x → parent ch x.1 ≠ Some c
  | _ => ∀ x, about k = Some x → lives t x
  end.
Definition orderly (ch : chart) (t : list obs) : Prop :=
  ∀ t1 b k t2, t = t1 ++ Obs b k :: t2 → entry_ok ch t1 k.

(** Library calls made by user code. *)
Definition user_call (k : okind) : bool :=
  match k with OPost _ | OClearS _ _ | OClearD _ _ => true | _ => false end.

(** exit() is followed by the destruction of the object; in between there are only the library calls made
    by exit(), and possibly the exception that it or the insertion of an element of
    the history throws. *)
Definition thrown_out (c : cls) (th : list obs) : Prop :=
  th = [] ∨ (∃ b y, th = [Obs b (OThrow y)]) ∨
  ∃ b x y, th = [Obs b (ORefused (ARecord c x)); Obs b (OThrow y)].
Definition exits_destroy (t : list obs) : Prop :=
  ∀ t1 b p c t2, t = t1 ++ Obs b (OExit p c) :: t2 →
    ∃ u th b' t3, t2 = u ++ th ++ Obs b' (ODtor p c) :: t3 ∧
      Forall (λ o, user_call (ob o) = true) u ∧
      thrown_out c th.

(** ** Machines *)
Section machines.
Context {W : Type} (ch : chart) (U : user W).
Notation S := (mst W heapst).

(** What happened so far. *)
Definition tr (s : S) : list obs := trace (en s).
(** The object exists in memory. *)
Definition active (s : S) (x : obj) : Prop := ∃ o, heap (core s) !! x.2 = Some o ∧ o_cls o = x.1.
(** [state_begin(), state_end()) *)
Definition leaves (s : S) : list cls := heap_leaves (core s).

(** The machine states a client can see: between calls, while a call keeps processing events, and after
    the destruction of the machine object. *)
Inductive seen : S → Prop :=
| seen_reach s : reach ch U s → seen s
| seen_busy s o s' : reach ch U s → op_ok ch o = true → op_allowed ch U o s → call ch U o s = (Div, s') → seen s'
| seen_destroyed s s' : reach ch U s → destroy ch U s = (Ret tt, s') → seen s'.
End machines.
