(** The static structure of a state machine: what the C++ types and template metaprograms know. *)
From Verif Require Export Base.

(** Event objects: dynamic type and contents (event.hpp:29-69, event_base.hpp:49-118). *)
Record event := Event { e_type : nat; e_data : nat }.
Global Instance event_eq_dec : EqDecision event.
Proof. solve_decision. Defined.

(** An element of an InnerInitial list or a transition destination: a state, [shallow_history<S>] or
    [deep_history<S>] (shallow_history.hpp:24-62, deep_history.hpp:24-62). *)
Inductive init :=
| IState (c : cls)
| IShallow (c : cls)
| IDeep (c : cls).
Global Instance init_eq_dec : EqDecision init.
Proof. solve_decision. Defined.

Definition init_cls (i : init) : cls :=
  match i with IState c | IShallow c | IDeep c => c end.

(** What a reaction is declared for: [event_base] or one concrete event type
    (detail/reaction_dispatcher.hpp:37-111). *)
Inductive evpat := EAny | EType (t : nat).

(** The elements of a [reactions] typedef: transition.hpp:26-72, deferral.hpp:24-60,
    termination.hpp:24-60, in_state_reaction.hpp:26-66, custom_reaction.hpp:24-78.
    A transition carries its optional transition action. *)
Inductive reaction :=
| RTransition (e : evpat) (d : init) (act : option nat)
| RDeferral (e : evpat)
| RTermination (e : evpat)
| RInState (e : evpat) (act : option nat)
| RCustom (e : evpat).

Definition reaction_pat (r : reaction) : evpat :=
  match r with
  | RTransition e _ _ | RDeferral e | RTermination e | RInState e _ | RCustom e => e
  end.

(** reaction_dispatcher.hpp:66-90, custom_reaction.hpp:34-44: [event_base] matches everything,
    otherwise the dynamic type must be equal. *)
Definition matches (p : evpat) (e : event) : bool :=
  match p with EAny => true | EType t => bool_decide (t = e_type e) end.

(** One state class (simple_state.hpp:188-440): its context (None: the machine itself), its
    orthogonal position in the context, InnerInitial, history_mode (split in its two bits,
    simple_state.hpp:176-182), whether it derives from state<> rather than simple_state<>, and
    its reactions. *)
Record cdef := CDef {
  cd_parent : option cls;
  cd_pos : nat;
  cd_inner : list init;
  cd_shallow : bool;
  cd_deep : bool;
  cd_state : bool;
  cd_reacts : list reaction }.

(** A machine type: its state classes and InitialState (state_machine.hpp:226-232).  [ch_relax] is None unless
    BOOST_STATECHART_RELAX_TRANSITION_CONTEXT is defined (doc/configuration.html:135-147); then it tells which
    class a transition action is a member of (None: the machine). *)
Record chart := RChart { ch_cls : list cdef; ch_init : cls; ch_relax : option (nat → option cls) }.
Notation Chart l c := (RChart l c None) (only parsing).

Definition dummy_cdef : cdef := CDef None 0 [] false false false [].
Definition cd (ch : chart) (c : cls) : cdef := default dummy_cdef (ch_cls ch !! c).
Definition ncls (ch : chart) : nat := length (ch_cls ch).

Section static.
Context (ch : chart).

Definition parent (c : cls) : option cls := cd_parent (cd ch c).
Definition pos (c : cls) : nat := cd_pos (cd ch c).
Definition inner (c : cls) : list init := cd_inner (cd ch c).

(** no_of_orthogonal_regions, simple_state.hpp:407-409. *)
Definition nreg (c : cls) : nat := length (inner c).
(** A class with an empty inner_initial_list is a leaf_state, otherwise a node_state,
    simple_state.hpp:90-101. *)
Definition is_leaf (c : cls) : bool := bool_decide (nreg c = 0).
(** no_of_orthogonal_regions of a context; the machine has one, state_machine.hpp:504-505. *)
Definition nreg_ctx (x : option cls) : nat :=
  match x with None => 1 | Some c => nreg c end.
Definition region (c : cls) : option cls * nat := (parent c, pos c).

(** The outer states of a class, innermost first: context_type_list without the machine,
    simple_state.hpp:410-412. A context is a complete type where a state is defined, hence classes
    are numbered so that the context has the smaller number and [c] steps are enough. *)
Fixpoint outers_f (n : nat) (c : cls) : list cls :=
  match n with
  | 0 => []
  | S n' => match parent c with
            | None => []
            | Some q => q :: outers_f n' q
            end
  end.
Definition outers (c : cls) : list cls := outers_f c c.

(** context_type_list, simple_state.hpp:410-412; None stands for the machine. *)
Definition context_list (c : cls) : list (option cls) := map Some (outers c) ++ [None].

(** common_context_iter / termination_state_position of transit_impl, simple_state.hpp:698-717. *)
Definition common_context (c d : cls) : option (nat * option cls) :=
  list_find (λ x, x ∈ context_list d) (context_list c).

(** termination_state_type, simple_state.hpp:711-717. *)
Definition termination_state (c : cls) (i : nat) : option cls := (c :: outers c) !! i.

(** proposed_transition_context_position of transit_impl, if it is smaller than
    uml_transition_context_position = [i] + 1 (simple_state.hpp:727-769): the action is called on an outer state
    of [c] that is itself left by the transition.  Position 0, an action that is a member of the source [c], does not
    compile: context_ptr< MostDerived >() on line 771 looks for the source among its own contexts
    (simple_state.hpp:569-579, 641-654) and ends at state_machine<>, which has no such member. *)
Definition early (c : cls) (i : nat) (act : option nat) : option nat :=
  match ch_relax ch, act with
  | Some f, Some n =>
      match f n with
      | Some o =>
          match list_find (eq o) (outers c) with
          | Some (j, _) => if bool_decide (S j ≤ i) then Some (S j) else None
          | None => None
          end
      | None => None
      end
  | _, _ => None
  end.

(** The prefix of a list before the first occurrence of [x]. *)
Fixpoint before (x : option cls) (l : list cls) : list cls :=
  match l with
  | [] => []
  | y :: l' => if bool_decide (Some y = x) then [] else y :: before x l'
  end.

(** make_context_list<x, d> without its last element d, constructor.hpp:112-129. *)
Definition path_below (x : option cls) (d : cls) : list cls := rev (before x (outers d)).

(** inherited_deep_history, simple_state.hpp:432-436; state_machine.hpp:518. *)
Definition inherited_deep (c : cls) : bool :=
  cd_deep (cd ch c) || existsb (λ q, cd_deep (cd ch q)) (outers c).
(** stores_shallow_history, simple_state.hpp:430; state_machine.hpp:516. *)
Definition stores_shallow (c : cls) : bool :=
  match parent c with None => false | Some q => cd_shallow (cd ch q) end.
(** stores_deep_history, simple_state.hpp:437-440. *)
Definition stores_deep (c : cls) : bool := inherited_deep c && is_leaf c.

(** The static assertions on a destination: shallow_history.hpp:34, deep_history.hpp:34. *)
Definition init_ok (i : init) : bool :=
  bool_decide (init_cls i < ncls ch) &&
  match i with
  | IState _ => true
  | IShallow c => match parent c with None => false | Some q => cd_shallow (cd ch q) end
  | IDeep c => match parent c with None => false | Some q => cd_deep (cd ch q) end
  end.

(** A transition that compiles: the destination is a declared state (or history of one) and
    termination state and first entered state are in the same region (simple_state.hpp:786-796). *)
Definition transit_ok (c : cls) (d : init) : bool :=
  init_ok d &&
  match common_context c (init_cls d) with
  | None => false
  | Some (i, x) =>
      match termination_state c i with
      | None => false
      | Some t => bool_decide (pos t = pos (hd (init_cls d) (path_below x (init_cls d))))
      end
  end.

Definition reaction_ok (c : cls) (r : reaction) : bool :=
  match r with RTransition _ d _ => transit_ok c d | _ => true end.

(** What compiles, for one class:
    - the context is declared before the state (complete type), the region exists
      (simple_state.hpp:387-389; machine: one region);
    - element k of InnerInitial is a state of this class in region k
      (simple_state.hpp:883-888);
    - no two regions below inherited deep history (simple_state.hpp:421-426). *)
Definition cdef_ok (c : cls) : bool :=
  match parent c with
  | None => bool_decide (pos c = 0)
  | Some q => bool_decide (q < c) && bool_decide (pos c < nreg q)
              && (bool_decide (nreg c < 2) || negb (inherited_deep q))
  end
  && forallb (λ ki, init_ok (snd ki) && bool_decide (region (init_cls (snd ki)) = (Some c, fst ki)))
       (imap (λ k i, (k, i)) (inner c))
  && forallb (reaction_ok c) (cd_reacts (cd ch c)).

(** A machine type that compiles. *)
Definition wf_chart : bool :=
  forallb cdef_ok (seq 0 (ncls ch))
  && bool_decide (ch_init ch < ncls ch)
  && bool_decide (parent (ch_init ch) = None).

(** Fuel for recursions over the static nesting (template instantiation depth in C++). *)
Definition depth_fuel : nat := 2 * ncls ch + 2.

End static.
