(** Looking up active states: state_cast, state_downcast, context and outermost_context.  A target type
    of state_cast is represented by the state classes convertible to it. *)
From Verif Require Export Machine.

(** What context< X >() returns a reference to: a state object or the machine object. *)
Inductive context_ref := ToState (p : ptr) | ToMachine.

Section cast.
Context {W : Type} (ch : chart).
Notation S := (mst W heapst).
Notation MM := (M S).

(** outer_state_ptr, simple_state.hpp:471-480, 854-871: null for the states directly in the machine. *)
Definition outer_state_ptr (p : ptr) : MM (option ptr) :=
  let! o := deref p in
  match parent ch (o_cls o) with
  | None => ret None
  | Some _ => ret (mjoin (o_ctx o))
  end.

(** The inner loop of state_cast, state_machine.hpp:293-315, resp. state_downcast, :337-347: from
    [p] outward to the first object whose class is accepted. The fuel bounds the nesting depth. *)
Fixpoint find_outward (n : nat) (t : cls → bool) (p : option ptr) : MM (option ptr) :=
  match p with
  | None => ret None
  | Some p =>
      match n with
      | 0 => faulty FFuel
      | Datatypes.S n' =>
          let! o := deref p in
          if t (o_cls o) then ret (Some p)
          else let! q := outer_state_ptr p in find_outward n' t q
      end
  end.

(** The outer loop, state_machine.hpp:288-317, 331-348: from position [i] of currentStates_ up to
    currentStatesEnd_; [n] bounds the number of iterations. *)
Fixpoint find_from (n : nat) (t : cls → bool) (i : nat) : MM (option ptr) :=
  let! x := gets core in
  if bool_decide (i = send x) then ret None
  else
    match n with
    | 0 => faulty FDangling
    | Datatypes.S n' =>
        match slots x !! i with
        | None => faulty FDangling
        | Some p =>
            let! r := find_outward (depth_fuel ch) t p in
            match r with
            | Some q => ret (Some q)
            | None => find_from n' t (Datatypes.S i)
            end
        end
    end.

(** state_cast< const Base * >(), state_machine.hpp:283-320, with state_cast_impl_pointer_target
    :102-137: [t] accepts the classes for which the dynamic_cast succeeds. *)
Definition state_cast_ptr (t : cls → bool) : MM (option ptr) :=
  let! x := gets core in find_from (length (slots x)) t 0.

(** state_cast< const Base & >(), with state_cast_impl_reference_target :139-169: [bad_cast] is the
    exception thrown if there is no such state. *)
Definition state_cast_ref (bad_cast : exn) (t : cls → bool) : MM ptr :=
  let! r := state_cast_ptr t in
  match r with
  | Some p => ret p
  | None => throw bad_cast
  end.

(** state_downcast, state_machine.hpp:322-351: dynamic_type() of the object is compared with the target
    type; each class has its own id. *)
Definition state_downcast_ptr (c : cls) : MM (option ptr) :=
  state_cast_ptr (λ c', bool_decide (c' = c)).
Definition state_downcast_ref (bad_cast : exn) (c : cls) : MM ptr :=
  state_cast_ref bad_cast (λ c', bool_decide (c' = c)).

(** context< Other >() called on an object [p] of class [c], simple_state.hpp:235-255, 664-697 and
    state_machine.hpp:554-568; [x] is the class asked for (None: the machine). Which implementation is
    used is decided by the static types; the static nesting bounds the recursion. *)
Fixpoint context_impl (n : nat) (c : cls) (p : ptr) (x : option cls) : MM context_ref :=
  if bool_decide (x = Some c) then ret (ToState p)
  else
    match n with
    | 0 => faulty FFuel
    | Datatypes.S n' =>
        let! o := deref p in
        match o_ctx o, parent ch c with
        | None, _ => faulty FAssert
        | Some None, None =>
            if bool_decide (x = None) then ret ToMachine else faulty FStatic
        | Some (Some q), Some d => context_impl n' d q x
        | _, _ => faulty FDangling
        end
    end.
Definition context (c : cls) (p : ptr) (x : option cls) : MM context_ref :=
  context_impl (depth_fuel ch) c p x.

(** outermost_context(), simple_state.hpp:216-232, state_machine.hpp:570-578. *)
Definition outermost_context (c : cls) (p : ptr) : MM context_ref := context c p None.
End cast.
