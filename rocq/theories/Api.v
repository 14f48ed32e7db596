(** Clients of a machine object: sequences of calls. *)
From Verif Require Export Machine.

(** The calls a client can make: initiate, terminate, process_event (state_machine.hpp:244-281),
    post_event and clear_*_history through members of the derived machine class (:430-489). The
    number is the bound on event-loop iterations granted to the call (see process_queued). *)
Inductive op :=
| OpInitiate (n : nat)
| OpTerminate
| OpProcess (n : nat) (e : event)
| OpPost (e : event)
| OpClearShallow (c : cls) (k : nat)
| OpClearDeep (c : cls) (k : nat).

Section api.
Context {W : Type} (ch : chart) (U : user W).
Notation S := (mst W heapst).

Definition call (o : op) : M S unit :=
  match o with
  | OpInitiate n => initiate ch U n
  | OpTerminate => terminate ch U
  | OpProcess n e => process_event ch U n e
  | OpPost e => do_cmd ch (CPost e)
  | OpClearShallow c k => do_cmd ch (CClearShallow c k)
  | OpClearDeep c k => do_cmd ch (CClearDeep c k)
  end.

(** User code that compiles and obeys the rules of the library:
    - transitions and history-clearing calls satisfy the static assertions;
    - constructors of states derived from simple_state (not state) do not use the machine
      (simple_state.hpp:453-468). *)
Definition cmd_ok (x : cmd) : bool :=
  match x with
  | CPost _ => true
  | CClearShallow c k => clear_ok ch cd_shallow c k
  | CClearDeep c k => clear_ok ch cd_deep c k
  end.
Definition op_ok (o : op) : bool :=
  match o with
  | OpClearShallow c k => clear_ok ch cd_shallow c k
  | OpClearDeep c k => clear_ok ch cd_deep c k
  | _ => true
  end.
Record user_ok : Prop := {
  ok_ctor : ∀ c v w, forallb cmd_ok (u_ctor U c v w).1.2 = true;
  ok_simple : ∀ c v w, cd_state (cd ch c) = false → (u_ctor U c v w).1.2 = [];
  ok_exit : ∀ c v w, forallb cmd_ok (u_exit U c v w).1.2 = true;
  ok_dtor : ∀ c v w, forallb cmd_ok (u_dtor U c v w).2 = true;
  ok_action : ∀ a e v w, forallb cmd_ok (u_action U a e v w).1.2 = true;
  ok_instate : ∀ a e v w, forallb cmd_ok (u_instate U a e v w).1.2 = true;
  ok_react : ∀ c i e v w, forallb cmd_ok (u_react U c i e v w).1.2 = true;
  ok_decide : ∀ c i e v w d act,
    (u_react U c i e v w).2 = DTransit d act → transit_ok ch c d = true;
  ok_unconsumed : ∀ e v w, forallb cmd_ok (u_unconsumed U e v w).1.2 = true }.

(** initiate() is only used when the terminate() it starts with leaves no state behind (see C31 for
    why this is a restriction). *)
Definition op_allowed (o : op) (s : S) : Prop :=
  match o with
  | OpInitiate _ => ∀ s', terminate ch U s = (Ret tt, s') → terminated s' = true
  | _ => True
  end.

(** Machine states between two calls: any sequence of calls that returned or threw. *)
Inductive reach : S → Prop :=
| reach_fresh w : reach (fresh w)
| reach_ret s o s' :
    reach s → op_ok o = true → op_allowed o s → call o s = (Ret tt, s') → reach s'
| reach_exn s o x s' :
    reach s → op_ok o = true → op_allowed o s → call o s = (Exn x, s') → reach s'.

(** Running a list of calls, stopping at a fault or divergence. *)
Fixpoint run (l : list op) (s : S) : list (res unit) * S :=
  match l with
  | [] => ([], s)
  | o :: l' =>
      match call o s with
      | (Ret u, s') => let '(rs, s'') := run l' s' in (Ret u :: rs, s'')
      | (Exn x, s') => let '(rs, s'') := run l' s' in (Exn x :: rs, s'')
      | (r, s') => ([r], s')
      end
  end.
End api.
