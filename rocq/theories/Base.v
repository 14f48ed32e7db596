(** Outcomes and the state/exception monad used by every executable model in this development.
    This file models no particular file of /repo: it fixes how C++ control flow is represented. *)
From stdpp Require Export prelude gmap list.

(** State classes (C++ types) are numbered; an object address is a number that is never re-used. *)
Notation cls := nat (only parsing).
Notation ptr := nat (only parsing).

(** The value carried by a C++ exception. *)
Notation exn := nat (only parsing).

(** Things that must never happen. *)
Inductive fault :=
| FDangling   (* use of a null or dangling pointer / invalid iterator: undefined behaviour *)
| FAssert     (* a BOOST_ASSERT of the library fails *)
| FTerminate  (* an exception leaves a destructor that runs during stack unwinding *)
| FStatic     (* a BOOST_STATIC_ASSERT would have rejected the program *)
| FFuel.      (* a recursion over the static nesting of states ran out of fuel *)

(** How a call ends: it returns, throws, commits a fault, or is still looping when the number of
    event-loop iterations granted to it is used up. *)
Inductive res (A : Type) :=
| Ret (a : A)
| Exn (x : exn)
| Fault (f : fault)
| Div.
Arguments Ret {A} _.
Arguments Exn {A} _.
Arguments Fault {A} _.
Arguments Div {A}.

Definition M (S A : Type) : Type := S → res A * S.

Definition ret {S A} (a : A) : M S A := λ s, (Ret a, s).
Definition throw {S A} (x : exn) : M S A := λ s, (Exn x, s).
Definition faulty {S A} (f : fault) : M S A := λ s, (Fault f, s).
Definition diverge {S A} : M S A := λ s, (Div, s).
Definition bind {S A B} (m : M S A) (k : A → M S B) : M S B := λ s,
  match m s with
  | (Ret a, s') => k a s'
  | (Exn x, s') => (Exn x, s')
  | (Fault f, s') => (Fault f, s')
  | (Div, s') => (Div, s')
  end.
Definition gets {S A} (f : S → A) : M S A := λ s, (Ret (f s), s).
Definition modify {S} (f : S → S) : M S unit := λ s, (Ret tt, f s).

(** [try ... catch (x)]. *)
Definition catching {S A} (m : M S A) (h : exn → M S A) : M S A := λ s,
  match m s with
  | (Exn x, s') => h x s'
  | r => r
  end.

(** A block whose local objects are destroyed by [c] on normal exit and on stack unwinding. *)
Definition finally {S A} (m : M S A) (c : M S unit) : M S A := λ s,
  match m s with
  | (Ret a, s') =>
      match c s' with
      | (Ret _, s'') => (Ret a, s'')
      | (Exn x, s'') => (Exn x, s'')
      | (Fault f, s'') => (Fault f, s'')
      | (Div, s'') => (Div, s'')
      end
  | (Exn x, s') =>
      match c s' with
      | (Ret _, s'') => (Exn x, s'')
      | (Exn _, s'') => (Fault FTerminate, s'')
      | (Fault f, s'') => (Fault f, s'')
      | (Div, s'') => (Div, s'')
      end
  | r => r
  end.

(** Clean-up that runs only during stack unwinding. *)
Definition on_exn {S A} (m : M S A) (c : M S unit) : M S A := λ s,
  match m s with
  | (Exn x, s') =>
      match c s' with
      | (Ret _, s'') => (Exn x, s'')
      | (Exn _, s'') => (Fault FTerminate, s'')
      | (Fault f, s'') => (Fault f, s'')
      | (Div, s'') => (Div, s'')
      end
  | r => r
  end.

Declare Scope m_scope.
Delimit Scope m_scope with M.
Notation "'let!' x ':=' m 'in' k" := (bind m (λ x, k))
  (at level 20, x name, m at level 100, k at level 200, only parsing) : m_scope.
Notation "m ';!' k" := (bind m (λ _, k))
  (at level 100, k at level 200, right associativity) : m_scope.
Open Scope m_scope.

(** Sequential iteration over a list. *)
Fixpoint iter {S A} (f : A → M S unit) (l : list A) : M S unit :=
  match l with
  | [] => ret tt
  | a :: l' => f a ;! iter f l'
  end.

Definition when {S} (b : bool) (m : M S unit) : M S unit := if b then m else ret tt.
Definition check {S} (b : bool) (f : fault) : M S unit := if b then ret tt else faulty f.
