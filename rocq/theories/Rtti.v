(** * Type information: [detail/rtti_policy.hpp]

    Model of /repo/include/boost/statechart/detail/rtti_policy.hpp 28-214, for both of its versions (with and without
    BOOST_STATECHART_USE_NATIVE_RTTI), and of what copying an event does to it (event.hpp 30-68, event_base.hpp
    108-118).  States and events get their type information from here (state_base.hpp 61-67, simple_state.hpp 92-100,
    event_base.hpp 49-53, event.hpp 30-31).

    Simplifications:
    - types are numbers, and so are the addresses of custom type identifiers; 0 is the null pointer;
    - the address of id_holder< C >::idProvider_ is represented by [C]: distinct objects have distinct addresses;
    - comparisons other than == and != are not modelled (HistoryKey.v is about the one in history_key);
    - the objects of all types are numbered in the order of their creation, their destruction is not modelled. *)
From stdpp Require Export prelude.

Notation ty := nat (only parsing).

(** id_provider, rtti_policy.hpp 29-35.  The type of the identifier is only kept if assertions are checked, and only
    used by them. *)
Record id_provider := IdProvider { pCustomId : nat; pCustomIdType : option ty }.

(** rtti_base_type, rtti_policy.hpp 79-149: [r_type] is the type of the complete object (what typeid( *this ) is),
    [r_provider] the member idProvider_. *)
Record robj := RObj { r_type : ty; r_provider : ty }.

(** The static members of all id_holder<> (rtti_policy.hpp 37-44) and the objects created so far. *)
Record rworld := RWorld { providers : ty → id_provider; objects : list robj }.

(** Static objects are zero-initialized. *)
Definition rworld_init : rworld := RWorld (λ _, IdProvider 0 None) [].

Section rtti.
(** [most_derived d]: the template argument MostDerived of the base class rtti_derived_type<> of class [d].  It is [d]
    itself for the classes that the documentation allows. *)
Context (most_derived : ty → ty).

Inductive rop :=
| RNew (d : ty)                      (* an object of class d is created *)
| RCopy (i : nat)                    (* copy constructor of the class of object i *)
| RClone (i : nat)                   (* event::clone() of object i *)
| RSet (d : ty) (T : ty) (a : nat).  (* d::custom_static_type_ptr( a ), a being a const T pointer *)

(** rtti_derived_type(), rtti_policy.hpp 204-208. *)
Definition construct (d : ty) (w : rworld) : rworld :=
  RWorld (providers w) (objects w ++ [RObj d (most_derived d)]).
(** The compiler-generated copy constructor copies idProvider_. *)
Definition copy (i : nat) (w : rworld) : option rworld :=
  (λ o, RWorld (providers w) (objects w ++ [RObj (r_type o) (r_provider o)])) <$> objects w !! i.
(** event.hpp 63-67: new MostDerived( static_cast< const MostDerived & >( *this ) ); the virtual function is the one
    of the base class event< MostDerived > of the object. *)
Definition clone (i : nat) (w : rworld) : option rworld :=
  (λ o, RWorld (providers w) (objects w ++ [RObj (most_derived (r_type o)) (r_provider o)])) <$> objects w !! i.
(** custom_static_type_ptr( pCustomId ), rtti_policy.hpp 187-195. *)
Definition set_custom (d T a : nat) (w : rworld) : rworld :=
  RWorld (λ c, if decide (c = most_derived d) then IdProvider a (Some T) else providers w c) (objects w).

Definition exec (o : rop) (w : rworld) : option rworld :=
  match o with
  | RNew d => Some (construct d w)
  | RCopy i => copy i w
  | RClone i => clone i w
  | RSet d T a => Some (set_custom d T a w)
  end.
(** None: the program mentions an object that does not exist. *)
Fixpoint execs (l : list rop) (w : rworld) : option rworld :=
  match l with [] => Some w | o :: l => exec o w ≫= execs l end.

(** An id_type: without native RTTI, the address of the id_provider (rtti_policy.hpp 75-76); with native RTTI, a
    reference to a type_info (:50-72), which is represented by the type. *)
Section native.
Context (native : bool).
(** dynamic_type(), rtti_policy.hpp 87-94. *)
Definition dynamic_type (o : robj) : ty := if native then r_type o else r_provider o.
(** d::static_type(), rtti_policy.hpp 158-165. *)
Definition static_type (d : ty) : ty := most_derived d.
(** operator==, rtti_policy.hpp 58-61 resp. comparison of pointers. *)
Definition is_of_type (o : robj) (d : ty) : bool := bool_decide (dynamic_type o = static_type d).
End native.

(** What custom_..._type_ptr< T >() does: returns a pointer, or BOOST_ASSERT fails. *)
Inductive got := Got (a : nat) | Asserted.
Definition read_custom (T : ty) (p : id_provider) : got :=
  if decide (pCustomId p = 0 ∨ pCustomIdType p = Some T) then Got (pCustomId p) else Asserted.
(** custom_dynamic_type_ptr< T >(), rtti_policy.hpp 97-104. *)
Definition custom_dynamic (T : ty) (o : robj) (w : rworld) : got := read_custom T (providers w (r_provider o)).
(** d::custom_static_type_ptr< T >(), rtti_policy.hpp 168-177. *)
Definition custom_static (T d : ty) (w : rworld) : got := read_custom T (providers w (most_derived d)).

(** ** Specification *)

(** The operations that create an object. *)
Definition creates (o : rop) : bool := match o with RSet _ _ _ => false | _ => true end.
(** Object [i] was created as an object of class [d]: directly, or as a copy of such an object; a clone is an object
    of the class MostDerived. *)
Inductive made (l : list rop) : nat → ty → Prop :=
| made_new i d : filter creates l !! i = Some (RNew d) → made l i d
| made_copy i j d : filter creates l !! i = Some (RCopy j) → made l j d → made l i d
| made_clone i j d : filter creates l !! i = Some (RClone j) → made l j d → made l i (most_derived d).

(** The custom type identifier that was set last for the class(es) with MostDerived = [c] is the [T] pointer [a]. *)
Definition last_set (l : list rop) (c : ty) (T a : nat) : Prop :=
  ∃ l1 d l2, l = l1 ++ RSet d T a :: l2 ∧ most_derived d = c ∧
    ∀ d' T' a', RSet d' T' a' ∈ l2 → most_derived d' ≠ c.
Definition never_set (l : list rop) (c : ty) : Prop := ∀ d T a, RSet d T a ∈ l → most_derived d ≠ c.
End rtti.
