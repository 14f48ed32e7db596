(** The run-time part of state_machine, simple_state, state, node_state, leaf_state and
    state_base: state objects with reference counts on a heap, the list of innermost states, and
    the functions that build, exit and search them.  Faults (see Base.v) are explicit outcomes. *)
From Verif Require Export Env.

(** A state object: its most derived class, the reference count (detail/counted_base.hpp:40-82),
    pContext_ (simple_state.hpp:961; outer None: null pointer, Some None: the machine),
    pInnerStates (detail/node_state.hpp:133), listPosition_ (detail/leaf_state.hpp:68; an index,
    because elements are never erased from currentStates_) and deferredEvents_
    (detail/state_base.hpp:140). *)
Record obj := Obj {
  o_cls : cls;
  o_rc : nat;
  o_ctx : option (option ptr);
  o_inner : list (option ptr);
  o_lpos : option nat;
  o_defer : bool }.

Definition set_rc (n : nat) (o : obj) : obj :=
  Obj (o_cls o) n (o_ctx o) (o_inner o) (o_lpos o) (o_defer o).
Definition set_ctx (x : option (option ptr)) (o : obj) : obj :=
  Obj (o_cls o) (o_rc o) x (o_inner o) (o_lpos o) (o_defer o).
Definition set_inner (l : list (option ptr)) (o : obj) : obj :=
  Obj (o_cls o) (o_rc o) (o_ctx o) l (o_lpos o) (o_defer o).
Definition set_lpos (n : option nat) (o : obj) : obj :=
  Obj (o_cls o) (o_rc o) (o_ctx o) (o_inner o) n (o_defer o).
Definition set_defer (b : bool) (o : obj) : obj :=
  Obj (o_cls o) (o_rc o) (o_ctx o) (o_inner o) (o_lpos o) b.

(** state_machine.hpp:1072-1076: currentStates_ ([slots]; a null leaf_state_ptr is None),
    currentStatesEnd_ ([send], an index), pOutermostState_ ([outermost]), pOutermostUnstableState_
    ([unst]); the heap and the next fresh address. *)
Record heapst := HeapSt {
  heap : gmap ptr obj;
  nxt : ptr;
  slots : list (option ptr);
  send : nat;
  outermost : option ptr;
  unst : option ptr }.

Definition set_heap (h : gmap ptr obj) (x : heapst) : heapst :=
  HeapSt h (nxt x) (slots x) (send x) (outermost x) (unst x).
Definition set_nxt (n : ptr) (x : heapst) : heapst :=
  HeapSt (heap x) n (slots x) (send x) (outermost x) (unst x).
Definition set_slots (l : list (option ptr)) (x : heapst) : heapst :=
  HeapSt (heap x) (nxt x) l (send x) (outermost x) (unst x).
Definition set_send (n : nat) (x : heapst) : heapst :=
  HeapSt (heap x) (nxt x) (slots x) n (outermost x) (unst x).
Definition set_outermost (t : option ptr) (x : heapst) : heapst :=
  HeapSt (heap x) (nxt x) (slots x) (send x) t (unst x).
Definition set_unst (t : option ptr) (x : heapst) : heapst :=
  HeapSt (heap x) (nxt x) (slots x) (send x) (outermost x) t.

(** Classes of the innermost states in iteration order, state_machine.hpp:359-408. *)
Definition heap_leaves (x : heapst) : list cls :=
  omap (λ op, match op with
              | None => None
              | Some p => o_cls <$> heap x !! p
              end) (take (send x) (slots x)).

Section machine.
Context {W : Type} (ch : chart) (U : user W).
Notation S := (mst W heapst).
Notation MM := (M S).

Definition hp : MM (gmap ptr obj) := gets (λ s, heap (core s)).
Definition on_heap (f : gmap ptr obj → gmap ptr obj) : MM unit :=
  on_core (λ x, set_heap (f (heap x)) x).

(** Access through a pointer. *)
Definition deref (p : ptr) : MM obj :=
  let! h := hp in
  match h !! p with
  | Some o => ret o
  | None => faulty FDangling
  end.
Definition store (p : ptr) (f : obj → obj) : MM unit :=
  let! o := deref p in on_heap (<[p := f o]>).

(** What code called by the library may do before anything else: look around.  From a state object it can
    go outward with context< X >() (simple_state.hpp:235-255, 672-697), which casts each pContext_ to the
    static type of the enclosing state and ends at the machine; from the machine it can enumerate
    currentStates_ up to currentStatesEnd_ (state_begin/state_end, state_machine.hpp:400-408) and go outward
    from each of them (state_cast, state_downcast, :283-351, outer_state_ptr, simple_state.hpp:471-480).
    [walk] is one such walk; a step to an object that is gone, is not linked or has another class than the
    static type says is a fault.  The classes are numbered from the outside in, which bounds the walk. *)
Fixpoint walk (n : nat) (c : option cls) (x : option ptr) : MM unit :=
  match c, x with
  | None, None => ret tt
  | Some c, Some p =>
      match n with
      | 0 => faulty FFuel
      | Datatypes.S n' =>
          let! o := deref p in
          check (bool_decide (o_cls o = c)) FAssert ;!
          match o_ctx o with
          | None => faulty FAssert
          | Some y => walk n' (parent ch c) y
          end
      end
  | _, _ => faulty FDangling
  end.
Definition walk_from (c : option cls) (x : option ptr) : MM unit :=
  walk (Datatypes.S (from_option Datatypes.S 0 c)) c x.

(** Every lookup, by code that runs with the context [x] of static type [c] (None: the machine). *)
Definition look_around (c : option cls) (x : option ptr) : MM unit :=
  let! s := gets core in
  iter (λ i,
    match slots s !! i with
    | Some (Some p) => let! o := deref p in walk_from (Some (o_cls o)) (Some p)
    | _ => faulty FDangling
    end) (seq 0 (send s)) ;!
  walk_from c x.

(** counted_base::add_ref, detail/counted_base.hpp:49-53. *)
Definition add_ref (p : ptr) : MM unit :=
  let! o := deref p in on_heap (<[p := set_rc (o_rc o + 1) o]>).
Definition add_ref_ctx (x : option ptr) : MM unit :=
  match x with None => ret tt | Some p => add_ref p end.

(** intrusive_ptr_release for state_base pointers (detail/state_base.hpp:160-173, counted_base
    release :55-59): the last reference must not be given up through such a pointer. *)
Definition release_base (p : ptr) : MM unit :=
  let! o := deref p in
  match o_rc o with
  | 0 | 1 => faulty FAssert
  | Datatypes.S n => on_heap (<[p := set_rc n o]>)
  end.
Definition release_base_opt (x : option ptr) : MM unit :=
  match x with None => ret tt | Some p => release_base p end.

(** pOutermostUnstableState_ = new (intrusive_ptr assignment: add_ref, store, release). *)
Definition assign_unst (new : option ptr) : MM unit :=
  add_ref_ctx new ;!
  let! old := gets (λ s, unst (core s)) in
  on_core (set_unst new) ;!
  release_base_opt old.

(** remove_inner_state: state_machine.hpp:637-642, detail/node_state.hpp:95-99. *)
Definition remove_inner (ctx : option ptr) (k : nat) : MM unit :=
  match ctx with
  | None => check (bool_decide (k = 0)) FAssert ;! on_core (set_outermost None)
  | Some q =>
      let! o := deref q in
      check (bool_decide (k < length (o_inner o))) FAssert ;!
      on_heap (<[q := set_inner (<[k := None]> (o_inner o)) o]>)
  end.

(** add_inner_state: state_machine.hpp:628-635, detail/node_state.hpp:87-93. *)
Definition add_inner (ctx : option ptr) (k : nat) (p : ptr) : MM unit :=
  match ctx with
  | None => check (bool_decide (k = 0)) FAssert ;! on_core (set_outermost (Some p))
  | Some q =>
      let! o := deref q in
      check (bool_decide (o_inner o !! k = Some None)) FAssert ;!
      on_heap (<[q := set_inner (<[k := Some p]> (o_inner o)) o]>)
  end.

(** release_events, state_machine.hpp:645-648: the deferred events go to the front. *)
Definition release_events : MM unit :=
  on_env (λ v, set_deferred [] (set_queue (deferred v ++ queue v) (log ORelease v))).

(** ~simple_state, simple_state.hpp:360-373, up to the destruction of the pContext_ member: unlink
    from the context (if it was set) and give back the storage. *)
Definition unlink (p : ptr) : MM unit :=
  let! o := deref p in
  match o_ctx o with
  | None => on_heap (delete p)
  | Some ctx =>
      when (o_defer o) release_events ;!
      remove_inner ctx (pos ch (o_cls o)) ;!
      on_heap (delete p)
  end.

(** The user's part of a state destructor. *)
Definition user_dtor (p : ptr) (c : cls) : MM unit :=
  look_around (Some c) (Some p) ;!
  ucall ch heap_leaves (λ v w, let '(w', cs) := u_dtor U c v w in (w', cs, tt)).

(** intrusive_ptr_release for simple_state pointers (simple_state.hpp:977-987) including the whole
    destructor chain: destroying a state destroys its pContext_ and so may destroy its context.
    The fuel bounds the nesting depth. *)
Fixpoint release (n : nat) (p : ptr) : MM unit :=
  match n with
  | 0 => faulty FFuel
  | Datatypes.S n' =>
      let! o := deref p in
      match o_rc o with
      | 0 => faulty FAssert
      | 1 =>
          on_heap (<[p := set_rc 0 o]>) ;!
          emit (ODtor p (o_cls o)) ;!
          user_dtor p (o_cls o) ;!
          unlink p ;!
          match o_ctx o with
          | None | Some None => ret tt
          | Some (Some q) => release n' q
          end
      | Datatypes.S k => on_heap (<[p := set_rc k o]>)
      end
  end.
Definition rel (p : ptr) : MM unit := release (depth_fuel ch) p.
Definition rel_ctx (x : option ptr) : MM unit :=
  match x with None => ret tt | Some p => rel p end.

(** simple_state::set_context, simple_state.hpp:607-613 (the context pointer is never null here:
    it is given as [option ptr] where None is the machine). *)
Definition set_context (p : ptr) (c : cls) (ctx : option ptr) : MM unit :=
  add_ref_ctx ctx ;!
  store p (set_ctx (Some ctx)) ;!
  add_inner ctx (pos ch c) p.

(** The user's constructor. A simple_state constructor must not use the machine: its pContext_ is
    still null and outermost_context_base() asserts (simple_state.hpp:453-468). *)
Definition user_ctor (p : ptr) (c : cls) : MM unit :=
  when (cd_state (cd ch c)) (look_around (Some c) (Some p)) ;!
  let! r := ucall ch heap_leaves (u_ctor U c) in
  match r with
  | None => emit (OCtor p c)
  | Some x => emit (OThrow x) ;! emit (OCtorThrow p c) ;! throw x
  end.
Definition simple_ctor (p : ptr) (c : cls) : MM unit :=
  let! s := gets id in
  check (match (u_ctor U c (View (trig (en s)) (heap_leaves (core s))) (world (en s))).1.2 with
         | [] => true | _ => false end) FAssert ;!
  user_ctor p c.

(** [new MostDerived] (simple_state.hpp:601) resp. [new MostDerived( my_context( pContext ) )]
    (state.hpp:75-76, 42-45), the first intrusive_ptr, and set_context for simple_state.
    If the constructor throws the base class destructors run and the storage is freed.
    Simplification: the copies of pContext inside my_context, which live exactly as long as
    the constructor call, are not counted. *)
Definition new_state (c : cls) (ctx : option ptr) : MM ptr :=
  alloc U (AState c) ;!
  let! p := gets (λ s, nxt (core s)) in
  on_core (λ x, set_nxt (p + 1) (set_heap (<[p := Obj c 0 None (replicate (nreg ch c) None) None false]> (heap x)) x)) ;!
  (if cd_state (cd ch c)
   then set_context p c ctx ;!
        on_exn (user_ctor p c) (unlink p ;! rel_ctx ctx)
   else on_exn (simple_ctor p c) (unlink p)) ;!
  add_ref p ;!
  (if cd_state (cd ch c) then ret tt else set_context p c ctx) ;!
  ret p.

(** add_impl for leaf states, state_machine.hpp:969-986. *)
Definition add_leaf (p : ptr) : MM unit :=
  let! x := gets core in
  let n := send x in
  if bool_decide (n = length (slots x))
  then
    add_ref p ;!
    on_core (λ x, set_send (n + 1) (set_slots (slots x ++ [Some p]) x)) ;!
    store p (set_lpos (Some n))
  else
    add_ref p ;!
    on_core (λ x, set_slots (<[n := Some p]> (slots x)) x) ;!
    release_base_opt (mjoin (slots x !! n)) ;!
    store p (set_lpos (Some n)) ;!
    on_core (set_send (n + 1)).

(** add, state_machine.hpp:608-625, with is_in_highest_orthogonal_region :996-1004 and
    outer_state_ptr, simple_state.hpp:471-480. *)
Definition add_state (p : ptr) (c : cls) : MM unit :=
  (if is_leaf ch c then add_leaf p else ret tt) ;!
  let cand := if is_leaf ch c then None else Some p in
  let! o := deref p in
  let! s := gets id in
  if ico (en s)
     || (bool_decide (pos ch c + 1 = nreg_ctx ch (parent ch c))
         && bool_decide (unst (core s) = mjoin (o_ctx o)))
  then on_env (set_ico false) ;! assign_unst cand
  else ret tt.

(** The insertion into currentStates_ in add_impl, state_machine.hpp:973-977: when it throws, shallow_construct gives
    up its reference.  Simplification: the allocator is asked each time an innermost state is added, also if there is
    an unused element; user data can count the elements, so that the answer can depend on it. *)
Definition new_entry (p : ptr) (c : cls) : MM unit :=
  when (is_leaf ch c) (on_exn (alloc U (AEntry c)) (rel p)).

(** shallow_construct, simple_state.hpp:597-605, state.hpp:71-79; the caller receives one
    reference. *)
Definition shallow_construct (c : cls) (ctx : option ptr) : MM ptr :=
  let! p := new_state c ctx in
  new_entry p c ;!
  add_state p c ;!
  ret p.

(** deep_construct_inner, simple_state.hpp:615-627, 873-904. *)
Definition construct_inner (rec : init → MM unit) (l : list init) : MM unit := iter rec l.

(** constructor::construct (detail/constructor.hpp:39-110), deep_construct (simple_state.hpp:587-595,
    state.hpp:59-68), shallow_history/deep_history::deep_construct (shallow_history.hpp:44-50,
    deep_history.hpp:44-50) and construct_with_history_impl (state_machine.hpp:1025-1052).
    [construct n path d ctx] constructs the outer states [path] from the outside in and then [d],
    below [ctx], with all their inner initial states. The reference returned by shallow_construct is
    given up at the end of each function. The fuel bounds the nesting of template instantiations. *)
Fixpoint construct (n : nat) (path : list cls) (d : init) (ctx : option ptr) : MM unit :=
  match n with
  | 0 => faulty FFuel
  | Datatypes.S n' =>
      match path with
      | c :: path' =>
          let! p := shallow_construct c ctx in
          let k := pos ch (hd (init_cls d) path') in
          finally
            (construct_inner (λ i, construct n' [] i (Some p)) (take k (inner ch c)) ;!
             construct n' path' d (Some p) ;!
             construct_inner (λ i, construct n' [] i (Some p)) (drop (Datatypes.S k) (inner ch c)))
            (rel p)
      | [] =>
          match d with
          | IState c =>
              let! p := shallow_construct c ctx in
              finally (construct_inner (λ i, construct n' [] i (Some p)) (inner ch c)) (rel p)
          | IShallow c =>
              let! m := gets (λ s, shallow_map (en s)) in
              match m !! region ch c with
              | Some (Some h) => emit (OHistS c h) ;! construct n' [] (IState h) ctx
              | _ => emit (OHistS c c) ;! construct n' [] (IState c) ctx
              end
          | IDeep c =>
              let! m := gets (λ s, deep_map (en s)) in
              match m !! region ch c with
              | Some (Some l) =>
                  emit (OHistD c l) ;! construct n' (path_below ch (parent ch c) l) (IState l) ctx
              | _ => emit (OHistD c c) ;! construct n' [] (IState c) ctx
              end
          end
      end
  end.
Definition constructs (path : list cls) (d : init) (ctx : option ptr) : MM unit :=
  construct (depth_fuel ch) path d ctx.

(** store_deep_history_impl / deep_history_storer, simple_state.hpp:140-167, 629-637, and
    state_machine::store_deep_history, state_machine.hpp:672-687: [h] is the current level,
    [l] the innermost state.  Nothing is recorded from level [x] on, if one is given. *)
Fixpoint store_deep_f (x : option cls) (n : nat) (h l : cls) (m : hist) : hist :=
  match n with
  | 0 => m
  | Datatypes.S n' =>
      match parent ch h with
      | None => m
      | Some q =>
          if bool_decide (x = Some h) then m else
          if inherited_deep ch q
          then store_deep_f x n' q l
                 (if cd_deep (cd ch q) then <[region ch h := Some l]> m else m)
          else m
      end
  end.
(** The levels at which it records something, in this order. *)
Fixpoint deep_levels (n : nat) (h : cls) : list cls :=
  match n with
  | 0 => []
  | Datatypes.S n' =>
      match parent ch h with
      | None => []
      | Some q =>
          if inherited_deep ch q
          then (if cd_deep (cd ch q) then [h] else []) ++ deep_levels n' q
          else []
      end
  end.

(** check_store_shallow_history and check_store_deep_history, simple_state.hpp:906-959,
    state_machine.hpp:651-661. *)
Definition store_upto (x : option cls) (c : cls) (v : env W) : env W :=
  let v1 := if stores_shallow ch c
            then set_shallow (<[region ch c := Some c]> (shallow_map v)) v else v in
  if stores_deep ch c
  then set_deep (store_deep_f x (Datatypes.S c) c c (deep_map v1)) v1 else v1.
Definition store_history (c : cls) (v : env W) : env W := store_upto None c v.

(** Storage for the elements of the history maps (state_machine.hpp:651-661, 672-687, 1017-1023): one of the shallow
    history, then those of the deep history from the inside out.  If one is refused, those before it are recorded.
    Simplification: storage is requested also if the element already exists, and elements are recorded together when
    all requests were granted or one was refused; nothing can be observed in between. *)
Definition record_parts (c : cls) : list (option cls) :=
  (if stores_shallow ch c then [None] else []) ++
  (if stores_deep ch c then Some <$> deep_levels (Datatypes.S c) c else []).
Definition store_part (c : cls) (x : option cls) (v : env W) : env W :=
  match x with None => v | Some h => store_upto (Some h) c v end.
Definition new_element {X} (c : cls) (x : option cls) : M (mst W X) unit :=
  let! s := gets id in
  let '(w, r) := u_alloc U (ARecord c x) (world (en s)) in
  on_env (set_world w) ;!
  match r with
  | None => ret tt
  | Some y => on_env (store_part c x) ;! emit (ORefused (ARecord c x)) ;! emit (OThrow y) ;! throw y
  end.
Definition new_record {X} (c : cls) : M (mst W X) unit := iter (new_element c) (record_parts c).
(** The user's exit(). *)
Definition user_exit (p : ptr) (c : cls) : MM unit :=
  emit (OExit p c) ;! look_around (Some c) (Some p) ;! ucall_x ch heap_leaves (u_exit U c) ;! new_record c.

(** The non-virtual simple_state::exit_impl, simple_state.hpp:516-560, and state_machine::exit_impl,
    state_machine.hpp:539-542. The caller's pointer pSelf is one of the counted references; it is
    always given up (set to null here or destroyed by the caller right afterwards, also during
    stack unwinding). *)
Fixpoint exit_impl (n : nat) (p : ptr) (fe : bool) : MM unit :=
  match n with
  | 0 => faulty FFuel
  | Datatypes.S n' =>
      let! o := deref p in
      let! u := gets (λ s, unst (core s)) in
      match o_ctx o with
      | None => faulty FDangling
      | Some ctx =>
          let go :=
            let! u := gets (λ s, unst (core s)) in
            (if bool_decide (u = None) then assign_unst ctx else ret tt) ;!
            when fe
              (on_exn (user_exit p (o_cls o)) (rel p) ;!
               on_env (store_history (o_cls o))) ;!
            add_ref_ctx ctx ;!
            rel p ;!
            match ctx with
            | None => ret tt
            | Some q => exit_impl n' q fe
            end in
          if bool_decide (o_rc o = 2)
          then if bool_decide (u = Some p)
               then assign_unst ctx ;! go
               else rel p
          else if bool_decide (o_rc o = 1) then go else rel p
      end
  end.

(** The virtual exit_impl (simple_state.hpp:504-514) called on the element of currentStates_ at
    position [i]. *)
Definition exit_slot (i : nat) (fe : bool) : MM unit :=
  let! x := gets core in
  match slots x !! i with
  | Some (Some p) =>
      add_ref p ;!
      on_core (λ x, set_slots (<[i := None]> (slots x)) x) ;!
      release_base p ;!
      exit_impl (depth_fuel ch) p fe
  | _ => faulty FDangling
  end.

(** leaf_state::remove_from_state_list, detail/leaf_state.hpp:53-64. *)
Definition remove_leaf (p : ptr) (fe : bool) : MM unit :=
  let! o := deref p in
  let! x := gets core in
  match send x, o_lpos o with
  | Datatypes.S e, Some lp =>
      match slots x !! lp, slots x !! e with
      | Some a, Some b =>
          on_core (λ x, set_send e (set_slots (<[lp := b]> (<[e := a]> (slots x))) x)) ;!
          match b with
          | Some q => store q (set_lpos (Some lp))
          | None => faulty FDangling
          end ;!
          exit_slot e fe
      | _, _ => faulty FDangling
      end
  | _, _ => faulty FDangling
  end.

(** node_state::remove_from_state_list, detail/node_state.hpp:101-131 and the leaf version. The
    regions are visited from the last down to the first non-null one found at the start. *)
Fixpoint remove_from (n : nat) (p : ptr) (fe : bool) : MM unit :=
  match n with
  | 0 => faulty FFuel
  | Datatypes.S n' =>
      let! o := deref p in
      if is_leaf ch (o_cls o) then remove_leaf p fe
      else
        match list_find (λ x, x ≠ None) (o_inner o) with
        | None =>
            let! u := gets (λ s, unst (core s)) in
            check (bool_decide (u = Some p)) FAssert ;!
            add_ref p ;!
            exit_impl (depth_fuel ch) p fe
        | Some (f, _) =>
            iter (λ k,
              let! o := deref p in
              match o_inner o !! k with
              | Some (Some q) => remove_from n' q fe
              | _ => ret tt
              end) (rev (seq f (length (o_inner o) - f)))
        end
  end.

(** terminate_impl( theState, performFullExit ), state_machine.hpp:933-966. *)
Definition terminate_state (p : ptr) (fe : bool) : MM unit :=
  on_env (set_ico false) ;!
  let! x := gets core in
  match unst x with
  | Some _ => remove_from (depth_fuel ch) p fe
  | None =>
      match send x with
      | 0 => faulty FDangling
      | 1 => on_core (set_send 0) ;! exit_slot 0 fe
      | _ => check (bool_decide (1 < length (slots x))) FAssert ;! remove_from (depth_fuel ch) p fe
      end
  end.

(** terminate_impl( performFullExit ), state_machine.hpp:918-931. *)
Definition terminate_machine (fe : bool) : MM unit :=
  on_env (set_full true) ;!
  let! t := gets (λ s, outermost (core s)) in
  match t with None => ret tt | Some p => terminate_state p fe end ;!
  on_env (λ v, set_deep ∅ (set_shallow ∅ (set_deferred [] (set_queue [] (log OReset v))))).

(** terminated(), state_machine.hpp:268-271. *)
Definition terminated (s : S) : bool := bool_decide (outermost (core s) = None).

(** simple_state::terminate (simple_state.hpp:327-331), terminate_as_reaction
    (state_machine.hpp:590-594). *)
Definition terminate_as_reaction (p : ptr) : MM unit :=
  let! f := gets (λ s, full (en s)) in
  terminate_state p f ;!
  assign_unst None.

(** context< termination_state_type >(): following pContext_ outward. *)
Fixpoint outward (n : nat) (p : ptr) : MM ptr :=
  match n with
  | 0 => ret p
  | Datatypes.S n' =>
      let! o := deref p in
      match o_ctx o with
      | None => faulty FAssert
      | Some None => faulty FStatic
      | Some (Some q) => outward n' q
      end
  end.

(** The transition action, simple_state.hpp:105-137: a member function of the common context [x] of class
    [c] (None: the machine), or of an outer state of that, which context<>() finds from there (Cast.v). *)
Definition user_action (c : option cls) (x : option ptr) (a : option nat) (e : event) : MM unit :=
  match a with
  | None => ret tt
  | Some n => emit (OAction x n e) ;! look_around c x ;! ucall_x ch heap_leaves (u_action U n e)
  end.

(** Leaving states and calling the action, simple_state.hpp:727-785; terminate_as_part_of_transit,
    state_machine.hpp:596-606.  [t] is terminationState, [x] and [ctx] are the common context.  With
    BOOST_STATECHART_RELAX_TRANSITION_CONTEXT an action of an outer state [w] that is left is called when everything
    inside [w] is left (:768-777); otherwise it is called when everything is left (:760-767, :781-784). *)
Definition depart (p : ptr) (c : cls) (i : nat) (t : ptr) (x : option cls) (ctx : option ptr)
    (act : option nat) (e : event) : MM unit :=
  match early ch c i act with
  | None =>
      let! f := gets (λ s, full (en s)) in
      terminate_state t f ;!
      on_env (set_ico true) ;!
      user_action x ctx act e
  | Some j =>
      let! w := outward j p in
      add_ref w ;!
      finally
        (let! f := gets (λ s, full (en s)) in
         terminate_state w f ;!
         on_env (set_ico true) ;!
         user_action (termination_state ch c j) (Some w) act e)
        (rel w) ;!
      let! f := gets (λ s, full (en s)) in
      terminate_state t f ;!
      on_env (set_ico true)
  end.

(** transit_impl, simple_state.hpp:698-803. *)
Definition transit (p : ptr) (c : cls) (d : init) (act : option nat) (e : event) : MM unit :=
  emit (OTransit p c d) ;!
  if transit_ok ch c d then
    match common_context ch c (init_cls d) with
    | None => faulty FStatic
    | Some (i, x) =>
        let! t := outward i p in
        let! ot := deref t in
        match o_ctx ot with
        | None => faulty FAssert
        | Some ctx =>
            add_ref_ctx ctx ;!
            finally
              (depart p c i t x ctx act e ;!
               constructs (path_below ch x (init_cls d)) d ctx)
              (rel_ctx ctx)
        end
    end
  else faulty FStatic.

(** The result functions of simple_state, simple_state.hpp:294-331. *)
Definition decide_result (p : ptr) (c : cls) (e : event) (r : decision) : MM rr :=
  match r with
  | DDiscard => ret RDiscard
  | DForward => ret RForward
  | DDefer => store p (set_defer true) ;! ret RDefer
  | DTransit d act => transit p c d act e ;! ret RDiscard
  | DTerminate => emit (OTerminate p c) ;! terminate_as_reaction p ;! ret RDiscard
  | DThrow x => emit (OThrow x) ;! throw x
  end.

(** One element of the reactions list that matches: transition.hpp:26-72, deferral.hpp:24-60,
    termination.hpp:24-60, in_state_reaction.hpp:26-66, custom_reaction.hpp:34-78. *)
Definition run_reaction (p : ptr) (c : cls) (i : nat) (r : reaction) (e : event) : MM rr :=
  match r with
  | RTransition _ d act => decide_result p c e (DTransit d act)
  | RDeferral _ => decide_result p c e DDefer
  | RTermination _ => decide_result p c e DTerminate
  | RInState _ act =>
      match act with
      | None => ret tt
      | Some n => emit (OInState n e) ;! look_around (Some c) (Some p) ;! ucall_x ch heap_leaves (u_instate U n e)
      end ;! ret RDiscard
  | RCustom _ =>
      emit (OReact p c i e) ;!
      look_around (Some c) (Some p) ;!
      let! r := ucall ch heap_leaves (u_react U c i e) in
      decide_result p c e r
  end.

(** local_react, simple_state.hpp:805-852. *)
Fixpoint local_react (p : ptr) (c : cls) (i : nat) (l : list reaction) (e : event) : MM rr :=
  match l with
  | [] => ret RForward
  | r :: l' =>
      if matches (reaction_pat r) e then run_reaction p c i r e
      else local_react p c (Datatypes.S i) l' e
  end.

(** simple_state::react_impl, simple_state.hpp:482-502; state_machine::react_impl,
    state_machine.hpp:532-537. *)
Fixpoint react_impl (n : nat) (p : ptr) (e : event) : MM rr :=
  match n with
  | 0 => faulty FFuel
  | Datatypes.S n' =>
      let! o := deref p in
      emit (OVisit p (o_cls o) e) ;!
      let! r := local_react p (o_cls o) 0 (cd_reacts (cd ch (o_cls o))) e in
      emit (OResult p (o_cls o) r) ;!
      match r with
      | RForward =>
          let! o := deref p in
          match o_ctx o with
          | None => faulty FDangling
          | Some None => ret RForward
          | Some (Some q) => react_impl n' q e
          end
      | _ => ret r
      end
  end.
Definition react (p : ptr) (e : event) : MM rr := react_impl (depth_fuel ch) p e.

(** class terminator (state_machine.hpp:837-866) around code that is dismissed on normal exit: sets
    the triggering event, and on an exception destroys all states and clears the queues; the
    old triggering event is restored in any case. *)
Definition with_trig {A} (t : option event) (m : MM A) : MM A :=
  let! old := gets (λ s, trig (en s)) in
  on_env (set_trig t) ;!
  finally m (on_env (set_trig old)).
Definition guarded {A} (m : MM A) : MM A := on_exn m (terminate_machine false).

(** handle_exception_event, state_machine.hpp:753-802. [x] is the exception being handled. *)
Definition handle_exception (xe : event) (x : exn) (cur : option ptr) : MM rr :=
  let! s := gets id in
  if terminated s then throw x
  else
    match (match unst (core s) with None => cur | Some u => Some u end) with
    | None => faulty FAssert
    | Some p =>
        let! r :=
          on_exn
            (with_trig (Some xe)
              (emit (OHandle p xe) ;!
               on_env (set_full false) ;!
               let! r := react p xe in
               on_env (set_full true) ;!
               let! u := gets (λ s, unst (core s)) in
               if bool_decide (r = RDiscard) && bool_decide (u = None)
               then ret RDiscard
               else throw x))
            (emit OUnhandled) in
        emit OHandled ;!
        ret r
    end.

(** translator_( action, exception_event_handler( *this, cur ) ),
    exception_translator.hpp:26-52, null_exception_translator.hpp:24-38. *)
Definition translated (m : MM rr) (cur : option ptr) : MM rr :=
  catching m (λ x, emit (OCatch x) ;!
                   match u_translate U x with
                   | None => throw x
                   | Some xe => handle_exception xe x cur
                   end).

(** The dispatch loop of send_event, state_machine.hpp:878-890: from position [i], as long as the
    event is forwarded and currentStatesEnd_ is not reached. [n] bounds the number of iterations
    (the length of currentStates_). *)
Fixpoint dispatch (n : nat) (i : nat) (e : event) : MM rr :=
  let! x := gets core in
  if bool_decide (i = send x) then ret RForward
  else
    match n with
    | 0 => faulty FDangling
    | Datatypes.S n' =>
        match slots x !! i with
        | Some (Some p) =>
            let! r := translated (react p e) (Some p) in
            match r with
            | RForward => dispatch n' (Datatypes.S i) e
            | _ => ret r
            end
        | _ => faulty FDangling
        end
    end.

(** send_event, state_machine.hpp:870-900. *)
Definition send_event (e : event) : MM rr :=
  finally
    (with_trig (Some e)
      (let! x := gets core in
       emit (ODispatch e (heap_leaves x)) ;!
       let! r :=
         guarded
           (let! x := gets core in
            check (bool_decide (unst x = None)) FAssert ;!
            dispatch (length (slots x)) 0 e) in
       match r with
       | RForward => emit (OUnconsumed e) ;! look_around None None ;! ucall_x ch heap_leaves (u_unconsumed U e) ;! ret RForward
       | _ => ret r
       end))
    (emit ODone).

(** state_machine.hpp:275-278, 910-913; intrusive_from_this() (event_base.hpp:108-118) copies the event if it is not on
    the heap.  Neither the terminator guard nor the exception translator is active. *)
Definition defer_if (r : rr) (e : event) : MM unit :=
  match r with
  | RDefer => alloc U (ADefer e) ;! on_env (λ v, set_deferred (deferred v ++ [e]) (log (ODefer e) v))
  | _ => ret tt
  end.

(** process_queued_events, state_machine.hpp:903-915; at most [n] iterations. *)
Fixpoint process_queued (n : nat) : MM unit :=
  let! q := gets (λ s, queue (en s)) in
  match q with
  | [] => ret tt
  | e :: q' =>
      match n with
      | 0 => diverge
      | Datatypes.S n' =>
          on_env (λ v, set_queue q' (log (OTake e) v)) ;!
          let! r := send_event e in
          defer_if r e ;!
          process_queued n'
      end
  end.

(** terminate(), state_machine.hpp:259-266. *)
Definition terminate : MM unit :=
  with_trig None
    (guarded
       (translated (terminate_machine true ;! ret RDiscard) None ;!
        ret tt)).

(** initiate(), state_machine.hpp:244-257; initial_construct :699-703. *)
Definition initiate (n : nat) : MM unit :=
  terminate ;!
  with_trig None
    (guarded
       (translated (constructs [] (IState (ch_init ch)) None ;! ret RDiscard) None ;!
        ret tt)) ;!
  process_queued n.

(** process_event, state_machine.hpp:273-281. *)
Definition process_event (n : nat) (e : event) : MM unit :=
  emit (OProcess e) ;!
  let! r := send_event e in
  defer_if r e ;!
  process_queued n.

(** ~state_machine, state_machine.hpp:425-428. *)
Definition destroy : MM unit := terminate_machine false.

(** state_machine(), state_machine.hpp:414-421. *)
Definition fresh_env (w : W) : env W := Env [] [] ∅ ∅ None false true w [] [].
Definition fresh_heap : heapst := HeapSt ∅ 0 [] 0 None None.
Definition fresh (w : W) : S := MSt fresh_heap (fresh_env w).

End machine.
