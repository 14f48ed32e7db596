(** The abstract machine: the functions of Machine.v without heap, reference counts, pointers
    and list positions.  It is a proof device: Refine.v shows that whenever the abstract machine does
    not fault, the concrete machine makes the same calls to user code and gives the same result.
    A fault here is a violated precondition. *)
From Verif Require Export Api.

(** A state object: its class and its address. *)
Notation aid := (nat * nat)%type (only parsing).
(** A region of a state (or of the machine). *)
Notation reg := (option nat * nat)%type (only parsing).

(** Which object occupies a region; which objects have deferred events; the innermost states in
    iteration order; the outermost unstable state; the next address. *)
Record acore := ACore {
  occ : gmap reg aid;
  dfr : gset ptr;
  ord : list aid;
  aunst : option aid;
  anxt : ptr }.

Definition set_occ (m : gmap reg aid) (a : acore) : acore := ACore m (dfr a) (ord a) (aunst a) (anxt a).
Definition set_dfr (m : gset ptr) (a : acore) : acore := ACore (occ a) m (ord a) (aunst a) (anxt a).
Definition set_ord (l : list aid) (a : acore) : acore := ACore (occ a) (dfr a) l (aunst a) (anxt a).
Definition set_aunst (u : option aid) (a : acore) : acore := ACore (occ a) (dfr a) (ord a) u (anxt a).
Definition set_anxt (n : ptr) (a : acore) : acore := ACore (occ a) (dfr a) (ord a) (aunst a) n.

Definition abs_leaves (a : acore) : list cls := map fst (ord a).

(** Removing the element at position [i] by swapping it with the last one
    (detail/leaf_state.hpp:58-60). *)
Definition swap_remove (i : nat) (l : list aid) : list aid :=
  let e := length l - 1 in
  match l !! e with
  | None => []
  | Some z => take e (<[i := z]> l)
  end.

Section abs.
Context {W : Type} (ch : chart) (U : user W).
Notation S := (mst W acore).
Notation MM := (M S).

Definition alive (a : acore) (x : aid) : Prop := occ a !! region ch x.1 = Some x.
Global Instance alive_dec a x : Decision (alive a x).
Proof. unfold alive. apply _. Defined.

(** The occupants of the regions of a state, in region order. *)
Definition kids (a : acore) (c : cls) : list aid :=
  omap (λ k, occ a !! (Some c, k)) (seq 0 (nreg ch c)).

(** Is there a reason to keep [x]: an inner state, the list of innermost states, the outermost
    unstable state, or a reference on the stack ([H])? *)
Definition busy (H : list aid) (a : acore) (x : aid) : bool :=
  bool_decide (kids a x.1 ≠ []) || bool_decide (x ∈ ord a)
  || bool_decide (aunst a = Some x) || bool_decide (x ∈ H).

Definition assert (P : Prop) {_ : Decision P} : MM unit := check (bool_decide P) FAssert.

(** The context object of an active state: None is the machine. *)
Definition ctx_of (a : acore) (c : cls) : option aid :=
  match parent ch c with None => None | Some q => occ a !! region ch q end.

Definition a_user_dtor (c : cls) : MM unit :=
  ucall ch abs_leaves (λ v w, let '(w', cs) := u_dtor U c v w in (w', cs, tt)).

Definition a_release_events : MM unit :=
  on_env (λ v, set_deferred [] (set_queue (deferred v ++ queue v) (log ORelease v))).

(** Destruction of one state object. *)
Definition a_destroy (x : aid) : MM unit :=
  emit (ODtor x.2 x.1) ;!
  a_user_dtor x.1 ;!
  let! a := gets core in
  when (bool_decide (x.2 ∈ dfr a)) a_release_events ;!
  on_core (λ a, set_dfr (dfr a ∖ {[x.2]}) (set_occ (delete (region ch x.1) (occ a)) a)).

(** Giving up a reference: Machine.release. *)
Fixpoint a_drop (n : nat) (H : list aid) (x : aid) : MM unit :=
  match n with
  | 0 => faulty FFuel
  | Datatypes.S n' =>
      let! a := gets core in
      assert (alive a x) ;!
      if busy H a x then ret tt
      else
        a_destroy x ;!
        match ctx_of a x.1 with
        | None => ret tt
        | Some q => a_drop n' H q
        end
  end.
Definition drop_ (H : list aid) (x : aid) : MM unit := a_drop (depth_fuel ch) H x.
Definition drop_opt (H : list aid) (x : option aid) : MM unit :=
  match x with None => ret tt | Some q => drop_ H q end.

Definition alive_opt (a : acore) (x : option aid) : Prop :=
  match x with None => True | Some y => alive a y end.
Global Instance alive_opt_dec a x : Decision (alive_opt a x).
Proof. destruct x; simpl; apply _. Defined.

(** Machine.assign_unst. *)
Definition a_set_unst (H : list aid) (new : option aid) : MM unit :=
  let! a := gets core in
  assert (alive_opt a new) ;!
  on_core (set_aunst new) ;!
  let! a' := gets core in
  match aunst a with
  | None => ret tt
  | Some o => check (busy H a' o) FAssert
  end.

Definition a_user_ctor (p : ptr) (c : cls) : MM unit :=
  let! r := ucall ch abs_leaves (u_ctor U c) in
  match r with
  | None => emit (OCtor p c)
  | Some x => emit (OThrow x) ;! emit (OCtorThrow p c) ;! throw x
  end.
Definition a_simple_ctor (p : ptr) (c : cls) : MM unit :=
  let! s := gets id in
  check (match (u_ctor U c (View (trig (en s)) (abs_leaves (core s))) (world (en s))).1.2 with
         | [] => true | _ => false end) FAssert ;!
  a_user_ctor p c.

(** [ctx] is the context object for a new state of class [c], and is held. *)
Definition ctx_ok (H : list aid) (a : acore) (c : cls) (ctx : option aid) : Prop :=
  match parent ch c, ctx with
  | None, None => True
  | Some q, Some x => x.1 = q ∧ alive a x ∧ x ∈ H
  | _, _ => False
  end.
Global Instance ctx_ok_dec H a c x : Decision (ctx_ok H a c x).
Proof. unfold ctx_ok. destruct (parent ch c), x; apply _. Defined.

(** Machine.new_state; [H] are the references held. *)
Definition a_new (H : list aid) (c : cls) (ctx : option aid) : MM aid :=
  alloc U (AState c) ;!
  let! a := gets core in
  let p := anxt a in
  assert (ctx_ok H a c ctx) ;!
  assert (occ a !! region ch c = None) ;!
  on_core (set_anxt (p + 1)) ;!
  (if cd_state (cd ch c) then a_user_ctor p c else a_simple_ctor p c) ;!
  on_core (λ a, set_occ (<[region ch c := (c, p)]> (occ a)) a) ;!
  ret (c, p).

(** Machine.add_state. *)
Definition a_add (H : list aid) (x : aid) (ctx : option aid) : MM unit :=
  (if is_leaf ch x.1 then on_core (λ a, set_ord (ord a ++ [x]) a) else ret tt) ;!
  let cand := if is_leaf ch x.1 then None else Some x in
  let! s := gets id in
  if ico (en s)
     || (bool_decide (pos ch x.1 + 1 = nreg_ctx ch (parent ch x.1))
         && bool_decide (aunst (core s) = ctx))
  then on_env (set_ico false) ;! a_set_unst H cand
  else ret tt.

(** Machine.new_entry; nothing else refers to the new object, and the context object is held. *)
Definition a_entry (x : aid) : MM unit :=
  when (is_leaf ch x.1) (on_exn (alloc U (AEntry x.1)) (a_destroy x)).

Definition a_shallow (H : list aid) (c : cls) (ctx : option aid) : MM aid :=
  let! x := a_new H c ctx in
  a_entry x ;!
  a_add (x :: H) x ctx ;!
  ret x.

Fixpoint a_construct (n : nat) (H : list aid) (path : list cls) (d : init) (ctx : option aid) : MM unit :=
  match n with
  | 0 => faulty FFuel
  | Datatypes.S n' =>
      match path with
      | c :: path' =>
          let! x := a_shallow H c ctx in
          let k := pos ch (hd (init_cls d) path') in
          finally
            (iter (λ i, a_construct n' (x :: H) [] i (Some x)) (take k (inner ch c)) ;!
             a_construct n' (x :: H) path' d (Some x) ;!
             iter (λ i, a_construct n' (x :: H) [] i (Some x)) (drop (Datatypes.S k) (inner ch c)))
            (drop_ H x)
      | [] =>
          match d with
          | IState c =>
              let! x := a_shallow H c ctx in
              finally (iter (λ i, a_construct n' (x :: H) [] i (Some x)) (inner ch c)) (drop_ H x)
          | IShallow c =>
              let! m := gets (λ s, shallow_map (en s)) in
              match m !! region ch c with
              | Some (Some h) => emit (OHistS c h) ;! a_construct n' H [] (IState h) ctx
              | _ => emit (OHistS c c) ;! a_construct n' H [] (IState c) ctx
              end
          | IDeep c =>
              let! m := gets (λ s, deep_map (en s)) in
              match m !! region ch c with
              | Some (Some l) =>
                  emit (OHistD c l) ;! a_construct n' H (path_below ch (parent ch c) l) (IState l) ctx
              | _ => emit (OHistD c c) ;! a_construct n' H [] (IState c) ctx
              end
          end
      end
  end.
Definition a_constructs (H : list aid) (path : list cls) (d : init) (ctx : option aid) : MM unit :=
  a_construct (depth_fuel ch) H path d ctx.

Definition a_user_exit (x : aid) : MM unit :=
  emit (OExit x.2 x.1) ;! ucall_x ch abs_leaves (u_exit U x.1) ;! new_record ch U x.1.

(** The body of Machine.exit_impl once it is decided that [x] leaves. *)
Definition a_exit1 (H : list aid) (x : aid) (fe : bool) : MM unit :=
  let! a := gets core in
  let ctx := ctx_of a x.1 in
  (if bool_decide (aunst a = None ∨ aunst a = Some x) then a_set_unst (x :: H) ctx else ret tt) ;!
  when fe
    (on_exn (a_user_exit x) (drop_ H x) ;!
     on_env (store_history ch x.1)) ;!
  a_destroy x.

(** Machine.exit_impl; the caller's reference is not in [H]. *)
Fixpoint a_exit (n : nat) (H : list aid) (x : aid) (fe : bool) : MM unit :=
  match n with
  | 0 => faulty FFuel
  | Datatypes.S n' =>
      let! a := gets core in
      assert (alive a x) ;!
      if bool_decide (kids a x.1 ≠ []) || bool_decide (x ∈ ord a) || bool_decide (x ∈ H)
      then ret tt
      else
        a_exit1 H x fe ;!
        match ctx_of a x.1 with
        | None => ret tt
        | Some q => a_exit n' H q fe
        end
  end.
Definition exit_ (H : list aid) (x : aid) (fe : bool) : MM unit := a_exit (depth_fuel ch) H x fe.
Definition exit_opt (H : list aid) (x : option aid) (fe : bool) : MM unit :=
  match x with None => ret tt | Some q => exit_ H q fe end.

(** Taking a leaf off the list of innermost states. *)
Definition a_unlist (x : aid) : MM unit :=
  let! a := gets core in
  match list_find (eq x) (ord a) with
  | None => faulty FDangling
  | Some (i, _) => on_core (set_ord (swap_remove i (ord a)))
  end.

Fixpoint a_remove (n : nat) (H : list aid) (x : aid) (fe : bool) : MM unit :=
  match n with
  | 0 => faulty FFuel
  | Datatypes.S n' =>
      let! a := gets core in
      assert (alive a x) ;!
      if is_leaf ch x.1 then a_unlist x ;! exit_ H x fe
      else
        match list_find (λ k, occ a !! (Some x.1, k) ≠ None) (seq 0 (nreg ch x.1)) with
        | None =>
            assert (aunst a = Some x) ;!
            exit_ H x fe
        | Some (f, _) =>
            iter (λ k,
              let! a := gets core in
              assert (alive a x) ;!
              match occ a !! (Some x.1, k) with
              | Some y => a_remove n' H y fe
              | None => ret tt
              end) (rev (seq f (nreg ch x.1 - f)))
        end
  end.

Definition a_terminate_state (H : list aid) (x : aid) (fe : bool) : MM unit :=
  on_env (set_ico false) ;!
  let! a := gets core in
  match aunst a with
  | Some _ => a_remove (depth_fuel ch) H x fe
  | None =>
      match ord a with
      | [] => faulty FDangling
      | [y] => a_unlist y ;! exit_ H y fe
      | _ => a_remove (depth_fuel ch) H x fe
      end
  end.

Definition a_clear (v : env W) : env W :=
  set_deep ∅ (set_shallow ∅ (set_deferred [] (set_queue [] (log OReset v)))).

Definition a_terminate_machine (fe : bool) : MM unit :=
  on_env (set_full true) ;!
  let! a := gets core in
  match occ a !! (None, 0) with None => ret tt | Some x => a_terminate_state [] x fe end ;!
  on_env a_clear.

Definition a_terminated (s : S) : bool := bool_decide (occ (core s) !! (None, 0) = None).

Definition a_terminate_as_reaction (x : aid) : MM unit :=
  let! f := gets (λ s, full (en s)) in
  a_terminate_state [] x f ;!
  a_set_unst [] None.

Fixpoint a_outward (n : nat) (x : aid) : MM aid :=
  match n with
  | 0 => ret x
  | Datatypes.S n' =>
      let! a := gets core in
      assert (alive a x) ;!
      match ctx_of a x.1 with
      | None => faulty FStatic
      | Some q => a_outward n' q
      end
  end.

Definition a_user_action (x : option aid) (a : option nat) (e : event) : MM unit :=
  match a with
  | None => ret tt
  | Some n => emit (OAction (snd <$> x) n e) ;! ucall_x ch abs_leaves (u_action U n e)
  end.

Definition opt_list (x : option aid) : list aid := match x with None => [] | Some q => [q] end.

Definition a_depart (H : list aid) (ctx : option aid) (t : aid) (x : aid) (i : nat) (act : option nat) (e : event) : MM unit :=
  match early ch x.1 i act with
  | None =>
      let! f := gets (λ s, full (en s)) in
      a_terminate_state H t f ;!
      on_env (set_ico true) ;!
      a_user_action ctx act e
  | Some j =>
      let! w := a_outward j x in
      let! a := gets core in
      assert (alive a w) ;!
      finally
        (let! f := gets (λ s, full (en s)) in
         a_terminate_state (w :: H) w f ;!
         on_env (set_ico true) ;!
         a_user_action (Some w) act e)
        (drop_ H w) ;!
      let! f := gets (λ s, full (en s)) in
      a_terminate_state H t f ;!
      on_env (set_ico true)
  end.

Definition a_transit (x : aid) (d : init) (act : option nat) (e : event) : MM unit :=
  emit (OTransit x.2 x.1 d) ;!
  if transit_ok ch x.1 d then
    match common_context ch x.1 (init_cls d) with
    | None => faulty FStatic
    | Some (i, cc) =>
        let! t := a_outward i x in
        let! a := gets core in
        assert (alive a t) ;!
        let ctx := ctx_of a t.1 in
        let H := opt_list ctx in
        finally
          (a_depart H ctx t x i act e ;!
           a_constructs H (path_below ch cc (init_cls d)) d ctx)
          (drop_opt [] ctx)
    end
  else faulty FStatic.

Definition a_decide (x : aid) (e : event) (r : decision) : MM rr :=
  match r with
  | DDiscard => ret RDiscard
  | DForward => ret RForward
  | DDefer =>
      let! a := gets core in
      assert (alive a x) ;!
      on_core (λ a, set_dfr (dfr a ∪ {[x.2]}) a) ;! ret RDefer
  | DTransit d act => a_transit x d act e ;! ret RDiscard
  | DTerminate => emit (OTerminate x.2 x.1) ;! a_terminate_as_reaction x ;! ret RDiscard
  | DThrow y => emit (OThrow y) ;! throw y
  end.

Definition a_run_reaction (x : aid) (i : nat) (r : reaction) (e : event) : MM rr :=
  match r with
  | RTransition _ d act => a_decide x e (DTransit d act)
  | RDeferral _ => a_decide x e DDefer
  | RTermination _ => a_decide x e DTerminate
  | RInState _ act =>
      match act with
      | None => ret tt
      | Some n => emit (OInState n e) ;! ucall_x ch abs_leaves (u_instate U n e)
      end ;! ret RDiscard
  | RCustom _ =>
      emit (OReact x.2 x.1 i e) ;!
      let! r := ucall ch abs_leaves (u_react U x.1 i e) in
      a_decide x e r
  end.

Fixpoint a_local_react (x : aid) (i : nat) (l : list reaction) (e : event) : MM rr :=
  match l with
  | [] => ret RForward
  | r :: l' =>
      if matches (reaction_pat r) e then a_run_reaction x i r e
      else a_local_react x (Datatypes.S i) l' e
  end.

Fixpoint a_react_impl (n : nat) (x : aid) (e : event) : MM rr :=
  match n with
  | 0 => faulty FFuel
  | Datatypes.S n' =>
      let! a := gets core in
      assert (alive a x) ;!
      emit (OVisit x.2 x.1 e) ;!
      let! r := a_local_react x 0 (cd_reacts (cd ch x.1)) e in
      emit (OResult x.2 x.1 r) ;!
      match r with
      | RForward =>
          let! a := gets core in
          assert (alive a x) ;!
          match ctx_of a x.1 with
          | None => ret RForward
          | Some q => a_react_impl n' q e
          end
      | _ => ret r
      end
  end.
Definition a_react (x : aid) (e : event) : MM rr := a_react_impl (depth_fuel ch) x e.

Definition a_guarded {A} (m : MM A) : MM A := on_exn m (a_terminate_machine false).
Definition a_with_trig {A} (t : option event) (m : MM A) : MM A :=
  let! old := gets (λ s, trig (en s)) in
  on_env (set_trig t) ;!
  finally m (on_env (set_trig old)).

Definition a_handle_exception (xe : event) (y : exn) (cur : option aid) : MM rr :=
  let! s := gets id in
  if a_terminated s then throw y
  else
    match (match aunst (core s) with None => cur | Some u => Some u end) with
    | None => faulty FAssert
    | Some x =>
        let! r :=
          on_exn
            (a_with_trig (Some xe)
              (emit (OHandle x.2 xe) ;!
               on_env (set_full false) ;!
               let! r := a_react x xe in
               on_env (set_full true) ;!
               let! u := gets (λ s, aunst (core s)) in
               if bool_decide (r = RDiscard) && bool_decide (u = None)
               then ret RDiscard
               else throw y))
            (emit OUnhandled) in
        emit OHandled ;!
        ret r
    end.

Definition a_translated (m : MM rr) (cur : option aid) : MM rr :=
  catching m (λ y, emit (OCatch y) ;!
                   match u_translate U y with
                   | None => throw y
                   | Some xe => a_handle_exception xe y cur
                   end).

Fixpoint a_dispatch (n : nat) (i : nat) (e : event) : MM rr :=
  let! a := gets core in
  if bool_decide (i = length (ord a)) then ret RForward
  else
    match n with
    | 0 => faulty FDangling
    | Datatypes.S n' =>
        match ord a !! i with
        | Some x =>
            let! r := a_translated (a_react x e) (Some x) in
            match r with
            | RForward => a_dispatch n' (Datatypes.S i) e
            | _ => ret r
            end
        | None => faulty FDangling
        end
    end.

Definition a_send_event (e : event) : MM rr :=
  finally
    (a_with_trig (Some e)
      (let! a := gets core in
       emit (ODispatch e (abs_leaves a)) ;!
       let! r :=
         a_guarded
           (let! a := gets core in
            assert (aunst a = None) ;!
            a_dispatch (length (ord a)) 0 e) in
       match r with
       | RForward => emit (OUnconsumed e) ;! ucall_x ch abs_leaves (u_unconsumed U e) ;! ret RForward
       | _ => ret r
       end))
    (emit ODone).

Definition a_defer_if (r : rr) (e : event) : MM unit :=
  match r with
  | RDefer => alloc U (ADefer e) ;! on_env (λ v, set_deferred (deferred v ++ [e]) (log (ODefer e) v))
  | _ => ret tt
  end.

Fixpoint a_process_queued (n : nat) : MM unit :=
  let! q := gets (λ s, queue (en s)) in
  match q with
  | [] => ret tt
  | e :: q' =>
      match n with
      | 0 => diverge
      | Datatypes.S n' =>
          on_env (λ v, set_queue q' (log (OTake e) v)) ;!
          let! r := a_send_event e in
          a_defer_if r e ;!
          a_process_queued n'
      end
  end.

Definition a_terminate : MM unit :=
  a_with_trig None
    (a_guarded
       (a_translated (a_terminate_machine true ;! ret RDiscard) None ;!
        ret tt)).

Definition a_initiate (n : nat) : MM unit :=
  a_terminate ;!
  a_with_trig None
    (a_guarded
       (a_translated (a_constructs [] [] (IState (ch_init ch)) None ;! ret RDiscard) None ;!
        ret tt)) ;!
  a_process_queued n.

Definition a_process_event (n : nat) (e : event) : MM unit :=
  emit (OProcess e) ;!
  let! r := a_send_event e in
  a_defer_if r e ;!
  a_process_queued n.

Definition a_call (o : op) : MM unit :=
  match o with
  | OpInitiate n => a_initiate n
  | OpTerminate => a_terminate
  | OpProcess n e => a_process_event n e
  | OpPost e => do_cmd ch (CPost e)
  | OpClearShallow c k => do_cmd ch (CClearShallow c k)
  | OpClearDeep c k => do_cmd ch (CClearDeep c k)
  end.

Definition a_destroy_machine : MM unit := a_terminate_machine false.

Definition a_fresh (w : W) : S := MSt (ACore ∅ ∅ [] None 0) (fresh_env w).

End abs.
