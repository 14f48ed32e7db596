(** Concrete machines used in examples: user code that follows a script, and runs of calls that satisfy
    the conditions of the theorems. *)
From Verif Require Export Tests Seen.


(** Which user function is called. *)
Inductive place := PCtor (c : cls) | PExit (c : cls) | PDtor (c : cls) | PAct (n : nat) | PIn (n : nat) | PReact (c : cls)
  | PUnc | PAlloc (a : asite).
Global Instance place_eq_dec : EqDecision place.
Proof. solve_decision. Defined.
(** What it does: library calls, then an exception or, for custom reactions, a decision. *)
Record deed := Deed { de_cmds : list cmd; de_exn : option exn; de_dec : decision }.
Definition nothing : deed := Deed [] None DDiscard.
Notation script := (list (place * deed)) (only parsing).

(** The first deed for the place, and the rest of the script. *)
Fixpoint next_deed (k : place) (w : script) : deed * script :=
  match w with
  | [] => (nothing, [])
  | (k', d) :: w' =>
      if decide (k = k') then (d, w')
      else let '(d', w'') := next_deed k w' in (d', (k', d) :: w'')
  end.

Section scripted.
Context (ch : chart) (tr : exn → option event).
(** Only code that compiles. *)
Definition allowed_cmds (l : list cmd) : list cmd := List.filter (cmd_ok ch) l.
Definition allowed_decision (c : cls) (d : decision) : decision :=
  match d with DTransit i _ => if transit_ok ch c i then d else DDiscard | _ => d end.
Definition act1 (k : place) (w : script) : script * list cmd * option exn :=
  let '(d, w') := next_deed k w in (w', allowed_cmds (de_cmds d), de_exn d).
Definition scripted : user script := {|
  u_ctor c v w := let '(w', l, x) := act1 (PCtor c) w in (w', if cd_state (cd ch c) then l else [], x);
  u_exit c v w := act1 (PExit c) w;
  u_dtor c v w := let '(w', l, _) := act1 (PDtor c) w in (w', l);
  u_action a e v w := act1 (PAct a) w;
  u_instate a e v w := act1 (PIn a) w;
  u_react c i e v w :=
    let '(d, w') := next_deed (PReact c) w in
    (w', allowed_cmds (de_cmds d),
      match de_exn d with Some y => DThrow y | None => allowed_decision c (de_dec d) end);
  u_unconsumed e v w := act1 PUnc w;
  u_alloc a w := let '(w', _, x) := act1 (PAlloc a) w in (w', x);
  u_translate := tr |}.

Lemma allowed_cmds_ok l : forallb (cmd_ok ch) (allowed_cmds l) = true.
Proof. apply forallb_forall. intros x. unfold allowed_cmds. by intros [_ H]%List.filter_In. Qed.
Lemma scripted_ok : user_ok ch scripted.
Proof.
  split; simpl; unfold act1.
  - intros c v w. destruct (next_deed _ w). simpl. destruct (cd_state _); [apply allowed_cmds_ok|done].
  - intros c v w H. destruct (next_deed _ w). simpl. by rewrite H.
  - intros c v w. destruct (next_deed _ w). apply allowed_cmds_ok.
  - intros c v w. destruct (next_deed _ w). apply allowed_cmds_ok.
  - intros c e v w. destruct (next_deed _ w). apply allowed_cmds_ok.
  - intros c e v w. destruct (next_deed _ w). apply allowed_cmds_ok.
  - intros c i e v w. destruct (next_deed _ w). apply allowed_cmds_ok.
  - intros c i e v w d act H. destruct (next_deed (PReact c) w) as [d' w']. simpl in H.
    destruct (de_exn d'); [done|]. unfold allowed_decision in H. destruct (de_dec d') as [| | |i' a| |]; try done.
    destruct (transit_ok ch c i') eqn:Ht; [|done]. congruence.
  - intros e v w. destruct (next_deed _ w). apply allowed_cmds_ok.
Qed.
End scripted.

(** Calls that the theorems allow, up to the first one that does not end. *)
Section play.
Context {W : Type} (ch : chart) (U : user W).
Notation S := (mst W heapst).
Definition allowedb (o : op) (s : S) : bool :=
  match o with
  | OpInitiate _ => match terminate ch U s with (Ret _, s') => terminated s' | _ => true end
  | _ => true
  end.
Lemma allowedb_ok o s : allowedb o s = true → op_allowed ch U o s.
Proof. destruct o; simpl; try done. intros H s' E. by rewrite E in H. Qed.
Fixpoint play (l : list op) (s : S) : option S :=
  match l with
  | [] => Some s
  | o :: l' =>
      if op_ok ch o && allowedb o s then
        match call ch U o s with
        | (Ret _, s') | (Exn _, s') => play l' s'
        | _ => None
        end
      else None
  end.
Lemma play_reach l s s' : reach ch U s → play l s = Some s' → reach ch U s'.
Proof.
  revert s. induction l as [|o l IH]; intros s Hs H; simpl in H; [by injection H as ->|].
  destruct (op_ok ch o) eqn:Ho; [|done]. destruct (allowedb o s) eqn:Ha; [|done]. simpl in H.
  apply allowedb_ok in Ha. destruct (call ch U o s) as [[[]|y|f|] s1] eqn:E; try done.
  - eapply IH; [|done]. by eapply reach_ret.
  - eapply IH; [|done]. by eapply reach_exn.
Qed.
(** A reachable state with a property that can be computed. *)
Lemma played l w (P : S → bool) :
  match play l (fresh w) with Some s => P s | None => false end = true →
  ∃ s, reach ch U s ∧ P s = true.
Proof.
  intros H. destruct (play l (fresh w)) as [s|] eqn:E; [|done]. exists s. split; [|done].
  eapply play_reach; [apply reach_fresh|done].
Qed.
Lemma played_trace l w n ks :
  match play l (fresh w) with Some s => bool_decide (map ob (drop n (tr s)) = ks) | None => false end = true →
  ∃ s, reach ch U s ∧ map ob (drop n (tr s)) = ks.
Proof.
  intros H. destruct (played l w (λ s, bool_decide (map ob (drop n (tr s)) = ks)) H) as (s & Hs & E).
  exists s. split; [done|]. by apply bool_decide_eq_true in E.
Qed.
(** A call that returns. *)
Lemma called_ret o s (P : S → bool) :
  match call ch U o s with (Ret _, s') => P s' | _ => false end = true →
  ∃ s', call ch U o s = (Ret tt, s') ∧ P s' = true.
Proof. destruct (call ch U o s) as [[[]|y|f|] s1]; try done. eauto. Qed.
(** A call that throws. *)
Lemma called_exn o s y (P : S → bool) :
  match call ch U o s with (Exn y', s') => bool_decide (y' = y) && P s' | _ => false end = true →
  ∃ s', call ch U o s = (Exn y, s') ∧ P s' = true.
Proof.
  destruct (call ch U o s) as [[[]|y'|f|] s1]; try done. intros [->%bool_decide_eq_true H]%andb_true_iff. eauto.
Qed.
(** A call, after others, that throws. *)
Lemma played_call_exn l w o y n ks :
  match play l (fresh w) with
  | Some s => op_ok ch o && allowedb o s &&
      match call ch U o s with (Exn y', s') => bool_decide (y' = y) && bool_decide (map ob (drop n (tr s')) = ks) | _ => false end
  | None => false end = true →
  ∃ s s', reach ch U s ∧ op_ok ch o = true ∧ op_allowed ch U o s ∧ call ch U o s = (Exn y, s') ∧ map ob (drop n (tr s')) = ks.
Proof.
  intros H. destruct (play l (fresh w)) as [s|] eqn:E; [|done]. apply andb_true_iff in H as [[H1 H2]%andb_true_iff H3].
  apply called_exn in H3 as (s' & H3 & H4%bool_decide_eq_true). exists s, s'. split_and!; try done; [|by apply allowedb_ok].
  eapply play_reach; [apply reach_fresh|done].
Qed.
End play.

(** Decides a proposition by evaluating its decision procedure. *)
Ltac by_compute := apply (bool_decide_eq_true_1 _); vm_cast_no_check (eq_refl true).
Ltac by_eval := vm_cast_no_check (eq_refl true).

(** Entry number [n] of a trace. *)
Lemma entry (T : list obs) (n : nat) o : T !! n = Some o → T = take n T ++ o :: drop (S n) T.
Proof. intros E. by rewrite (take_drop_middle _ _ _ E). Qed.

Definition never : exn → option event := λ _, None.
(** Exceptions become events of type 50. *)
Definition as_event : exn → option event := λ _, Some (ev 50).

(** ** A machine with most features
    0 Root with regions [1 A | 2 B]; A has deep history: 3 A1 (inner 4 or 5), 6 A2;
    7 C and 8 D are other states of region 0 of Root; 9 is another outermost state. *)
Module Demo.
Definition chart5 : chart := Chart [
  CDef None 0 [IState 1; IState 2] true false true
    [RTransition (EType 0) (IState 9) (Some 0); RTermination (EType 1); RCustom (EType 50);
     RTransition (EType 6) (IShallow 7) (Some 6)];
  CDef (Some 0) 0 [IState 3] true true true [RTransition (EType 2) (IState 7) (Some 2)];
  CDef (Some 0) 1 [] false false true
    [RDeferral (EType 3); RInState (EType 4) (Some 4); RTermination (EType 5); RCustom (EType 7)];
  CDef (Some 1) 0 [IState 4] false false true [];
  CDef (Some 3) 0 [] false false true [RTransition (EType 8) (IState 5) None];
  CDef (Some 3) 0 [] false false true [RCustom (EType 9)];
  CDef (Some 1) 0 [] false false true [];
  CDef (Some 0) 0 [] false false true [RTransition (EType 2) (IDeep 3) (Some 22)];
  CDef (Some 0) 0 [] false false true [];
  CDef None 0 [] false false true [RTransition (EType 0) (IState 4) None; RCustom EAny]] 0.
Example chart5_wf : wf_chart chart5 = true.
Proof. vm_compute. reflexivity. Qed.
Definition U := scripted chart5 as_event.
Definition i := OpInitiate 10.
Definition p (n : nat) := OpProcess 10 (ev n).
Definition kinds (w : script) (l : list op) : option (list okind) :=
  (λ s, map ob (tr s)) <$> play chart5 U l (fresh w).

(** The constructor of state 7 throws; the exception is handled by a transition of the outermost state,
    which also posts two events; one of them is deferred; later the history of state 1 is cleared and
    state 1 is entered through it. *)
Definition script1 : script :=
  [(PCtor 7, Deed [] (Some 3) DDiscard);
   (PReact 0, Deed [CPost (ev 8); CPost (ev 3)] None (DTransit (IState 2) (Some 1)));
   (PReact 2, Deed [CClearDeep 1 0] None DDefer)].
Definition calls1 : list op := [i; p 8; p 2; p 2; p 7; p 2].
Definition demo : mst script heapst := default (fresh []) (play chart5 U calls1 (fresh script1)).
Lemma U_ok : user_ok chart5 U.
Proof. apply scripted_ok. Qed.
Lemma demo_reach : reach chart5 U demo.
Proof.
  apply (play_reach _ _ calls1 (fresh script1)); [apply reach_fresh|].
  assert (bool_decide (is_Some (play chart5 U calls1 (fresh script1))) = true) as H by by_eval.
  apply bool_decide_eq_true in H as [s H]. unfold demo. rewrite H. done.
Qed.
Example demo_trace : map ob (tr demo) = [
  OReset; OCtor 0 0; OCtor 1 1; OCtor 2 3; OCtor 3 4; OCtor 4 2;
  (* 6 *) OProcess (ev 8); ODispatch (ev 8) [4; 2]; OVisit 3 4 (ev 8); OTransit 3 4 (IState 5); OExit 3 4; ODtor 3 4;
  OCtor 5 5; OResult 3 4 RDiscard; ODone;
  (* 15 *) OProcess (ev 2); ODispatch (ev 2) [2; 5]; OVisit 4 2 (ev 2); OResult 4 2 RForward; OVisit 0 0 (ev 2);
  OResult 0 0 RForward; OVisit 5 5 (ev 2); OResult 5 5 RForward; OVisit 2 3 (ev 2); OResult 2 3 RForward; OVisit 1 1 (ev 2);
  (* 26 *) OTransit 1 1 (IState 7); OExit 5 5; ODtor 5 5; OExit 2 3; ODtor 2 3; OExit 1 1; ODtor 1 1; OAction (Some 0) 2 (ev 2);
  OThrow 3; OCtorThrow 6 7; OCatch 3;
  (* 37 *) OHandle 0 (ev 50); OVisit 0 0 (ev 50); OReact 0 0 2 (ev 50); OPost (ev 8); OPost (ev 3);
  (* 42 *) OTransit 0 0 (IState 2); ODtor 4 2; ODtor 0 0; OAction None 1 (ev 50); OCtor 7 0; OCtor 8 1; OCtor 9 3; OCtor 10 4;
  OCtor 11 2; OResult 0 0 RDiscard; OHandled; ODone;
  (* 54 *) OTake (ev 8); ODispatch (ev 8) [4; 2]; OVisit 10 4 (ev 8); OTransit 10 4 (IState 5); OExit 10 4; ODtor 10 4;
  OCtor 12 5; OResult 10 4 RDiscard; ODone;
  (* 63 *) OTake (ev 3); ODispatch (ev 3) [2; 5]; OVisit 11 2 (ev 3); OResult 11 2 RDefer; ODone; ODefer (ev 3);
  (* 69 *) OProcess (ev 2); ODispatch (ev 2) [2; 5]; OVisit 11 2 (ev 2); OResult 11 2 RForward; OVisit 7 0 (ev 2);
  OResult 7 0 RForward; OVisit 12 5 (ev 2); OResult 12 5 RForward; OVisit 9 3 (ev 2); OResult 9 3 RForward; OVisit 8 1 (ev 2);
  (* 80 *) OTransit 8 1 (IState 7); OExit 12 5; ODtor 12 5; OExit 9 3; ODtor 9 3; OExit 8 1; ODtor 8 1; OAction (Some 7) 2 (ev 2);
  OCtor 13 7; OResult 8 1 RDiscard; ODone;
  (* 91 *) OProcess (ev 7); ODispatch (ev 7) [2; 7]; OVisit 11 2 (ev 7); OReact 11 2 3 (ev 7); OClearD 1 0;
  OResult 11 2 RDefer; ODone; ODefer (ev 7);
  (* 99 *) OProcess (ev 2); ODispatch (ev 2) [2; 7]; OVisit 11 2 (ev 2); OResult 11 2 RForward; OVisit 7 0 (ev 2);
  OResult 7 0 RForward; OVisit 13 7 (ev 2); OTransit 13 7 (IDeep 3); OExit 13 7; ODtor 13 7; OAction (Some 7) 22 (ev 2);
  (* 110 *) OCtor 14 1; OHistD 3 3; OCtor 15 3; OCtor 16 4; OResult 13 7 RDiscard; ODone].
Proof. by_compute. Qed.
End Demo.
