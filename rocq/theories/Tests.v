(** /repo/test's own scenarios run in the model.  These are tests of the model's fidelity (the
    expected values are those of the C++ tests), not proofs of properties. *)
From stdpp Require Import sorting.
From Verif Require Import Api Cast.

Definition ev (t : nat) : event := Event t 0.

(** ** TransitionTest.cpp *)
Module TransitionTest.
Definition tr (e : nat) (d : cls) : reaction := RTransition (EType e) (IState d) (Some e).
Definition tr0 (e : nat) (d : cls) : reaction := RTransition (EType e) (IState d) None.
(* S0=0 S1=1 D0S1=2 S11=3 D2S1=4 D1S0=5 D2S0=6 S2=7 D0S2=8 D1S2=9 S21=10 D0S21=11 S211=12 D2S21=13
   events A..H = 0..7 *)
Definition st (p : option cls) (k : nat) (i : list cls) (r : list reaction) : cdef :=
  CDef p k (map IState i) false false true r.
Definition chart1 : chart := Chart [
  st None 0 [1;5;6] [tr0 4 12];
  st (Some 0) 0 [2;3;4] [tr 0 1; tr 1 3; tr 2 7; tr0 3 0; tr 5 12];
  st (Some 1) 0 [] [];
  st (Some 1) 1 [] [tr 6 12; RCustom (EType 7)];
  st (Some 1) 2 [] [];
  st (Some 0) 1 [] [];
  st (Some 0) 2 [] [];
  st (Some 0) 0 [8;9;10] [tr 2 1; tr 5 3];
  st (Some 7) 0 [] [];
  st (Some 7) 1 [] [];
  st (Some 7) 2 [11;12;13] [tr 7 10; tr 1 12];
  st (Some 10) 0 [] [];
  st (Some 10) 1 [] [tr 3 10; tr0 6 0];
  st (Some 10) 2 [] []] 0.

Example chart1_wf : wf_chart chart1 = true.
Proof. vm_compute. reflexivity. Qed.

Inductive tok := En (c : cls) | Ex (c : cls) | Dt (c : cls) | Tr (e : nat) | Re (c e : nat) | Un | Th.

(** User data: what is to throw (kind 0: entry, 1: exit, 2: transition action). *)
Definition thr (k n : nat) (w : option (nat * nat)) : option exn :=
  if bool_decide (w = Some (k, n)) then Some 99 else None.
Definition user1 (x : exn → option event) : user (option (nat * nat)) := {|
  u_ctor c v w := (w, [], thr 0 c w);
  u_exit c v w := (w, [], thr 1 c w);
  u_dtor c v w := (w, []);
  u_action a e v w := (w, [], thr 2 a w);
  u_instate a e v w := (w, [], None);
  u_react c i e v w := (w, [], DDiscard);
  u_unconsumed e v w := (w, [], None);
  u_alloc a w := (w, None);
  u_translate := x |}.

Definition tokens (t : list obs) : list tok :=
  omap (λ o, match ob o with
             | OCtor _ c => Some (En c)
             | OExit _ c => Some (Ex c)
             | ODtor _ c => Some (Dt c)
             | OAction _ a _ => Some (Tr a)
             | OReact _ c _ e => Some (Re c (e_type e))
             | OUnconsumed _ => Some Un
             | OThrow _ => Some Th
             | _ => None
             end) t.

Definition X (c : cls) : list tok := [Ex c; Dt c].
Definition go (x : exn → option event) (w : option (nat * nat)) (l : list op) :=
  let '(rs, s) := run chart1 (user1 x) l (fresh w) in
  (rs, tokens (trace (en s)), terminated s, map fst (map_to_list (heap (core s)))).
Definition p (e : nat) : op := OpProcess 10 (ev e).
Definition null (x : exn) : option event := None.
Definition trans (x : exn) : option event := Some (ev 50).

Definition init_toks := [En 0; En 1; En 2; En 3; En 4; En 5; En 6].
Definition exit1 := X 4 ++ X 3 ++ X 2 ++ X 1.
Definition entry1 := [En 1; En 2; En 3; En 4].
Definition exit21 := X 13 ++ X 12 ++ X 11 ++ X 10.
Definition entry21 := [En 10; En 11; En 12; En 13].
Definition exit2 := exit21 ++ X 9 ++ X 8 ++ X 7.
Definition entry2 := [En 7; En 8; En 9] ++ entry21.

Definition expected1 : list tok :=
  init_toks
  ++ exit1 ++ [Tr 0] ++ entry1                                   (* a1 *)
  ++ exit1 ++ [Tr 1] ++ entry1                                   (* b1 *)
  ++ exit1 ++ [Tr 2] ++ entry2                                   (* c1 *)
  ++ exit21 ++ [Tr 3] ++ entry21                                 (* d2 *)
  ++ X 6 ++ X 5 ++ exit2 ++ X 0 ++ [En 0] ++ entry2 ++ [En 5; En 6]  (* e2 *)
  ++ exit2 ++ [Tr 5] ++ entry1                                   (* f2 *)
  ++ exit1 ++ [Tr 6] ++ entry2                                   (* g1 *)
  ++ exit21 ++ [Tr 7] ++ entry21                                 (* h2 *)
  ++ [Un]                                                        (* a2 *)
  ++ exit21 ++ [Tr 1] ++ entry21                                 (* b2 *)
  ++ exit2 ++ [Tr 2] ++ entry1                                   (* c2 *)
  ++ X 6 ++ X 5 ++ exit1 ++ X 0 ++ init_toks                     (* d1 *)
  ++ exit1 ++ [Tr 5] ++ entry2                                   (* f1 *)
  ++ X 6 ++ X 5 ++ exit2 ++ X 0 ++ init_toks                     (* g2 *)
  ++ [Re 3 7]                                                    (* h1 *)
  ++ X 6 ++ X 5 ++ exit1 ++ X 0 ++ [En 0] ++ entry2 ++ [En 5; En 6] (* e1 *)
  ++ X 6 ++ X 5 ++ exit2 ++ X 0.                                 (* term *)

Definition ops1 : list op :=
  [OpInitiate 10; p 0; p 1; p 2; p 3; p 4; p 5; p 6; p 7; p 0; p 1; p 2; p 3; p 5; p 6; p 7; p 4; OpTerminate].

Example transitions_null : go null None ops1 = (repeat (Ret tt) 18, expected1, true, []).
Proof. vm_compute. reflexivity. Qed.
Example transitions_trans : go trans None ops1 = (repeat (Ret tt) 18, expected1, true, []).
Proof. vm_compute. reflexivity. Qed.

(** test/Jamfile.v2:20-21, 69-72: the same test with BOOST_STATECHART_RELAX_TRANSITION_CONTEXT must behave the same; all
    its actions are members of S0. *)
Example transitions_relaxed x : x = null ∨ x = trans →
  let '(rs, s) := run (RChart (ch_cls chart1) 0 (Some (λ _, Some 0))) (user1 x) ops1 (fresh None) in
  (rs, tokens (trace (en s)), terminated s) = (repeat (Ret tt) 18, expected1, true).
Proof. intros [-> | ->]; vm_compute; reflexivity. Qed.

Definition D (c : cls) : tok := Dt c.
Example init_throw1 x : x = null ∨ x = trans →
  go x (Some (0, 2)) [OpInitiate 10] = ([Exn 99], [En 0; En 1; Th; D 1; D 0], true, []).
Proof. intros [-> | ->]; vm_compute; reflexivity. Qed.
Example init_throw2 x : x = null ∨ x = trans →
  go x (Some (0, 3)) [OpInitiate 10] = ([Exn 99], [En 0; En 1; En 2; Th; D 2; D 1; D 0], true, []).
Proof. intros [-> | ->]; vm_compute; reflexivity. Qed.
Example a1_throw x : x = null ∨ x = trans →
  go x (Some (2, 0)) [OpInitiate 10; p 0]
  = ([Ret tt; Exn 99], init_toks ++ exit1 ++ [Tr 0; Th; D 6; D 5; D 0], true, []).
Proof. intros [-> | ->]; vm_compute; reflexivity. Qed.
Example c1_throw1 x : x = null ∨ x = trans →
  go x (Some (0, 12)) [OpInitiate 10; p 2]
  = ([Ret tt; Exn 99],
     init_toks ++ exit1 ++ [Tr 2; En 7; En 8; En 9; En 10; En 11; Th;
                            D 6; D 5; D 11; D 10; D 9; D 8; D 7; D 0], true, []).
Proof. intros [-> | ->]; vm_compute; reflexivity. Qed.
Example c1_throw2 x : x = null ∨ x = trans →
  go x (Some (1, 3)) [OpInitiate 10; p 2]
  = ([Ret tt; Exn 99],
     init_toks ++ X 4 ++ [Ex 3; Th; D 3; D 6; D 5; D 2; D 1; D 0], true, []).
Proof. intros [-> | ->]; vm_compute; reflexivity. Qed.
End TransitionTest.

(** User code that does nothing. *)
Definition quiet_user : user unit := {|
  u_ctor c v w := (w, [], None);
  u_exit c v w := (w, [], None);
  u_dtor c v w := (w, []);
  u_action a e v w := (w, [], None);
  u_instate a e v w := (w, [], None);
  u_react c i e v w := (w, [], DDiscard);
  u_unconsumed e v w := (w, [], None);
  u_alloc a w := (w, None);
  u_translate _ := None |}.

(** Active classes, ascending. *)
Definition active {W} (s : mst W heapst) : list cls :=
  merge_sort le (map (λ po : ptr * obj, o_cls po.2) (map_to_list (heap (core s)))).

(** ** TerminationTest.cpp: A=0 B=1 C=2 D=3 E=4 F=5 G=6, event n terminates state n *)
Module TerminationTest.
Definition st (p : option cls) (k c : nat) (i : list cls) : cdef :=
  CDef p k (map IState i) false false false [RTermination (EType c)].
Definition chart2 : chart := Chart [
  st None 0 0 [1;2]; st (Some 0) 0 1 []; st (Some 0) 1 2 [3;4]; st (Some 2) 0 3 [];
  st (Some 2) 1 4 [5;6]; st (Some 4) 0 5 []; st (Some 4) 1 6 []] 0.
Example chart2_wf : wf_chart chart2 = true.
Proof. vm_compute. reflexivity. Qed.

Fixpoint snapshots (l : list op) (s : mst unit heapst) : list (list cls) :=
  match l with
  | [] => []
  | o :: l' => let s' := (call chart2 quiet_user o s).2 in active s' :: snapshots l' s'
  end.
Definition t (c : nat) : op := OpProcess 10 (ev c).
Definition i := OpInitiate 10.
Definition all := [0;1;2;3;4;5;6].

Example termination_test :
  snapshots [i; t 4; t 4; i; t 2; t 2; i; t 0; t 0; i; t 6; t 6; t 5; t 5; t 3; t 3; t 1; t 1;
             i; t 1; t 1; t 3; t 3; t 5; t 5; t 6; t 6; i; t 4; t 4; t 2; t 2; t 0; t 0;
             i; i; OpTerminate; OpTerminate] (fresh tt)
  = [all; [0;1;2;3]; [0;1;2;3]; all; [0;1]; [0;1]; all; []; []; all; [0;1;2;3;4;5]; [0;1;2;3;4;5];
     [0;1;2;3]; [0;1;2;3]; [0;1]; [0;1]; []; [];
     all; [0;2;3;4;5;6]; [0;2;3;4;5;6]; [0;2;4;5;6]; [0;2;4;5;6]; [0;2;4;6]; [0;2;4;6]; []; [];
     all; [0;1;2;3]; [0;1;2;3]; [0;1]; [0;1]; []; []; all; all; []; []].
Proof. vm_compute. reflexivity. Qed.
End TerminationTest.

(** ** HistoryTest.cpp *)
Module HistoryTest.
(* A0 B1 J2 K3 L4 M5 N6 O7 P8 Q9 C10 D11 E12 F13 G14 H15 I16
   events: ToB0 ToD1 ToDShallow2 ToDDeep3 ToF4 ToFShallow5 ToFDeep6 ToH7 ToI8 ToM9 ToQ10
           ToDShallowLocal11 ToDDeepLocal12 *)
Definition s (p : option cls) (k : nat) (i : list init) : cdef := CDef p k i false false false [].
Definition full_ (p : option cls) (i : list init) : cdef := CDef p 0 i true true false [].
Definition t (e : nat) (d : init) : reaction := RTransition (EType e) d None.
Definition chart3 : chart := Chart [
  CDef None 0 [IState 1] false false false
    [t 0 (IState 1); t 1 (IState 11); t 2 (IShallow 11); t 3 (IDeep 11); t 4 (IState 13);
     t 5 (IShallow 13); t 6 (IDeep 13); t 7 (IState 15); t 8 (IState 16); t 9 (IState 5); t 10 (IState 9)];
  full_ (Some 0) [IShallow 2; IDeep 6];
  s (Some 1) 0 []; s (Some 1) 0 [IState 4]; s (Some 3) 0 []; s (Some 3) 0 [];
  s (Some 1) 1 []; s (Some 1) 1 [IState 8]; s (Some 7) 0 []; s (Some 7) 0 [];
  full_ (Some 0) [IState 11];
  s (Some 10) 0 [];
  full_ (Some 10) [IState 13];
  s (Some 12) 0 [];
  CDef (Some 12) 0 [IState 15] false false false [t 11 (IShallow 11); t 12 (IDeep 11)];
  s (Some 14) 0 []; s (Some 14) 0 []] 0.
Example chart3_wf : wf_chart chart3 = true.
Proof. vm_compute. reflexivity. Qed.

(** After each call, is the given class active? *)
Fixpoint expects (l : list (op * option cls)) (s : mst unit heapst) : bool :=
  match l with
  | [] => true
  | (o, c) :: l' =>
      let '(r, s') := call chart3 quiet_user o s in
      match r with Ret _ => true | _ => false end
      && match c with None => true | Some c => existsb (Nat.eqb c) (active s') end
      && expects l' s'
  end.
Definition e (n : nat) (c : cls) : op * option cls := (OpProcess 10 (ev n), Some c).
Definition i : op * option cls := (OpInitiate 10, Some 1).

Example shallow1 :
  expects [i; e 2 11; e 2 11; e 8 16; e 2 13; e 7 15; e 2 13; e 4 13; e 0 1; e 2 13; i; e 2 11; e 8 16;
           e 0 1; (OpClearShallow 10 0, Some 1); e 2 11] (fresh tt) = true.
Proof. vm_compute. reflexivity. Qed.
Example deep1 :
  expects [i; e 3 11; e 3 11; e 8 16; e 0 1; e 3 16; e 7 15; e 0 1; e 3 15; e 4 13; e 0 1; e 3 13; i; e 3 11;
           e 8 16; e 0 1; (OpClearDeep 10 0, Some 1); e 3 11] (fresh tt) = true.
Proof. vm_compute. reflexivity. Qed.
Example shallow2 :
  expects [i; e 5 13; e 5 13; e 8 16; e 5 15; e 7 15; e 0 1; e 5 15; e 8 16; i; e 5 13; e 8 16; e 0 1;
           (OpClearShallow 12 0, Some 1); e 5 13] (fresh tt) = true.
Proof. vm_compute. reflexivity. Qed.
Example deep2 :
  expects [i; e 6 13; e 6 13; e 8 16; e 0 1; e 6 16; e 7 15; e 0 1; e 6 15; e 4 13; e 0 1; e 6 13; i; e 6 13;
           e 8 16; e 0 1; (OpClearDeep 12 0, Some 1); e 6 13;
           i; e 8 16; e 11 13; e 8 16; e 12 16; e 0 2; e 0 6; e 9 5; e 0 4; e 0 6; e 10 9; e 0 9] (fresh tt) = true.
Proof. vm_compute. reflexivity. Qed.
End HistoryTest.

(** ** DeferralTest.cpp: Active=0 Idle=1 Running=2 Dead=3;
       EvLeafDeferred=0 EvNodeDeferred=1 EvSwitch=2 EvDestroy=3; user data counts processed events *)
Module DeferralTest.
Definition chart4 : chart := Chart [
  CDef None 0 [IState 1] false false false
    [RCustom (EType 0); RDeferral (EType 1); RTransition (EType 3) (IState 3) None];
  CDef (Some 0) 0 [] false false false [RTransition (EType 2) (IState 2) None; RDeferral (EType 0)];
  CDef (Some 0) 0 [] false false false [RTransition (EType 2) (IState 1) None];
  CDef None 0 [] false false false [RCustom (EType 1)]] 0.
Example chart4_wf : wf_chart chart4 = true.
Proof. vm_compute. reflexivity. Qed.
Definition counting : user nat := {|
  u_ctor c v w := (w, [], None);
  u_exit c v w := (w, [], None);
  u_dtor c v w := (w, []);
  u_action a e v w := (w, [], None);
  u_instate a e v w := (w, [], None);
  u_react c i e v w := (S w, [], DDiscard);
  u_unconsumed e v w := (w, [], None);
  u_alloc a w := (w, None);
  u_translate _ := None |}.
Fixpoint counts (l : list op) (s : mst nat heapst) : list nat :=
  match l with
  | [] => []
  | o :: l' => let s' := (call chart4 counting o s).2 in world (en s') :: counts l' s'
  end.
Definition p (e : nat) : op := OpProcess 20 (ev e).
Example deferral_test :
  counts [OpInitiate 9; p 2; p 2; p 0; p 2; p 2; p 0; p 0; p 2; p 2; p 1; p 2; p 1; p 3] (fresh 0)
  = [0; 0; 0; 0; 1; 1; 1; 1; 3; 3; 3; 3; 3; 5].
Proof. vm_compute. reflexivity. Qed.
End DeferralTest.

(** ** CustomReactionTest.cpp: A=0 B=1 C=2 D=3 E=4 F=5; EvToC=0 EvToD=1 EvDiscardNever=2 EvDiscardInB=3
       EvDiscardInD=4 EvTransit=5 EvTransitWithAction=6 EvDefer=7 EvTerminate=8; user data: the states
       visited, the last one first (99: BOOST_FAIL) *)
Module CustomReactionTest.
Definition cu (n : nat) : reaction := RCustom (EType n).
Definition chart5 : chart := Chart [
  CDef None 0 [IState 1] false false false [cu 2; cu 3; cu 4; cu 7; cu 8; cu 6; cu 5];
  CDef (Some 0) 0 [IState 2] false false false [cu 2; cu 3; cu 4];
  CDef (Some 1) 0 [] false false false [RTransition (EType 1) (IState 3) None; cu 2; cu 3; cu 4];
  CDef (Some 1) 0 [IState 4; IState 5] false false false
    [RTransition (EType 0) (IState 2) None; cu 2; cu 3; cu 4];
  CDef (Some 3) 0 [] false false false [cu 2; cu 3; cu 4];
  CDef (Some 3) 1 [] false false false [cu 2; cu 3; cu 4]] 0.
Example chart5_wf : wf_chart chart5 = true.
Proof. vm_compute. reflexivity. Qed.
Definition reacts (c : cls) (e : nat) (w : list cls) : list cls * list cmd * decision :=
  match c, e with
  | 0, 3 | 0, 4 | 1, 4 => (99 :: w, [], DDiscard)
  | 0, 5 => (w, [], DTransit (IState 0) None)
  | 0, 6 => (w, [], DTransit (IState 0) (Some 0))
  | 0, 7 => (w, [], DDefer)
  | 0, 8 => (w, [], DTerminate)
  | 1, 3 | 3, 4 => (c :: w, [], DDiscard)
  | _, _ => (c :: w, [], DForward)
  end.
Definition visiting : user (list cls) := {|
  u_ctor c v w := (w, [], None);
  u_exit c v w := (w, [], None);
  u_dtor c v w := (w, []);
  u_action a e v w := (w, [], None);
  u_instate a e v w := (w, [], None);
  u_react c i e v w := reacts c (e_type e) w;
  u_unconsumed e v w := (w, [], None);
  u_alloc a w := (w, None);
  u_translate _ := None |}.
(** What is visited during each call (ClearVisited() before each of them), in order. *)
Fixpoint visits (l : list op) (s : mst (list cls) heapst) : list (list cls) :=
  match l with
  | [] => []
  | o :: l' =>
      let s' := (call chart5 visiting o (MSt (core s) (set_world [] (en s)))).2 in
      reverse (world (en s')) :: visits l' s'
  end.
Definition p (e : nat) : op := OpProcess 20 (ev e).
Example custom_reaction_test :
  visits [OpInitiate 9; p 2; p 3; p 1; p 2; p 4; p 3] (fresh [])
  = [[]; [2; 1; 0]; [2; 1]; []; [4; 3; 1; 0; 5; 3; 1; 0]; [4; 3]; [4; 3; 1]].
Proof. vm_compute. reflexivity. Qed.
(** What the functions whose calls the C++ test only compiles do (DeferralTest etc. use the reactions). *)
Example custom_reaction_rest :
  active (run chart5 visiting [OpInitiate 9; p 1; p 7; p 5] (fresh [])).2 = [0; 1; 2]
  ∧ active (run chart5 visiting [OpInitiate 9; p 1; p 6] (fresh [])).2 = [0; 1; 2]
  ∧ active (run chart5 visiting [OpInitiate 9; p 1; p 8] (fresh [])).2 = []
  ∧ deferred (en (run chart5 visiting [OpInitiate 9; p 1; p 7] (fresh [])).2) = [ev 7].
Proof. vm_compute. repeat split. Qed.
(** CustomReactionEventBaseTest: a custom_reaction< event_base >. *)
Definition chart6 : chart := Chart [CDef None 0 [] false false false [RCustom EAny]] 0.
Definition eventbase : user nat := {|
  u_ctor c v w := (w, [], None);
  u_exit c v w := (w, [], None);
  u_dtor c v w := (w, []);
  u_action a e v w := (w, [], None);
  u_instate a e v w := (w, [], None);
  u_react c i e v w := (S w, [], DDiscard);
  u_unconsumed e v w := (w, [], None);
  u_alloc a w := (w, None);
  u_translate _ := None |}.
Example custom_reaction_event_base_test :
  wf_chart chart6 = true
  ∧ world (en (run chart6 eventbase [OpInitiate 9] (fresh 0)).2) = 0
  ∧ world (en (run chart6 eventbase [OpInitiate 9; p 0] (fresh 0)).2) = 1
  ∧ world (en (run chart6 eventbase [OpInitiate 9; p 0; p 1] (fresh 0)).2) = 2.
Proof. vm_compute. repeat split. Qed.
End CustomReactionTest.

(** ** DeferralBug.cpp: s1=0 s2=1 s3=2 s4_1=3 s4_2=4; ev1to2=0 ev2to3=1 ev3to4_1=2 ev3to4_2=3 *)
Module DeferralBug.
Definition st (r : list reaction) : cdef := CDef None 0 [] false false false r.
Definition tr (e : nat) (d : cls) : reaction := RTransition (EType e) (IState d) None.
Definition de (e : nat) : reaction := RDeferral (EType e).
Definition chart7 : chart := Chart [
  st [tr 0 1; de 1; de 2; de 3];
  st [tr 1 2; de 2; de 3];
  st [tr 2 3; tr 3 4];
  st [];
  st []] 0.
Definition p (e : nat) : op := OpProcess 20 (ev e).
Definition first : list op := [OpInitiate 9; p 2; p 1; p 3; p 0].
Definition second : list op := [OpInitiate 9; p 2; p 3; p 0; p 1].
Example deferral_bug :
  wf_chart chart7 = true
  ∧ active (run chart7 quiet_user first (fresh tt)).2 = [3]
  ∧ active (run chart7 quiet_user (first ++ second) (fresh tt)).2 = [3].
Proof. vm_compute. repeat split. Qed.
End DeferralBug.

(** ** InStateReactionTest.cpp: A=0 B=1; E=0 F=1 G=2 H=3 I=4; action 0 increments A's count, action 1 B's *)
Module InStateReactionTest.
Definition chart8 : chart := Chart [
  CDef None 0 [IState 1] false false false [RInState (EType 0) (Some 0); RInState EAny (Some 0)];
  CDef (Some 0) 0 [] false false false
    [RInState (EType 1) (Some 1); RInState (EType 2) (Some 0); RInState (EType 4) None]] 0.
Definition counting : user (nat * nat) := {|
  u_ctor c v w := (if bool_decide (c = 0) then (0, w.2) else (w.1, 0), [], None);
  u_exit c v w := (w, [], None);
  u_dtor c v w := (w, []);
  u_action a e v w := (w, [], None);
  u_instate a e v w := (if bool_decide (a = 0) then (S w.1, w.2) else (w.1, S w.2), [], None);
  u_react c i e v w := (w, [], DDiscard);
  u_unconsumed e v w := (w, [], None);
  u_alloc a w := (w, None);
  u_translate _ := None |}.
Fixpoint counts (l : list op) (s : mst (nat * nat) heapst) : list (nat * nat) :=
  match l with
  | [] => []
  | o :: l' => let s' := (call chart8 counting o s).2 in world (en s') :: counts l' s'
  end.
Definition p (e : nat) : op := OpProcess 20 (ev e).
Example in_state_reaction_test :
  wf_chart chart8 = true
  ∧ counts [OpInitiate 9; p 1; p 0; p 0; p 1; p 2; p 3; p 4] (fresh (7, 7))
    = [(0, 0); (0, 1); (1, 1); (2, 1); (2, 2); (3, 2); (4, 2); (4, 2)].
Proof. vm_compute. split; reflexivity. Qed.
End InStateReactionTest.

(** ** StateCastTest.cpp: A=0 C=1 E=2 F=3 D=4 G=5 H=6 B=7; EvToB=0 EvToF=1 EvCheck=2.  The checks made in
       E::react and F::react are made here after the call that ends with that reaction (both return
       discard_event()); that the reaction runs is checked too (user data: the states that reacted). *)
Module StateCastTest.
Definition chart9 : chart := Chart [
  CDef None 0 [IState 1; IState 4] false false false [RTransition (EType 0) (IState 7) None];
  CDef (Some 0) 0 [IState 2] false false false [];
  CDef (Some 1) 0 [] false false true [RCustom (EType 2)];
  CDef (Some 1) 0 [] false false true [RCustom (EType 2)];
  CDef (Some 0) 1 [IState 5] false false false [];
  CDef (Some 4) 0 [] false false false [];
  CDef (Some 4) 0 [] false false false [];
  CDef None 0 [] false false false [RTransition (EType 1) (IState 3) None]] 0.
Definition checking : user (list cls) := {|
  u_ctor c v w := (w, if bool_decide (c = 2 ∨ c = 3) then [CPost (ev 2)] else [], None);
  u_exit c v w := (w, [], None);
  u_dtor c v w := (w, []);
  u_action a e v w := (w, [], None);
  u_instate a e v w := (w, [], None);
  u_react c i e v w := (c :: w, [], DDiscard);
  u_unconsumed e v w := (w, [], None);
  u_alloc a w := (w, None);
  u_translate _ := None |}.
Notation St := (mst (list cls) heapst).
Definition after (l : list op) : St := (run chart9 checking l (fresh [])).2.
Definition is_class (c c' : cls) : bool := bool_decide (c' = c).
Definition found (s : St) (r : res (option ptr)) (c : cls) : bool :=
  match r with
  | Ret (Some q) => bool_decide (o_cls <$> heap (core s) !! q = Some c)
  | _ => false
  end.
Definition some (r : res ptr) : res (option ptr) :=
  match r with Ret q => Ret (Some q) | Exn x => Exn x | Fault f => Fault f | Div => Div end.
(** AssertInState< c >(), AssertNotInState< c >(). *)
Definition in_state (s : St) (c : cls) : bool :=
  found s (state_downcast_ptr chart9 c s).1 c
  && found s (some (state_downcast_ref chart9 77 c s).1) c
  && found s (state_cast_ptr chart9 (is_class c) s).1 c
  && found s (some (state_cast_ref chart9 77 (is_class c) s).1) c.
Definition null (r : res (option ptr)) : bool := match r with Ret None => true | _ => false end.
Definition bad (r : res ptr) : bool := match r with Exn x => bool_decide (x = 77) | _ => false end.
Definition not_in_state (s : St) (c : cls) : bool :=
  null (state_downcast_ptr chart9 c s).1 && bad (state_downcast_ref chart9 77 c s).1
  && null (state_cast_ptr chart9 (is_class c) s).1 && bad (state_cast_ref chart9 77 (is_class c) s).1.
(** The states listed are found, all others are not. *)
Definition just (s : St) (l : list cls) : bool :=
  forallb (λ c, if bool_decide (c ∈ l) then in_state s c else not_in_state s c) (seq 0 8).
Definition p (e : nat) : op := OpProcess 20 (ev e).
Example state_cast_test :
  wf_chart chart9 = true
  ∧ just (after []) [] = true
  ∧ just (after [OpInitiate 9]) [0; 1; 2; 4; 5] = true
  ∧ just (after [OpInitiate 9; p 0]) [7] = true
  ∧ just (after [OpInitiate 9; p 0; p 1]) [0; 1; 3; 4; 5] = true
  ∧ just (after [OpInitiate 9; p 0; p 1; OpTerminate]) [] = true
  ∧ world (en (after [OpInitiate 9])) = [2]
  ∧ world (en (after [OpInitiate 9; p 0; p 1])) = [3; 2].
Proof. vm_compute. repeat split. Qed.
End StateCastTest.

(** ** StateIterationTest.cpp: B=0 A=1 E=2 F=3 G=4 C=5 D=6; EvToA=0 EvToB=1 EvToD=2 EvToE=3 *)
Module StateIterationTest.
Definition tr (e : nat) (d : cls) : reaction := RTransition (EType e) (IState d) None.
Definition chart10 : chart := Chart [
  CDef None 0 [IState 5; IState 6] false false false [tr 0 1];
  CDef None 0 [] false false false [tr 1 0];
  CDef (Some 0) 1 [IState 3; IState 4] false false false [tr 2 6];
  CDef (Some 2) 0 [] false false false [];
  CDef (Some 2) 1 [] false false false [];
  CDef (Some 0) 0 [] false false false [];
  CDef (Some 0) 1 [] false false false [tr 3 2]] 1.
(** The states in [state_begin(), state_end()) after each call, as a set. *)
Fixpoint iterations (l : list op) (s : mst unit heapst) : list (list cls) :=
  match l with
  | [] => []
  | o :: l' => let s' := (call chart10 quiet_user o s).2 in merge_sort le (heap_leaves (core s')) :: iterations l' s'
  end.
Definition p (e : nat) : op := OpProcess 20 (ev e).
Example state_iteration_test :
  wf_chart chart10 = true
  ∧ heap_leaves (core (fresh tt : mst unit heapst)) = []
  ∧ iterations [OpInitiate 9; p 1; p 0; p 1; p 3; p 2; p 3; p 0; OpTerminate] (fresh tt)
    = [[1]; [5; 6]; [1]; [5; 6]; [3; 4; 5]; [5; 6]; [3; 4; 5]; [1]; []].
Proof. vm_compute. repeat split. Qed.
End StateIterationTest.

(** ** TriggeringEventTest.cpp: A=0 B=1; EvGoToB=0 EvDoIt=1 exception_thrown=50; in-state action 0 is
       B::DoIt, which throws *)
Module TriggeringEventTest.
Definition chart11 : chart := Chart [
  CDef None 0 [] false false true [RTransition (EType 0) (IState 1) (Some 0)];
  CDef None 0 [] false false true [RInState (EType 1) (Some 0); RInState (EType 50) (Some 1)]] 0.
Definition thrower : user unit := {|
  u_ctor c v w := (w, [], None);
  u_exit c v w := (w, [], None);
  u_dtor c v w := (w, []);
  u_action a e v w := (w, [], None);
  u_instate a e v w := (w, [], if bool_decide (a = 0) then Some 9 else None);
  u_react c i e v w := (w, [], DDiscard);
  u_unconsumed e v w := (w, [], None);
  u_alloc a w := (w, None);
  u_translate _ := Some (ev 50) |}.
Inductive who := Ctor (c : cls) | Dtor (c : cls) | Act (a : nat) | InSt (a : nat).
(** The value of triggering_event() where the test looks at it. *)
Definition trigs (t : list obs) : list (who * option event) :=
  omap (λ o, match ob o with
             | OCtor _ c => Some (Ctor c, ob_trig o)
             | ODtor _ c => Some (Dtor c, ob_trig o)
             | OAction _ a _ => Some (Act a, ob_trig o)
             | OInState a _ => Some (InSt a, ob_trig o)
             | _ => None
             end) t.
Definition p (e : nat) : op := OpProcess 20 (ev e).
Example triggering_event_test :
  wf_chart chart11 = true
  ∧ let '(rs, s) := run chart11 thrower [OpInitiate 9; p 0; p 1; OpTerminate] (fresh tt) in
    rs = [Ret tt; Ret tt; Ret tt; Ret tt]
    ∧ trigs (trace (en s))
      = [(Ctor 0, None); (Dtor 0, Some (ev 0)); (Act 0, Some (ev 0)); (Ctor 1, Some (ev 0));
         (InSt 0, Some (ev 1)); (InSt 1, Some (ev 50)); (Dtor 1, None)].
Proof. vm_compute. repeat split. Qed.
End TriggeringEventTest.

(** ** The compile-fail tests: what the library's static assertions reject is outside what the theorems
       assume ([wf_chart], [op_ok], [cmd_ok]).  In each case a chart that differs only in the point the
       test is about is accepted. *)
Module CompileFail.
Definition st (p : option cls) (k : nat) (i : list init) (s d : bool) (r : list reaction) : cdef :=
  CDef p k i s d false r.
Definition leaf (p : cls) (k : nat) : cdef := st (Some p) k [] false false [].
Definition tr (d : init) : reaction := RTransition (EType 0) d None.

(** InconsistentHistoryTest1..4: A=0 B=1. *)
Definition hist (i : init) (s d : bool) (r : list reaction) : chart :=
  Chart [st None 0 [i] s d r; leaf 0 0] 0.
Example inconsistent_history_test1 :
  wf_chart (hist (IShallow 1) false false []) = false ∧ wf_chart (hist (IShallow 1) true false []) = true.
Proof. vm_compute. split; reflexivity. Qed.
Example inconsistent_history_test2 :
  wf_chart (hist (IState 1) false true [tr (IShallow 1)]) = false
  ∧ wf_chart (hist (IState 1) true true [tr (IShallow 1)]) = true.
Proof. vm_compute. split; reflexivity. Qed.
Example inconsistent_history_test3 :
  wf_chart (hist (IDeep 1) false false []) = false ∧ wf_chart (hist (IDeep 1) false true []) = true.
Proof. vm_compute. split; reflexivity. Qed.
Example inconsistent_history_test4 :
  wf_chart (hist (IState 1) true false [tr (IDeep 1)]) = false
  ∧ wf_chart (hist (IState 1) true true [tr (IDeep 1)]) = true.
Proof. vm_compute. split; reflexivity. Qed.
(** InconsistentHistoryTest5..8: clearing history that is not there, from outside resp. in a reaction. *)
Definition plain (s d : bool) : chart := hist (IState 1) s d [RCustom (EType 0)].
Example inconsistent_history_test5 :
  op_ok (plain false false) (OpClearShallow 0 0) = false ∧ op_ok (plain true false) (OpClearShallow 0 0) = true.
Proof. vm_compute. split; reflexivity. Qed.
Example inconsistent_history_test6 :
  cmd_ok (plain false true) (CClearShallow 0 0) = false ∧ cmd_ok (plain true true) (CClearShallow 0 0) = true.
Proof. vm_compute. split; reflexivity. Qed.
Example inconsistent_history_test7 :
  op_ok (plain false false) (OpClearDeep 0 0) = false ∧ op_ok (plain false true) (OpClearDeep 0 0) = true.
Proof. vm_compute. split; reflexivity. Qed.
Example inconsistent_history_test8 :
  cmd_ok (plain true false) (CClearDeep 0 0) = false ∧ cmd_ok (plain true true) (CClearDeep 0 0) = true.
Proof. vm_compute. split; reflexivity. Qed.

(** InvalidChartTest1..3: A=0 B=1 C=2. *)
Example invalid_chart_test1 :
  wf_chart (Chart [st None 0 [] false false []; leaf 0 0] 0) = false
  ∧ wf_chart (Chart [st None 0 [IState 1] false false []; leaf 0 0] 0) = true.
Proof. vm_compute. split; reflexivity. Qed.
Example invalid_chart_test2 :
  wf_chart (Chart [st None 0 [IState 1] false false []; leaf 0 0; leaf 0 1] 0) = false
  ∧ wf_chart (Chart [st None 0 [IState 1] false false []; leaf 0 0; leaf 0 0] 0) = true.
Proof. vm_compute. split; reflexivity. Qed.
Example invalid_chart_test3 :
  wf_chart (Chart [st None 0 [IState 1; IState 2] false false []; leaf 0 1; leaf 0 1] 0) = false
  ∧ wf_chart (Chart [st None 0 [IState 1; IState 2] false false []; leaf 0 0; leaf 0 1] 0) = true.
Proof. vm_compute. split; reflexivity. Qed.

(** InvalidTransitionTest1: Active=0 Idle0=1 Idle1=2; InvalidTransitionTest2: Active=0 Idle0=1 Idle00=2
    Idle1=3 Idle10=4. *)
Definition across (d : cls) : chart :=
  Chart [st None 0 [IState 1; IState 2] false false [];
         st (Some 0) 0 [] false false [tr (IState d)]; leaf 0 1] 0.
Example invalid_transition_test1 : wf_chart (across 2) = false ∧ wf_chart (across 1) = true.
Proof. vm_compute. split; reflexivity. Qed.
Definition across2 (d : cls) : chart :=
  Chart [st None 0 [IState 1; IState 3] false false [];
         st (Some 0) 0 [IState 2] false false []; leaf 1 0;
         st (Some 0) 1 [IState 4] false false []; st (Some 3) 0 [] false false [tr (IState d)]] 0.
Example invalid_transition_test2 : wf_chart (across2 2) = false ∧ wf_chart (across2 4) = true.
Proof. vm_compute. split; reflexivity. Qed.

(** UnsuppDeepHistoryTest: A=0 B=1 C=2 D=3. *)
Definition deep2 (d : bool) : chart :=
  Chart [st None 0 [IState 1] false d []; st (Some 0) 0 [IState 2; IState 3] false false [];
         leaf 1 0; leaf 1 1] 0.
Example unsupported_deep_history_test : wf_chart (deep2 true) = false ∧ wf_chart (deep2 false) = true.
Proof. vm_compute. split; reflexivity. Qed.
End CompileFail.
