(** C52: transitions with BOOST_STATECHART_RELAX_TRANSITION_CONTEXT.  C53: the object that an action is called on. *)
From Verif Require Import Demo Moves Escape.

(** The transition action [n] is a member of the state class [o], and the macro is defined. *)
Definition owned_by (ch : chart) (n : nat) (o : cls) : Prop := ∃ f, ch_relax ch = Some f ∧ f n = Some o.

(** As in PropsTransit.v, [t1] is the trace before the transition starts and [spans b t2 ks k] says that [ks] are the
    entries that follow, up to the entry [k]: the result of the transition, or the first exception.  [k1] is what
    happens before the action and [k2] what happens after it. *)

Section relax.
Context {W : Type} (ch : chart) (U : user W).
Context (Hwf : wf_chart ch = true) (HU : user_ok ch U).

Lemma late_owned x z n o y : owned_by ch n o → encloses ch (Some o) x.1 → within ch z.1 o →
  late ch x z (Some n) y ↔ ¬ encloses ch (Some o) y.1.
Proof.
  intros (f & Hf & Hn) He Hin. assert (action_owner ch (Some n) = Some o) as Ho.
  { unfold action_owner. by rewrite Hf. }
  split.
  - intros (o' & Ho' & _ & _ & H). congruence.
  - intros H. by exists o.
Qed.
Lemma encloses_dec q c : encloses ch (Some q) c ∨ ¬ encloses ch (Some q) c.
Proof. destruct (decide (Some q ∈ context_list ch c)) as [H|H]; rewrite <-(encloses_list ch Hwf) in H; auto. Qed.

Lemma exits_mem fe L (y : obj) : (ODtor y.2 y.1 ∈ exits fe L ↔ y ∈ L) ∧ (fe = true → OExit y.2 y.1 ∈ exits fe L ↔ y ∈ L).
Proof.
  split; [split; [by apply elem_exits_dtor|by apply elem_exits_dtor]|]. intros ->. split; [by apply elem_exits_exit|].
  intros H. apply elem_of_list_In, in_flat_map. exists y. split; [by apply elem_of_list_In|]. by left.
Qed.

Lemma around_owned s t1 b p c d t2 ks k k1 c' n e' k2 o :
  seen ch U s → tr s = t1 ++ Obs b (OTransit p c d) :: t2 →
  spans b t2 ks k → ks = k1 ++ OAction c' n e' :: k2 → owned_by ch n o → encloses ch (Some o) c →
  ∃ cc z, innermost_common ch cc c (init_cls d) ∧ lives t1 z ∧ parent ch z.1 = cc ∧ within ch z.1 c ∧
    (within ch z.1 o →
      (∀ y : obj, (ODtor y.2 y.1 ∈ k1 ↔ lives t1 y ∧ encloses ch (Some o) y.1) ∧
        (excepting t1 = false → OExit y.2 y.1 ∈ k1 ↔ lives t1 y ∧ encloses ch (Some o) y.1)) ∧
      (k = Some (OResult p c RDiscard) → ∀ y : obj,
        (ODtor y.2 y.1 ∈ k2 ↔ lives t1 y ∧ within ch z.1 y.1 ∧ ¬ encloses ch (Some o) y.1) ∧
        (excepting t1 = false → OExit y.2 y.1 ∈ k2 ↔ lives t1 y ∧ within ch z.1 y.1 ∧ ¬ encloses ch (Some o) y.1))) ∧
    (¬ within ch z.1 o → removals k2 = [] ∧
      ∀ y : obj, ODtor y.2 y.1 ∈ k1 ↔ lives t1 y ∧ within ch z.1 y.1).
Proof.
  intros Hs E Hsp Eks Ho He.
  destruct (transit_around ch U Hwf HU _ _ _ _ _ _ _ _ _ _ _ _ _ _ Hs E Hsp Eks)
    as (cc & z & cx & L1 & L2 & Ecx & Hrc & Hlc & Hcc & Hz & Hp & Hin & R1 & _ & R2 & R3 & M1 & _ & M2 & _).
  exists cc, z. split_and!; try done.
  - intros Hzo. assert (∀ y, late ch (c, p) z (Some n) y ↔ ¬ encloses ch (Some o) y.1) as Hlate.
    { intros y. by apply late_owned. }
    assert (∀ y : obj, y ∈ L1 ↔ lives t1 y ∧ encloses ch (Some o) y.1) as M1'.
    { intros y. rewrite M1, Hlate. pose proof (encloses_dec o y.1). split; [tauto|]. intros [H1 H2]. split_and!; [done| |tauto].
      right. destruct Hzo as [->|Hzo]; [done|]. by eapply (encloses_trans ch). }
    assert (∀ y : obj, y ∈ L2 ↔ lives t1 y ∧ within ch z.1 y.1 ∧ ¬ encloses ch (Some o) y.1) as M2'.
    { intros y. by rewrite M2, Hlate. }
    split.
    + intros y. rewrite <-M1'. destruct (exits_mem (negb (excepting t1)) L1 y) as [X1 X2]. split.
      * by rewrite <-X1, <-R1, removals_elem.
      * intros Hx. rewrite <-X2 by by rewrite Hx. by rewrite <-R1, removals_elem.
    + intros Hk y. specialize (R3 Hk). rewrite <-M2'. destruct (exits_mem (negb (excepting t1)) L2 y) as [X1 X2]. split.
      * by rewrite <-X1, <-R3, removals_elem.
      * intros Hx. rewrite <-X2 by by rewrite Hx. by rewrite <-R3, removals_elem.
  - intros Hzo. assert (∀ y, ¬ late ch (c, p) z (Some n) y) as Hlate.
    { intros y (o' & Ho' & _ & H & _). destruct Ho as (f & Hf & Hn). unfold action_owner in Ho'. rewrite Hf in Ho'. congruence. }
    assert (L2 = []) as ->.
    { destruct L2 as [|y L2]; [done|]. destruct (M2 y) as [(_ & _ & H) _]; [left|]. by apply Hlate in H. }
    split; [by apply prefix_nil_inv in R2|]. intros y.
    destruct (exits_mem (negb (excepting t1)) L1 y) as [X1 _]. rewrite <-(removals_elem _ k1) by done. rewrite R1, X1, M1.
    specialize (Hlate y). tauto.
Qed.
End relax.

(** ** The order *)
(** If the action is a member of [o], an outer state of the source that is left by the transition ([within ch z.1 o]),
    then exactly the states inside [o] are left before the action is called, and [o] and the others up to the innermost
    common context are left after it.  If [o] is not left then everything is left before the action. *)
Theorem C52_action {W} (ch : chart) (U : user W) s t1 b p c d t2 ks k k1 c' n e' k2 o :
  wf_chart ch = true → user_ok ch U → seen ch U s → tr s = t1 ++ Obs b (OTransit p c d) :: t2 →
  spans b t2 ks k → ks = k1 ++ OAction c' n e' :: k2 → owned_by ch n o → encloses ch (Some o) c →
  ∃ cc z, innermost_common ch cc c (init_cls d) ∧ lives t1 z ∧ parent ch z.1 = cc ∧ within ch z.1 c ∧
    (within ch z.1 o →
      (∀ y : obj, (ODtor y.2 y.1 ∈ k1 ↔ lives t1 y ∧ encloses ch (Some o) y.1) ∧
        (excepting t1 = false → OExit y.2 y.1 ∈ k1 ↔ lives t1 y ∧ encloses ch (Some o) y.1)) ∧
      (k = Some (OResult p c RDiscard) → ∀ y : obj,
        (ODtor y.2 y.1 ∈ k2 ↔ lives t1 y ∧ within ch z.1 y.1 ∧ ¬ encloses ch (Some o) y.1) ∧
        (excepting t1 = false → OExit y.2 y.1 ∈ k2 ↔ lives t1 y ∧ within ch z.1 y.1 ∧ ¬ encloses ch (Some o) y.1))) ∧
    (¬ within ch z.1 o → removals k2 = [] ∧
      ∀ y : obj, ODtor y.2 y.1 ∈ k1 ↔ lives t1 y ∧ within ch z.1 y.1).
Proof. intros Hwf HU. apply (around_owned ch U Hwf HU). Qed.
Print Assumptions C52_action.

(** An action that is a member of no outer state of the source (but of the machine) is called when everything is left,
    as without the macro. *)
Theorem C52_machine {W} (ch : chart) (U : user W) s t1 b p c d t2 ks k k1 c' n e' k2 :
  wf_chart ch = true → user_ok ch U → seen ch U s → tr s = t1 ++ Obs b (OTransit p c d) :: t2 →
  spans b t2 ks k → ks = k1 ++ OAction c' n e' :: k2 → (∀ o, owned_by ch n o → ¬ encloses ch (Some o) c) →
  removals k2 = [].
Proof.
  intros Hwf HU Hs E Hsp Eks Hno.
  destruct (transit_around ch U Hwf HU _ _ _ _ _ _ _ _ _ _ _ _ _ _ Hs E Hsp Eks)
    as (cc & z & cx & L1 & L2 & _ & _ & _ & _ & _ & _ & _ & _ & _ & R2 & _ & _ & _ & M2 & _).
  assert (L2 = []) as ->.
  { destruct L2 as [|y L2]; [done|]. destruct (M2 y) as [(_ & _ & o & Ho & H & _) _]; [left|].
    unfold action_owner in Ho. destruct (ch_relax ch) as [f|] eqn:Hf; [|done]. exfalso. apply (Hno o); [|done]. by exists f. }
  by apply prefix_nil_inv in R2.
Qed.
Print Assumptions C52_machine.

(** The states left before the action are left in the order of C05, and so are those left after it. *)
Theorem C52_sorted {W} (ch : chart) (U : user W) s t1 b p c d t2 ks k k1 c' n e' k2 :
  wf_chart ch = true → user_ok ch U → seen ch U s → tr s = t1 ++ Obs b (OTransit p c d) :: t2 →
  excepting t1 = false → spans b t2 ks k → ks = k1 ++ OAction c' n e' :: k2 →
  (∃ L, removals k1 = flat_map (λ y : obj, [OExit y.2 y.1; ODtor y.2 y.1]) L ∧
    StronglySorted (λ y z : obj, exit_before ch y.1 z.1) L) ∧
  (k = Some (OResult p c RDiscard) →
    ∃ L, removals k2 = flat_map (λ y : obj, [OExit y.2 y.1; ODtor y.2 y.1]) L ∧
      StronglySorted (λ y z : obj, exit_before ch y.1 z.1) L).
Proof.
  intros Hwf HU Hs E Hx Hsp Eks.
  destruct (transit_around ch U Hwf HU _ _ _ _ _ _ _ _ _ _ _ _ _ _ Hs E Hsp Eks)
    as (cc & z & cx & L1 & L2 & _ & _ & _ & _ & _ & _ & _ & R1 & _ & _ & R3 & _ & S1 & _ & S2).
  rewrite Hx in *. split; [by exists L1|]. intros Hk. exists L2. split; [by apply R3|done].
Qed.
Print Assumptions C52_sorted.

(** ** The action finds its state *)
(** When the action is called, the state that it is a member of and all outer states of that are active. *)
Theorem C52_active {W} (ch : chart) (U : user W) s t1 b p c d t2 ks k k1 c' n e' k2 o :
  wf_chart ch = true → user_ok ch U → seen ch U s → tr s = t1 ++ Obs b (OTransit p c d) :: t2 →
  spans b t2 ks k → ks = k1 ++ OAction c' n e' :: k2 → owned_by ch n o → encloses ch (Some o) c →
  ∀ q, within ch q o → ∃ p', lives (t1 ++ Obs b (OTransit p c d) :: under b k1) (q, p').
Proof.
  intros Hwf HU Hs E Hsp Eks Ho He q Hq. pose proof (seen_orderly ch U Hwf HU s Hs) as Hord.
  destruct (around_owned ch U Hwf HU _ _ _ _ _ _ _ _ _ _ _ _ _ _ _ Hs E Hsp Eks Ho He)
    as (cc & z & Hcc & Hz & Hp & Hzc & H1 & H2).
  assert (encloses ch (Some q) c) as Hqc.
  { destruct Hq as [->|Hq]; [done|]. by eapply (encloses_trans ch). }
  assert (lives t1 (c, p)) as Hx by by apply (Hord t1 b (OTransit p c d) t2 E).
  destruct (orderly_outers ch t1 (c, p) q) as [p' Hl]; [|done|done|].
  { rewrite E in Hord. by eapply orderly_prefix. }
  exists p'. apply lives_keep; [done|by right|]. intros Hin.
  assert (within ch z.1 o ∨ ¬ within ch z.1 o) as [Hw|Hw].
  { unfold within. destruct (decide (o = z.1)) as [->|]; [by left; left|]. destruct (encloses_dec ch Hwf z.1 o); tauto. }
  - destruct (H1 Hw) as [H3 _]. apply (H3 (q, p')) in Hin as [_ Hin]. simpl in Hin.
    apply (encloses_lt ch Hwf) in Hin. destruct Hq as [->|Hq]; [lia|]. apply (encloses_lt ch Hwf) in Hq. lia.
  - destruct (H2 Hw) as [_ H3]. apply (H3 (q, p')) in Hin as [_ Hin]. simpl in Hin. apply Hw.
    destruct Hin as [->|Hin]; [done|]. destruct Hq as [->|Hq]; [by right|]. right. by eapply (encloses_trans ch).
Qed.
Print Assumptions C52_active.

(** ** The object *)
(** The object that is passed to the action, in the trace before the action is called. *)
Lemma receives {W} (ch : chart) (U : user W) s t1 b p c d t2 ks k k1 x n e' k2 :
  wf_chart ch = true → user_ok ch U → seen ch U s → tr s = t1 ++ Obs b (OTransit p c d) :: t2 →
  spans b t2 ks k → ks = k1 ++ OAction x n e' :: k2 →
  ∃ z cx, x = snd <$> cx ∧ receiver ch (c, p) z (Some n) (fst <$> cx) ∧ within ch z.1 c ∧
    innermost_common ch (parent ch z.1) c (init_cls d) ∧
    ∀ q, cx = Some q → lives (t1 ++ Obs b (OTransit p c d) :: under b k1) q.
Proof.
  intros Hwf HU Hs E Hsp Eks. pose proof (seen_orderly ch U Hwf HU s Hs) as Hord.
  destruct (transit_around ch U Hwf HU _ _ _ _ _ _ _ _ _ _ _ _ _ _ Hs E Hsp Eks)
    as (cc & z & cx & L1 & L2 & Ecx & Hrc & Hlc & Hcc & Hz & Hp & Hin & R1 & _ & _ & _ & M1 & _).
  exists z, cx. split_and!; [done|done|done|by subst cc|]. intros q Hq. apply lives_keep; [by apply Hlc|by right|].
  intros Hd. assert (q ∈ L1) as HqL.
  { apply (elem_exits_dtor q (negb (excepting t1))). rewrite <-R1. by apply removals_elem. }
  apply M1 in HqL as (_ & Hzq & Hnl). subst cx. simpl in Hrc. destruct Hrc as [(o & Ho & He & Hw & [= <-])|[_ Hpz]].
  - apply Hnl. exists q.1. split_and!; try done. intros H. apply (encloses_lt ch Hwf) in H. lia.
  - symmetry in Hpz. apply (parent_lt _ Hwf) in Hpz. destruct Hzq as [Hzq|Hzq]; [lia|]. apply (encloses_lt ch Hwf) in Hzq. lia.
Qed.

(** Without the macro (or if the action is a member of the machine) it is called on the innermost common context of source and destination: on the machine, or
    on the object of that class, which is active. *)
Theorem C53_common_context {W} (ch : chart) (U : user W) s t1 b p c d t2 ks k k1 x n e' k2 :
  wf_chart ch = true → user_ok ch U → seen ch U s → tr s = t1 ++ Obs b (OTransit p c d) :: t2 →
  spans b t2 ks k → ks = k1 ++ OAction x n e' :: k2 → (∀ o, owned_by ch n o → ¬ encloses ch (Some o) c) →
  ∃ cc, innermost_common ch cc c (init_cls d) ∧
    match cc with
    | None => x = None
    | Some q => ∃ p', x = Some p' ∧ lives (t1 ++ Obs b (OTransit p c d) :: under b k1) (q, p')
    end.
Proof.
  intros Hwf HU Hs E Hsp Eks Hno. destruct (receives ch U _ _ _ _ _ _ _ _ _ _ _ _ _ _ Hwf HU Hs E Hsp Eks) as (z & cx & -> & Hr & _ & Hcc & Hl).
  assert (fst <$> cx = parent ch z.1) as Ecx.
  { destruct Hr as [(o & Ho & He & _)|[_ Hp]]; [|done]. exfalso. apply (Hno o); [|done]. unfold action_owner in Ho.
    destruct (ch_relax ch) as [f|] eqn:Hf; [|done]. by exists f. }
  exists (parent ch z.1). split; [done|]. rewrite <-Ecx. destruct cx as [[q p']|]; simpl; [|done]. exists p'. split; [done|].
  by apply Hl.
Qed.
Print Assumptions C53_common_context.

(** With the macro an action that is a member of [o] is called on the active object of class [o] if the transition leaves
    that, otherwise on the innermost common context, which is [o] or is inside it. *)
Theorem C53_relaxed {W} (ch : chart) (U : user W) s t1 b p c d t2 ks k k1 x n e' k2 o :
  wf_chart ch = true → user_ok ch U → seen ch U s → tr s = t1 ++ Obs b (OTransit p c d) :: t2 →
  spans b t2 ks k → ks = k1 ++ OAction x n e' :: k2 → owned_by ch n o → encloses ch (Some o) c →
  ∃ q p', x = Some p' ∧ lives (t1 ++ Obs b (OTransit p c d) :: under b k1) (q, p') ∧
    (q = o ∧ ¬ encloses ch (Some o) (init_cls d) ∨
     innermost_common ch (Some q) c (init_cls d) ∧ within ch o q).
Proof.
  intros Hwf HU Hs E Hsp Eks (f & Hf & Hn) He.
  destruct (receives ch U _ _ _ _ _ _ _ _ _ _ _ _ _ _ Hwf HU Hs E Hsp Eks) as (z & cx & -> & Hr & Hz & Hcc & Hl).
  assert (action_owner ch (Some n) = Some o) as Ho by (unfold action_owner; by rewrite Hf).
  destruct Hr as [(o' & Ho' & _ & Hw & Ecx)|[Hnw Ecx]].
  - assert (o' = o) as -> by congruence. destruct cx as [[q p']|]; simplify_eq/=. exists o, p'. split_and!; [done|by apply Hl|].
    left. split; [done|]. intros Hd. assert (∃ q, parent ch z.1 = Some q ∧ o ≤ q) as (q & Hq & Hle).
    { destruct (ic_innermost _ _ _ _ Hcc (Some o) He Hd) as [Hp|(q & Hp & Hoq)]; [by exists o|].
      exists q. split; [done|]. apply (encloses_lt ch Hwf) in Hoq. lia. }
    apply (parent_lt _ Hwf) in Hq. destruct Hw as [Hw|Hw]; [lia|]. apply (encloses_lt ch Hwf) in Hw. lia.
  - assert (encloses ch (Some o) z.1) as Hoz.
    { destruct (within_comparable ch z.1 o c Hz (or_intror He)) as [H|H]; [by apply Hnw in H|done]. }
    destruct (parent ch z.1) as [q|] eqn:Hp.
    2:{ exfalso. inversion Hoz; subst; congruence. }
    destruct cx as [[q' p']|]; simplify_eq/=. exists q, p'. split_and!; [done|by apply Hl|]. right. split; [done|].
    by eapply (WpReact.encloses_up ch).
Qed.
Print Assumptions C53_relaxed.

(** ** Examples *)
(** 0 has the inner states 1 and 5; 1 has the regions [2 | 4]; 3 is inside 2.  Action 1 is a member of state 2, action 2
    of state 1, action 0 of the machine. *)
Module Relaxed.
Definition owner (n : nat) : option cls := match n with 1 => Some 2 | 2 => Some 1 | _ => None end.
Definition ch : chart := RChart [
  CDef None 0 [IState 1] false false true [];
  CDef (Some 0) 0 [IState 2; IState 4] false false true [];
  CDef (Some 1) 0 [IState 3] false false true [RTransition (EType 50) (IState 2) None];
  CDef (Some 2) 0 [] false false true
    [RTransition (EType 1) (IState 5) (Some 1); RTransition (EType 2) (IState 3) (Some 2);
     RTransition (EType 3) (IState 5) (Some 0)];
  CDef (Some 1) 1 [] false false true [];
  CDef (Some 0) 0 [] false false true [RTransition (EType 1) (IState 1) None]] 0 (Some owner).
Example ch_wf : wf_chart ch = true.
Proof. vm_compute. reflexivity. Qed.
Definition U := scripted ch as_event.
Lemma U_ok : user_ok ch U.
Proof. apply scripted_ok. Qed.
Definition i := OpInitiate 9.
Definition p (n : nat) := OpProcess 9 (ev n).
Definition calls1 : list op := [i; p 2; p 1; p 1; p 3].
Definition demo : mst script heapst := default (fresh []) (play ch U calls1 (fresh [])).
Lemma demo_reach : reach ch U demo.
Proof.
  apply (play_reach _ _ calls1 (fresh [])); [apply reach_fresh|].
  assert (bool_decide (is_Some (play ch U calls1 (fresh []))) = true) as H by by_eval.
  apply bool_decide_eq_true in H as [s H]. unfold demo. rewrite H. done.
Qed.
(** State 4 throws when it is left. *)
Definition failing : script := [(PExit 4, Deed [] (Some 7) DDiscard)].
Definition failed : list okind :=
  [OReset; OCtor 0 0; OCtor 1 1; OCtor 2 2; OCtor 3 3; OCtor 4 4;
   OProcess (ev 1); ODispatch (ev 1) [3; 4]; OVisit 3 3 (ev 1); OTransit 3 3 (IState 5); OExit 3 3; ODtor 3 3;
   OAction (Some 2) 1 (ev 1); OExit 4 4; OThrow 7; ODtor 4 4; OCatch 7].
Definition handled : list okind :=
  [OHandle 2 (ev 50); OVisit 2 2 (ev 50); OTransit 2 2 (IState 2); ODtor 2 2; OCtor 5 2; OCtor 6 3; OResult 2 2 RDiscard;
   OHandled; ODone].
Lemma failing_run : ∃ s s', reach ch U s ∧ call ch U (p 1) s = (Ret tt, s') ∧ map ob (tr s) = take 6 failed ∧
  map ob (tr s') = failed ++ handled ∧ md_disp (mode_of (take 17 (tr s'))) = Some (ev 1) ∧
  tr s' !! 17 = Some (Obs (Some (ev 50)) (OHandle 2 (ev 50))).
Proof.
  assert (match play ch U [i] (fresh failing) with
    | Some s => bool_decide (map ob (tr s) = take 6 failed) &&
        match call ch U (p 1) s with
        | (Ret _, s') => bool_decide (map ob (tr s') = failed ++ handled) &&
            bool_decide (md_disp (mode_of (take 17 (tr s'))) = Some (ev 1)) &&
            bool_decide (tr s' !! 17 = Some (Obs (Some (ev 50)) (OHandle 2 (ev 50))))
        | _ => false end
    | None => false end = true) as H by by_eval.
  destruct (play ch U [i] (fresh failing)) as [s|] eqn:E; [|done]. apply andb_true_iff in H as [H1 H].
  destruct (call ch U (p 1) s) as [[[]|?|?|] s'] eqn:E'; [|discriminate H..].
  rewrite !andb_true_iff, !bool_decide_eq_true in H. apply bool_decide_eq_true in H1. exists s, s'.
  destruct H as [[H2 H3] H4]. split_and!; [|exact E'|exact H1|exact H2|exact H3|exact H4]. eapply play_reach; [apply reach_fresh|exact E].
Qed.
End Relaxed.

(** State 3 leaves 3, 4, 2 and 1 with an action of state 2: 3 is left before the action, the others after it. *)
Example C52_example :
  tr Relaxed.demo = take 25 (tr Relaxed.demo) ++ Obs (Some (ev 1)) (OTransit 5 3 (IState 5)) :: drop 26 (tr Relaxed.demo) ∧
  excepting (take 25 (tr Relaxed.demo)) = false ∧
  spans (Some (ev 1)) (drop 26 (tr Relaxed.demo))
    ([OExit 5 3; ODtor 5 3] ++ OAction (Some 2) 1 (ev 1) ::
     [OExit 4 4; ODtor 4 4; OExit 2 2; ODtor 2 2; OExit 1 1; ODtor 1 1; OCtor 6 5])
    (Some (OResult 5 3 RDiscard)) ∧
  owned_by Relaxed.ch 1 2 ∧ encloses Relaxed.ch (Some 2) 3 ∧ within Relaxed.ch 1 2.
Proof.
  split_and!; [apply entry; by_compute|by_compute|apply spansb_ok; by_eval|by eexists|exact (encloses_direct Relaxed.ch 3)|].
  right. exact (encloses_direct Relaxed.ch 2).
Qed.
(** An action of state 1, which is not left. *)
Example C52_example_outer :
  tr Relaxed.demo = take 9 (tr Relaxed.demo) ++ Obs (Some (ev 2)) (OTransit 3 3 (IState 3)) :: drop 10 (tr Relaxed.demo) ∧
  spans (Some (ev 2)) (drop 10 (tr Relaxed.demo)) ([OExit 3 3; ODtor 3 3] ++ OAction (Some 2) 2 (ev 2) :: [OCtor 5 3])
    (Some (OResult 3 3 RDiscard)) ∧
  owned_by Relaxed.ch 2 1 ∧ encloses Relaxed.ch (Some 1) 3 ∧ ¬ within Relaxed.ch 3 1.
Proof.
  split_and!; [apply entry; by_compute|apply spansb_ok; by_eval|by eexists| |].
  - by apply (encloses_list Relaxed.ch Relaxed.ch_wf), (bool_decide_eq_true_1 _).
  - intros [H|H]; [done|]. apply (encloses_lt Relaxed.ch Relaxed.ch_wf) in H. lia.
Qed.
(** An action of the machine. *)
Example C52_example_machine :
  tr Relaxed.demo = take 53 (tr Relaxed.demo) ++ Obs (Some (ev 3)) (OTransit 9 3 (IState 5)) :: drop 54 (tr Relaxed.demo) ∧
  spans (Some (ev 3)) (drop 54 (tr Relaxed.demo))
    ([OExit 10 4; ODtor 10 4; OExit 9 3; ODtor 9 3; OExit 8 2; ODtor 8 2; OExit 7 1; ODtor 7 1] ++
     OAction (Some 0) 0 (ev 3) :: [OCtor 11 5]) (Some (OResult 9 3 RDiscard)) ∧
  ∀ o, owned_by Relaxed.ch 0 o → ¬ encloses Relaxed.ch (Some o) 3.
Proof.
  split_and!; [apply entry; by_compute|apply spansb_ok; by_eval|]. intros o (f & [= <-] & H). done.
Qed.
(** Without the macro: the action of a transition of state 1 to state 7, whose common context is state 0. *)
Example C53_example :
  tr Demo.demo = take 80 (tr Demo.demo) ++ Obs (Some (ev 2)) (OTransit 8 1 (IState 7)) :: drop 81 (tr Demo.demo) ∧
  spans (Some (ev 2)) (drop 81 (tr Demo.demo))
    ([OExit 12 5; ODtor 12 5; OExit 9 3; ODtor 9 3; OExit 8 1; ODtor 8 1] ++ OAction (Some 7) 2 (ev 2) :: [OCtor 13 7])
    (Some (OResult 8 1 RDiscard)) ∧ ∀ o, owned_by Demo.chart5 2 o → ¬ encloses Demo.chart5 (Some o) 1.
Proof.
  split_and!; [apply entry; by_compute|apply spansb_ok; by_eval|]. intros o (f & H & _). discriminate H.
Qed.

(** ** What does not hold *)
(** The order of C05 does not hold for the transition as a whole: state 3 is left before state 4, although state 4 is in
    the higher-numbered region. *)
Theorem C52_reverse_refuted : ∃ (ch : chart) (U : user script) s t1 b p c d t2 ks,
  wf_chart ch = true ∧ user_ok ch U ∧ seen ch U s ∧ tr s = t1 ++ Obs b (OTransit p c d) :: t2 ∧
  excepting t1 = false ∧ spans b t2 ks (Some (OResult p c RDiscard)) ∧
  ¬ ∃ L, removals ks = flat_map (λ y : obj, [OExit y.2 y.1; ODtor y.2 y.1]) L ∧
    StronglySorted (λ y z : obj, exit_before ch y.1 z.1) L.
Proof.
  exists Relaxed.ch, Relaxed.U, Relaxed.demo, (take 25 (tr Relaxed.demo)), (Some (ev 1)), 5, 3, (IState 5),
    (drop 26 (tr Relaxed.demo)), ([OExit 5 3; ODtor 5 3] ++ OAction (Some 2) 1 (ev 1) ::
     [OExit 4 4; ODtor 4 4; OExit 2 2; ODtor 2 2; OExit 1 1; ODtor 1 1; OCtor 6 5]).
  destruct C52_example as (H1 & H2 & H3 & _). split_and!;
    [exact Relaxed.ch_wf|exact Relaxed.U_ok|exact (seen_reach _ _ _ Relaxed.demo_reach)|exact H1|exact H2|exact H3|].
  clear H1 H2 H3. intros (L & HL & Hs). destruct L as [|[c1 p1] [|[c2 p2] L]]; [done|done|].
  assert (c1 = 3 ∧ c2 = 4) as [-> ->].
  { assert (removals ([OExit 5 3; ODtor 5 3] ++ OAction (Some 2) 1 (ev 1) ::
     [OExit 4 4; ODtor 4 4; OExit 2 2; ODtor 2 2; OExit 1 1; ODtor 1 1; OCtor 6 5]) =
     [OExit 5 3; ODtor 5 3; OExit 4 4; ODtor 4 4; OExit 2 2; ODtor 2 2; OExit 1 1; ODtor 1 1]) as Er by by_compute.
    rewrite Er in HL. injection HL. intros; split; congruence. }
  apply StronglySorted_inv in Hs as [_ Hs]. apply Forall_cons in Hs as [Hs _]. simpl in Hs.
  assert (∀ c y, within Relaxed.ch c y → c ∈ y :: outers Relaxed.ch y) as Hin.
  { intros c y [->|H]; [left|]. right. apply (encloses_list Relaxed.ch Relaxed.ch_wf) in H. unfold context_list in H.
    rewrite elem_of_app, elem_of_list_singleton, elem_of_list_fmap in H. by destruct H as [(q & [= ->] & H)|H]. }
  destruct Hs as [Hs|(q & c & c' & P1 & P2 & Hpos & W1 & W2)].
  - assert (within Relaxed.ch 4 3) as Hw by by right. apply Hin in Hw.
    change (4 ∈ [3; 2; 1; 0]) in Hw. rewrite !elem_of_cons, elem_of_nil in Hw. lia.
  - apply Hin in W1, W2. change (c ∈ [3; 2; 1; 0]) in W1. change (c' ∈ [4; 1; 0]) in W2.
    rewrite !elem_of_cons, elem_of_nil in W1. rewrite !elem_of_cons, elem_of_nil in W2.
    destruct W1 as [->|[->|[->|[->|[]]]]]; (destruct W2 as [->|[->|[->|[]]]]);
      vm_compute in P1, P2, Hpos; first [discriminate|congruence|lia].
Qed.
Print Assumptions C52_reverse_refuted.

(** C21 does not hold either: state 4 throws while it is left after the action.  Region 1 of state 1 has lost its inner
    state, but the exception event is sent to state 2, which is inside region 0 of state 1.  The reaction of state 2
    makes the machine count as stable again and process_event() returns, although region 1 of state 1 is empty. *)
Theorem C52_handler_refuted : ∃ (ch : chart) (U : user script) s s' t1 p xe t2 q,
  wf_chart ch = true ∧ user_ok ch U ∧ reach ch U s ∧ call ch U (Relaxed.p 1) s = (Ret tt, s') ∧
  tr s' = t1 ++ Obs (Some xe) (OHandle p xe) :: t2 ∧ ¬ in_state t1 ∧ md_disp (mode_of t1) ≠ None ∧
  (∀ c t0 b0 k t3, lives t1 (c, p) → t1 = t0 ++ Obs b0 k :: t3 → moves k = true →
    Forall (λ o, moves (ob o) = false) t3 → ¬ outermost_unstable ch t0 t1 (c, p)) ∧
  ¬ without_inner ch (tr s) q 1 ∧ without_inner ch (tr s') q 1.
Proof.
  assert (∀ t q, (∀ w, OCtor w.2 w.1 ∈ map ob t → parent Relaxed.ch w.1 = Some q.1 → pos Relaxed.ch w.1 = 1 → ODtor w.2 w.1 ∈ map ob t) →
    lives t q → nreg Relaxed.ch q.1 = 2 → without_inner Relaxed.ch t q 1) as Hwi.
  { intros t q H Hl Hn. split_and!; [done|lia|]. intros w [W1 W2] Hp Hk. by apply W2, H. }
  destruct Relaxed.failing_run as (s & s' & Hr & Hc & E1 & E2 & Emd & Eh).
  assert (map ob (take 17 (tr s')) = Relaxed.failed) as Et.
  { change (ob <$> take 17 (tr s') = Relaxed.failed). rewrite fmap_take. change (take 17 (map ob (tr s')) = Relaxed.failed). by rewrite E2. }
  exists Relaxed.ch, Relaxed.U, s, s', (take 17 (tr s')), 2, (ev 50), (drop 18 (tr s')), (1, 1).
  split_and!.
  - exact Relaxed.ch_wf.
  - exact Relaxed.U_ok.
  - done.
  - done.
  - by apply entry.
  - intros (_ & p & c & e & H). rewrite Et in H. done.
  - by rewrite Emd.
  - intros c t0 b0 k t3 Hl E Hk Ht3 [_ Ho].
    assert (map ob t0 = take 9 Relaxed.failed) as E0.
    { assert (Relaxed.failed = map ob t0 ++ k :: map ob t3) as E3 by by rewrite <-Et, E, map_app.
      assert (Relaxed.failed !! length t0 = Some k) as Hlk.
      { rewrite E3, lookup_app_r, map_length, Nat.sub_diag by (by rewrite map_length). done. }
      assert (length t0 = 9) as Hlen.
      { clear -Hlk Hk. remember (length t0) as n eqn:Hn. clear Hn.
        do 17 (destruct n as [|n]; [simpl in Hlk; injection Hlk as <-; done|]). done. }
      rewrite E3, take_app_alt; [done|]. by rewrite map_length. }
    assert (c = 2) as ->.
    { destruct Hl as [Hl _]. rewrite Et in Hl. unfold Relaxed.failed in Hl. cbn [fst snd] in Hl.
      repeat (apply elem_of_cons in Hl as [Hl|Hl]; [try discriminate Hl; by injection Hl|]).
      by apply elem_of_nil in Hl. }
    assert (unstable_since Relaxed.ch t0 (take 17 (tr s')) (1, 1)) as Hu.
    { exists 1. split.
      - apply Hwi; [|unfold lives; rewrite Et; split; by_compute|done]. intros [c p] Hcc Hp Hpos. rewrite Et in *. unfold Relaxed.failed in Hcc.
        cbn [fst snd] in *.
        repeat (apply elem_of_cons in Hcc as [Hcc|Hcc]; [try discriminate Hcc; injection Hcc as -> ->; first [discriminate Hp|discriminate Hpos|by_compute]|]).
        by apply elem_of_nil in Hcc.
      - intros (_ & _ & H). apply (H (4, 4)); [|done|done]. unfold lives. rewrite E0. split; by_compute. }
    apply Ho in Hu. destruct Hu as [Hu|Hu]; [done|]. apply (encloses_lt Relaxed.ch Relaxed.ch_wf) in Hu. simpl in Hu. lia.
  - intros (_ & _ & H). apply (H (4, 4)); [|done|done]. unfold lives. rewrite E1. split; by_compute.
  - apply Hwi; [|unfold lives; rewrite E2; split; by_compute|done]. intros [c p] Hcc Hp Hpos.
    rewrite E2 in *. unfold Relaxed.failed, Relaxed.handled in Hcc. cbn [app fst snd] in *.
    repeat (apply elem_of_cons in Hcc as [Hcc|Hcc]; [try discriminate Hcc; injection Hcc as -> ->; first [discriminate Hp|discriminate Hpos|by_compute]|]).
    by apply elem_of_nil in Hcc.
Qed.
Print Assumptions C52_handler_refuted.
