(** Every time an allocator throws. *)
From Verif Require Export Kept.

Definition refuses (k : okind) : bool := match k with ORefused _ => true | _ => false end.

Section alloc.
Context {W : Type} (ch : chart) (U : user W).
Context (Hwf : wf_chart ch = true) (HU : user_ok ch U).

(** ** Every refusal *)
(** A refusal is followed by the exception; the state for which there is no place was just constructed,
    the one that cannot be recorded was just exited. *)
Definition asked (t : list obs) (o : obs) (T : list obs) : Prop :=
  match ob o with
  | ORefused a => (∃ y T', T = Obs (ob_trig o) (OThrow y) :: T') ∧
      (∀ c, a = AEntry c → is_leaf ch c = true ∧ ∃ t0 p u, t = t0 ++ Obs (ob_trig o) (OCtor p c) :: u ∧
        Forall (λ o, quiet (ob o) = true ∧ is_life (ob o) = false) u) ∧
      ∀ c x, a = ARecord c x → element ch c x ∧
        ∃ t0 p u, t = t0 ++ Obs (ob_trig o) (OExit p c) :: u ∧ Forall (λ o, quiet (ob o) = true ∧ is_life (ob o) = false) u
  | _ => True
  end.
Notation everya := (everywhere asked).
Lemma everya_app t T T' : everya t T → everya (t ++ T) T' → everya t (T ++ T').
Proof.
  apply everywhere_app. intros t0 o T0 T1. unfold asked. destruct (ob o); try done.
  intros [(y & T2 & ->) H]. split; [by exists y, (T2 ++ T1)|done].
Qed.
Lemma everya_none t T : Forall (λ o, refuses (ob o) = false) T → everya t T.
Proof.
  intros H T1 o T2 ->. apply Forall_app in H as [_ H]. apply Forall_cons in H as [H _]. unfold asked. by destruct (ob o).
Qed.
Lemma everya_plain t b ks : Forall (λ k, refuses k = false) ks → everya t (under b ks).
Proof. intros H. apply everya_none. by apply Forall_map. Qed.
Lemma quiet_refuses ks : Forall (λ k, quiet k = true) ks → Forall (λ k, refuses k = false) ks.
Proof. intros H. eapply Forall_impl; [exact H|]. by intros []. Qed.
Lemma calls_refuses ks : calls ks → Forall (λ k, refuses k = false) ks.
Proof. intros H. apply quiet_refuses. eapply Forall_impl; [exact H|]. by intros ? []. Qed.
Lemma called_refuses ks y : called ks y → Forall (λ k, refuses k = false) ks.
Proof. destruct 1; [by apply calls_refuses|]. apply Forall_app. split; [by apply calls_refuses|by repeat constructor]. Qed.
Lemma lifes_last ks K k : lifes ks = K ++ [k] →
  ∃ k1 k2, ks = k1 ++ k :: k2 ∧ Forall (λ k, is_life k = false) k2.
Proof.
  induction ks as [|k' ks IH] using rev_ind; intros E; [by destruct K|]. rewrite lifes_app in E.
  destruct (is_life k') eqn:Hk.
  - rewrite lifes_cons in E by done. apply app_inj_tail in E as [_ ->]. by exists ks, [].
  - assert (lifes [k'] = []) as E2 by (unfold lifes; rewrite filter_cons; case_decide; [congruence|done]).
    rewrite E2, app_nil_r in E. destruct (IH E) as (k1 & k2 & -> & H). exists k1, (k2 ++ [k']). split; [by rewrite <-app_assoc|].
    apply Forall_app. split; [done|by repeat constructor].
Qed.
Lemma everya_stops P y ks t b : stops ch P y ks → everya t (under b ks).
Proof.
  intros (k1 & g & k2 & rest & -> & H1 & H2 & _ & _ & Hf). rewrite under_app_. apply everya_app; [by apply everya_plain, quiet_refuses|].
  assert (∀ t, everya t (under b (OThrow y :: k2))) as Hr.
  { intros t'. apply everya_plain. constructor; [done|by apply quiet_refuses]. }
  destruct g as [a|]; [|apply Hr]. simpl. apply everywhere_cons; [|apply Hr]. split; [simpl; eauto|].
  assert (∀ K0 k, lifes k1 = K0 ++ [k] → ∃ t0 u, t ++ under b k1 = t0 ++ Obs b k :: u ∧
    Forall (λ o, quiet (ob o) = true ∧ is_life (ob o) = false) u) as Hgo.
  { intros K0 k E. destruct (lifes_last _ _ _ E) as (k3 & k4 & -> & H4).
    exists (t ++ under b k3), (under b k4). split; [by rewrite under_app_, <-app_assoc|]. apply Forall_map.
    apply Forall_app in H1 as [_ H1]. apply Forall_cons in H1 as [_ H1]. apply Forall_forall. intros k' Hk. rewrite Forall_forall in H1, H4. auto. }
  split; [intros c ->|intros c x ->]; destruct Hf as (p & K0 & E & Hl); (split; [by try apply record_parts_element|]);
    destruct (Hgo _ _ E) as (t0 & u & E' & Hu); by exists t0, p, u.
Qed.
Lemma everya_effect t0 fe e x d ks o t b : effect ch t0 fe e x d ks o → everya t (under b ks).
Proof.
  destruct 1 as [| | |y|d act ks [Hq _]|d act y ks Hs|ks [Hq _]|y ks Hs]; try (apply everya_plain; by repeat constructor).
  - apply everya_plain. constructor; [done|by apply quiet_refuses].
  - apply (everya_app t [_]); [apply everya_none; by repeat constructor|by eapply everya_stops].
  - apply everya_plain. constructor; [done|by apply quiet_refuses].
  - apply (everya_app t [_]); [apply everya_none; by repeat constructor|by eapply everya_stops].
Qed.
Lemma everya_turn t0 fe e x ks o t b : turn ch U t0 fe e x ks o → everya t (under b ks).
Proof.
  destruct 1; try (by eapply everya_effect); try apply everywhere_nil.
  - apply everya_plain. constructor; [done|]. by eapply called_refuses.
  - rewrite app_comm_cons, under_app_. apply everya_app; [|by eapply everya_effect].
    apply everya_plain. constructor; [done|]. by apply calls_refuses.
Qed.
Lemma everya_search t0 fe e x ks o t b : search ch U t0 fe e x ks o → everya t (under b ks).
Proof.
  intros H. revert t. induction H as [x ks r Ht|x ks y Ht|x ks Ht|x ks z ks' o Ht Hp Hz _ IH]; intros t;
    (apply (everya_app t [_]); [apply everya_none; by repeat constructor|]); fold (under b).
  - change (everya (t ++ [Obs b (OVisit x.2 x.1 e)]) (under b (ks ++ [OResult x.2 x.1 r]))). rewrite under_app_.
    apply everya_app; [by eapply everya_turn|apply everya_plain; by repeat constructor].
  - by eapply everya_turn.
  - change (everya (t ++ [Obs b (OVisit x.2 x.1 e)]) (under b (ks ++ [OResult x.2 x.1 RForward]))). rewrite under_app_.
    apply everya_app; [by eapply everya_turn|apply everya_plain; by repeat constructor].
  - change (everya (t ++ [Obs b (OVisit x.2 x.1 e)]) (under b (ks ++ [OResult x.2 x.1 RForward] ++ ks'))). rewrite !under_app_.
    apply everya_app; [by eapply everya_turn|]. apply everya_app; [apply everya_plain; by repeat constructor|apply IH].
Qed.
Lemma everya_handling tb t b cur st y T o : handling ch U tb t b cur st y T o → everya t T.
Proof.
  intros [T' o' Hh]. apply everya_app; [apply everya_plain; by repeat constructor|].
  assert (∀ t fe xe x ks o'' k t0, search ch U t0 fe xe x ks o'' → refuses k = false →
    everya t (under (Some xe) (OHandle x.2 xe :: ks) ++ under b [k])) as Hgo.
  { intros t1 fe xe x ks o'' k t0 Hs Hk. apply everya_app; [|apply everya_plain; by repeat constructor].
    apply (everya_app t1 [_]); [apply everya_none; by repeat constructor|]. by eapply everya_search. }
  destruct Hh; [apply everywhere_nil|..]; by eapply Hgo.
Qed.
Lemma everya_dispatch e t ls T o : dispatch ch U e t ls T o → everya t T.
Proof.
  induction 1 as [t|t x ls ks T o Hl Hs Hd IH|t x ls ks r Hl Hs Hr|t x ls ks y T o Hl Hs Hh].
  - apply everywhere_nil.
  - apply everya_app; [by eapply everya_search|done].
  - by eapply everya_search.
  - apply everya_app; [by eapply everya_search|by eapply everya_handling].
Qed.
Lemma ending_refuses t fe ks : ending ch t fe ks → Forall (λ k, refuses k = false) ks.
Proof. intros (ks' & -> & [Hq _]). apply Forall_app. split; [by apply quiet_refuses|by repeat constructor]. Qed.
Lemma everya_one_event t e T o : one_event ch U t e T o → everya t T.
Proof.
  assert (∀ t, everya t (under None [ODone])) as Hdn by (intros; apply everya_plain; by repeat constructor).
  intros H. destruct H as [ls T r _ H _|ls T ks y _ H Hc|ls T y ks _ H Hen];
    (apply everya_app; [apply everya_plain; by repeat constructor|]; apply everya_app; [by eapply everya_dispatch|]); [done|..].
  - apply everya_app; [|done]. apply everya_plain. constructor; [done|]. by eapply called_refuses.
  - apply everya_app; [|done]. apply everya_plain. by eapply ending_refuses.
Qed.
Lemma everya_defers t e o : everya t (under None (defers e o)).
Proof. apply everya_plain. destruct o as [[]|]; by repeat constructor. Qed.
Lemma everya_refused t e y : everya t (under None (refused e y)).
Proof.
  simpl. apply everywhere_cons; [|apply everya_none; by repeat constructor]. split; [eauto|by split].
Qed.
Lemma everya_event_loop n t T o : event_loop ch U n t T o → everya t T.
Proof.
  induction 1 as [n t|t|n t e T r T' o H1 _ IH|n t e T y H1|n t e T y H1]; try apply everywhere_nil;
    (apply everya_app; [apply everya_plain; by repeat constructor|]).
  - apply everya_app; [by eapply everya_one_event|]. apply everya_app; [apply everya_defers|]. by rewrite <-!app_assoc.
  - by eapply everya_one_event.
  - apply everya_app; [by eapply everya_one_event|]. apply everya_refused.
Qed.
Lemma everya_processing n t e T o : processing ch U n t e T o → everya t T.
Proof.
  intros [T' r T'' o' H1 H2|T' y H1|T' y H1]; (apply everya_app; [apply everya_plain; by repeat constructor|]).
  - apply everya_app; [by eapply everya_one_event|]. apply everya_app; [apply everya_defers|]. rewrite <-!app_assoc. by eapply everya_event_loop.
  - by eapply everya_one_event.
  - apply everya_app; [by eapply everya_one_event|]. apply everya_refused.
Qed.
Lemma everya_translated t (P : list okind → outcome → Prop) T o : (∀ ks r, P ks (Done r) → Forall (λ k, refuses k = false) ks) →
  (∀ ks y, P ks (Threw y) → ∃ Q, stops ch Q y ks) → translated ch U t P T o → everya t T.
Proof.
  intros H1 H2 H. destruct H as [ks r Hk|ks y T r Hk Hh|ks y T y' ks' Hk Hh Hen].
  - apply everya_plain. by eapply H1.
  - destruct (H2 _ _ Hk) as [Q HQ]. apply everya_app; [by eapply everya_stops|by eapply everya_handling].
  - destruct (H2 _ _ Hk) as [Q HQ]. apply everya_app; [by eapply everya_stops|]. apply everya_app; [by eapply everya_handling|].
    apply everya_plain. by eapply ending_refuses.
Qed.
Lemma everya_terminating t T o : terminating ch U t T o → everya t T.
Proof. apply everya_translated; [intros ks r; apply ending_refuses|]. intros ks y Hk. by eexists. Qed.
Lemma everya_starting t T o : translated ch U t (starts ch t) T o → everya t T.
Proof. apply everya_translated; [intros ks r [Hq _]; by apply quiet_refuses|]. intros ks y Hk. by eexists. Qed.
Lemma everya_story o t T r : story ch U o t T r → everya t T.
Proof.
  destruct o as [n| |n e|e|c k|c k]; cbn [story]; intros H.
  - destruct H as [T y H|T T' y H H'|T T' T'' o H H' H''].
    + by eapply everya_terminating.
    + apply everya_app; [by eapply everya_terminating|by eapply everya_starting].
    + apply everya_app; [by eapply everya_terminating|]. apply everya_app; [by eapply everya_starting|].
      rewrite <-app_assoc. by eapply everya_event_loop.
  - by eapply everya_terminating.
  - by eapply everya_processing.
  - destruct H as [-> _]. apply everya_none; by repeat constructor.
  - destruct H as [-> _]. apply everya_none; by repeat constructor.
  - destruct H as [-> _]. apply everya_none; by repeat constructor.
Qed.
Lemma everya_reach s : reach ch U s → everya [] (tr s).
Proof.
  assert (∀ s o r s', reach ch U s → everya [] (tr s) → op_ok ch o = true →
    op_allowed ch U o s → call ch U o s = (r, s') → everya [] (tr s')) as Hgo.
  { intros s1 o r s' Hr H1 H3 H4 H5. destruct (story_call ch U Hwf HU _ _ _ _ Hr H3 H4 H5) as (T & o' & _ & -> & Hst).
    apply everya_app; [done|]. by eapply everya_story. }
  induction 1 as [w|s o s' Hr IH H1 H2 H3|s o x s' Hr IH H1 H2 H3]; [apply everywhere_nil|by eapply Hgo..].
Qed.
Lemma everya_seen s : seen ch U s → everya [] (tr s).
Proof.
  intros [s' Hs|s' o s1 Hs H1 H2 H3|s' s1 Hs H1].
  - by apply everya_reach.
  - destruct (story_call ch U Hwf HU _ _ _ _ Hs H1 H2 H3) as (T & o' & _ & -> & Hst).
    apply everya_app; [by apply everya_reach|]. by eapply everya_story.
  - destruct (destroyed ch U Hwf HU _ _ _ Hs H1) as (_ & _ & ks & L & -> & Hq & _).
    apply everya_app; [by apply everya_reach|]. apply everya_plain. apply Forall_app. split; [by apply quiet_refuses|by repeat constructor].
Qed.


(** No part of a state is recorded if no state is exited. *)
Definition partial (k : okind) : bool := match k with ORefused (ARecord _ _) => true | _ => false end.
Lemma unrecorded s t o T T' : seen ch U s → tr s = t ++ o :: T ++ T' → quiet (ob o) = false →
  Forall (λ o, ∀ p c, ob o ≠ OExit p c) T → Forall (λ o, partial (ob o) = false) T.
Proof.
  intros Hs E Ho HT. apply Forall_forall. intros [b k] Hin. apply elem_of_list_split in Hin as (T1 & T2 & ->).
  destruct (partial k) eqn:Hp; [exfalso|done]. destruct k; try done. destruct a as [|?|c x|]; try done.
  rewrite <-app_assoc, app_comm_cons, app_assoc in E.
  destruct (everya_seen s Hs (t ++ o :: T1) (Obs b (ORefused (ARecord c x))) (T2 ++ T') E) as (_ & _ & H).
  destruct (H c x eq_refl) as (_ & t0 & p & u & Et & Hu). cbn [ob_trig app] in Et.
  apply app_eq_inv in Et as [(k & -> & Et)|(k & -> & Et)]; (destruct k as [|o1 k]; simpl in Et).
  - injection Et as Eo _. subst o. done.
  - injection Et as Eo Eu. subst. apply Forall_app in Hu as [_ Hu]. apply Forall_cons in Hu as [[Hu _] _]. congruence.
  - injection Et as Eo _. subst o. done.
  - injection Et as Eo Eu. subst. apply Forall_app in HT as [HT _]. apply Forall_app in HT as [_ HT]. apply Forall_cons in HT as [HT _].
    by apply (HT p c).
Qed.
End alloc.
