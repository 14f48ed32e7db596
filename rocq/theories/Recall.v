(** What is entered through history, and what is left when an event or a machine comes to its end. *)
From Verif Require Export Outcome.

(** ** Entering through history *)
(** What follows the lookup of a history: [ks] starts with entering the recalled state. *)
Definition enters (ch : chart) (path : list cls) (c : cls) (ks : list okind) : Prop :=
  ∃ n cs kb, builds ch n path (IState c) cs kb ∧ (kb `prefix_of` ks).
Definition recalled (ch : chart) (k : okind) (ks : list okind) : Prop :=
  match k with
  | OHistS c h => region ch h = region ch c ∧ enters ch [] h ks
  | OHistD c l => encloses ch (parent ch c) l ∧ region ch (hd l (path_below ch (parent ch c) l)) = region ch c ∧
      enters ch (path_below ch (parent ch c) l) l ks
  | _ => True
  end.
Section builds.
Context (ch : chart).
Lemma recalled_app k ks ks' : recalled ch k ks → recalled ch k (ks ++ ks').
Proof.
  assert (∀ path c, enters ch path c ks → enters ch path c (ks ++ ks')) as He.
  { intros path c (n & cs & kb & H1 & H2). exists n, cs, kb. split; [done|]. by apply prefix_app_r. }
  destruct k; try done; simpl; [intros [? ?]|intros (? & ? & ?)]; eauto.
Qed.
Definition recalling (ks : list okind) : Prop := ∀ k1 k k2, ks = k1 ++ k :: k2 → recalled ch k k2.
Lemma recalling_cons k ks : recalled ch k ks → recalling ks → recalling (k :: ks).
Proof.
  intros H1 H2 [|k0 k1] k' k2 E; simpl in E; injection E as -> E; [by subst|]. by apply (H2 k1).
Qed.
Lemma recalling_app ks ks' : recalling ks → recalling ks' → recalling (ks ++ ks').
Proof.
  intros H1 H2 k1 k k2 E. apply app_eq_inv in E as [(k0 & -> & E)|(k0 & -> & E)].
  - destruct k0 as [|k' k0]; simpl in E.
    + by apply (H2 []).
    + injection E as <- ->. apply recalled_app. by apply (H1 k1).
  - by apply (H2 k0).
Qed.
Lemma builds_recalling n path d cs ks : builds ch n path d cs ks → recalling ks.
Proof.
  revert n path d cs ks. apply (builds_mind ch (λ n path d cs ks _, recalling ks) (λ n its cs ks _, recalling ks)).
  - intros. by apply recalling_cons.
  - intros. by apply recalling_cons.
  - intros n c h cs ks Hr Hb IH. apply recalling_cons; [|done]. split; [done|]. by exists n, cs, ks.
  - intros n c l cs ks He Hr Hb IH. apply recalling_cons; [|done]. split; [done|]. split; [done|]. by exists n, cs, ks.
  - intros n k1 k k2 E. by destruct k1.
  - intros. by apply recalling_app.
Qed.
Lemma exits_recalling fe L : recalling (exits fe L).
Proof.
  intros k1 k k2 E. destruct (exits_elem k fe L) as (y & _ & [->|[_ ->]]); [|done..]. rewrite E, elem_of_app. right. by left.
Qed.
Lemma transit_plan_recalling t fe e x d act ks : transit_plan ch t fe e x d act ks → recalling ks.
Proof.
  intros (cc & z & cx & L1 & L2 & n & cs & kb & _ & _ & _ & _ & _ & _ & _ & _ & _ & _ & _ & _ & Hb & ->).
  apply recalling_app; [|by eapply builds_recalling]. apply recalling_app; [apply exits_recalling|].
  apply recalling_app; [|apply exits_recalling]. intros k1 k k2 E. destruct act as [a|]; [|by destruct k1].
  destruct k1 as [|? [|]]; simpl in E; [|done..]. by injection E as <- _.
Qed.
(** With an interruption. *)
Lemma prefix_cases {A} (l1 l2 l : list A) : l1 `prefix_of` l → l2 `prefix_of` l → l1 `prefix_of` l2 ∨ l2 `prefix_of` l1.
Proof.
  revert l2 l. induction l1 as [|x l1 IH]; intros l2 l H1 H2; [left; apply prefix_nil|].
  destruct l2 as [|y l2]; [right; apply prefix_nil|]. destruct H1 as [k1 ->], H2 as [k2 E]. simpl in E. injection E as <- E.
  destruct (IH l2 (l1 ++ k1)) as [H|H]; [by exists k1|by exists k2| |].
  - left. by apply prefix_cons.
  - right. by apply prefix_cons.
Qed.
End builds.

Section recall.
Context {W : Type} (ch : chart) (U : user W).
Context (Hwf : wf_chart ch = true) (HU : user_ok ch U).

(** As far as the entering went. *)
Definition enters_upto (path : list cls) (c : cls) (ks : list okind) (k : option okind) : Prop :=
  ∃ n cs kb, builds ch n path (IState c) cs kb ∧
    (kb `prefix_of` lifes ks ∨ lifes ks `prefix_of` kb ∧ ∃ y, k = Some (OThrow y)).
Lemma enters_interrupted path c ks rest k : enters ch path c (lifes ks ++ rest) → rest = [] ∨ (∃ y, k = Some (OThrow y)) →
  enters_upto path c ks k.
Proof.
  intros (n & cs & kb & H1 & H2) H3. exists n, cs, kb. split; [done|]. destruct H3 as [->|H3]; [left; by rewrite app_nil_r in H2|].
  destruct (prefix_cases kb (lifes ks) _ H2) as [?|?]; [by apply prefix_app_r|by left|by right].
Qed.
Lemma transit_recalls s t1 b p c d t2 ks k k1 k' k2 :
  seen ch U s → tr s = t1 ++ Obs b (OTransit p c d) :: t2 → spans b t2 ks k → ks = k1 ++ k' :: k2 →
  match k' with
  | OHistS c h => region ch h = region ch c ∧ enters_upto [] h k2 k
  | OHistD c l => encloses ch (parent ch c) l ∧ region ch (hd l (path_below ch (parent ch c) l)) = region ch c ∧
      enters_upto (path_below ch (parent ch c) l) l k2 k
  | _ => True
  end.
Proof.
  intros Hs E Hsp Ek. destruct (transit_at ch U Hwf HU _ _ _ _ _ _ _ Hs E) as (e & act & ks' & k0 & rest & _ & H1 & H2 & H3).
  destruct (spans_unique _ _ _ _ _ _ Hsp H1) as [<- ->]. apply transit_plan_recalling in H2.
  assert (rest = [] ∨ ∃ y, Some k0 = Some (OThrow y)) as Hr by naive_solver.
  rewrite Ek, lifes_app in H2.
  destruct k'; try done; rewrite lifes_cons, <-app_assoc in H2 by done; specialize (H2 _ _ _ eq_refl); cbn in H2.
  - destruct H2 as [? H2]. split; [done|]. by eapply enters_interrupted.
  - destruct H2 as (? & ? & H2). split; [done|]. split; [done|]. by eapply enters_interrupted.
Qed.

(** ** Nothing is remembered *)
Lemma latest_erased (rec : list obs → cls → Prop) (del : list obs → Prop) ta T :
  del ta → ta ≠ [] → (∀ h, ¬ rec ta h) → (∀ T1 o T2 h, T = T1 ++ o :: T2 → ¬ rec (ta ++ T1 ++ [o]) h) →
  ∀ h, ¬ latest rec del (ta ++ T) h.
Proof.
  intros Hd Hne H0 HT h (t1 & t2 & E & H1 & H2). apply app_eq_inv in E as [(k & -> & E)|(k & -> & E)].
  - destruct k as [|o k]; [rewrite app_nil_r in *; by apply (H0 h)|].
    destruct (H2 (o :: k) T) as [H3 _]; [by rewrite E|done|done].
  - destruct k as [|o k _] using rev_ind; [rewrite app_nil_r in H1; by apply (H0 h)|].
    rewrite <-app_assoc in E. by apply (HT k o t2 h E).
Qed.
Lemma not_left t o h x : is_life (ob o) = false → partial (ob o) = false → ¬ noted (t ++ [o]) h x.
Proof. intros H1 H2. by apply (left_ends t []). Qed.
Lemma reset_forgets t b T : Forall (λ o, is_life (ob o) = false ∧ partial (ob o) = false) T →
  (∀ r h, ¬ shallow_memory ch (t ++ Obs b OReset :: T) r h) ∧ (∀ r h, ¬ deep_memory ch (t ++ Obs b OReset :: T) r h).
Proof.
  intros HT. rewrite cons_middle, app_assoc.
  assert (t ++ [Obs b OReset] ≠ []) as Hne by by destruct t.
  assert (∀ T1 o T2 h x, T = T1 ++ o :: T2 → ¬ noted ((t ++ [Obs b OReset]) ++ T1 ++ [o]) h x) as Hl.
  { intros T1 o T2 h x ->. apply Forall_app in HT as [_ HT]. apply Forall_cons in HT as [[? ?] _]. by apply left_ends. }
  split; intros r h; apply latest_erased; try done.
  - exists t, b, OReset. auto.
  - intros h' [[x Hh] _]. by apply not_left in Hh.
  - intros T1 o T2 h' E [[x Hh] _]. by eapply Hl.
  - exists t, b, OReset. auto.
  - intros h' [(x & Hh & _) _]. by apply not_left in Hh.
  - intros T1 o T2 h' E [(x & Hh & _) _]. by eapply Hl.
Qed.
(** Clearing one region. *)
Lemma clear_forgets_shallow t b q i T : (∀ T1 o T2 h x, T = T1 ++ o :: T2 → region ch h = (Some q, i) → ¬ noted (t ++ Obs b (OClearS q i) :: T1 ++ [o]) h x) →
  ∀ h, ¬ shallow_memory ch (t ++ Obs b (OClearS q i) :: T) (Some q, i) h.
Proof.
  intros HT. rewrite cons_middle, app_assoc. apply latest_erased.
  - exists t, b, (OClearS q i). eauto.
  - by destruct t.
  - intros h' [[x Hh] _]. by apply not_left in Hh.
  - intros T1 o T2 h' E ([x Hh] & Hr & _). rewrite <-app_assoc in Hh. by eapply HT.
Qed.
Lemma clear_forgets_deep t b q i T : (∀ T1 o T2 h x c, T = T1 ++ o :: T2 → region ch c = (Some q, i) → within ch c h →
    ¬ noted (t ++ Obs b (OClearD q i) :: T1 ++ [o]) h x) →
  ∀ h, ¬ deep_memory ch (t ++ Obs b (OClearD q i) :: T) (Some q, i) h.
Proof.
  intros HT. rewrite cons_middle, app_assoc. apply latest_erased.
  - exists t, b, (OClearD q i). eauto.
  - by destruct t.
  - intros h' [(x & Hh & _) _]. by apply not_left in Hh.
  - intros T1 o T2 h' E ((x & Hh & c & Hc & Hr & _) & _). rewrite <-app_assoc in Hh. by eapply HT.
Qed.
(** Other regions, and the other kind of history. *)
Lemma clear_keeps t b k r h : is_life k = false → k ≠ OReset → partial k = false →
  ((∀ q, r = (Some q, r.2) → k ≠ OClearS q r.2) → shallow_memory ch (t ++ [Obs b k]) r h ↔ shallow_memory ch t r h) ∧
  ((∀ q, r = (Some q, r.2) → k ≠ OClearD q r.2) → deep_memory ch (t ++ [Obs b k]) r h ↔ deep_memory ch t r h).
Proof.
  intros H1 H2 H3. split; intros Hq.
  - apply shallow_unmoved; [by repeat constructor|]. intros q Er Hin%elem_of_list_singleton. destruct r; simpl in *; subst.
    by apply (Hq q).
  - apply deep_unmoved; [by repeat constructor|]. intros q Er Hin%elem_of_list_singleton. destruct r; simpl in *; subst.
    by apply (Hq q).
Qed.

(** ** The end of a call *)
Lemma call_seen s o r s' : reach ch U s → op_ok ch o = true → op_allowed ch U o s → call ch U o s = (r, s') → seen ch U s'.
Proof.
  intros Hr H1 H2 H3. destruct (story_call ch U Hwf HU _ _ _ _ Hr H1 H2 H3) as (T & o' & He & _ & _).
  destruct r as [[]|y|f|]; [apply seen_reach; by eapply reach_ret|apply seen_reach; by eapply reach_exn|by destruct o'|by eapply seen_busy].
Qed.
Lemma account_plain t T : OReset ∉ map ob T →
  received (t ++ T) = received t ++ omap_ob (λ k, match k with OPost e | OProcess e => Some e | _ => None end) T.
Proof.
  induction T as [|[b k] T IH] using rev_ind; intros HT; [by rewrite !app_nil_r|].
  rewrite map_app, elem_of_app in HT. unfold received in *. rewrite (app_assoc t), account_snoc, omap_ob_app.
  rewrite (app_assoc (ac_in (account_of t))), <-IH by tauto. unfold omap_ob. simpl.
  destruct k; simpl; rewrite ?app_nil_r; try done.
  - destruct a; by rewrite ?app_nil_r.
  - by destruct r.
  - exfalso. apply HT. right. by left.
Qed.
Lemma received_plain t T : t = [] ∨ (∃ t0 b, t = t0 ++ [Obs b OReset]) → OReset ∉ map ob T →
  received (t ++ T) = omap_ob (λ k, match k with OPost e | OProcess e => Some e | _ => None end) T.
Proof.
  intros Ht HT. rewrite account_plain by done. destruct Ht as [->|(t0 & b & ->)]; [done|]. unfold received at 1. by rewrite account_snoc.
Qed.
Lemma lost_plain t T : t = [] ∨ (∃ t0 b, t = t0 ++ [Obs b OReset]) → OReset ∉ map ob T →
  lost (t ++ T) = omap_ob (λ k, match k with ORefused (ADefer e) => Some e | _ => None end) T.
Proof.
  intros Ht. assert (lost t = []) as Hl by (destruct Ht as [->|(t0 & b & ->)]; [done|]; unfold lost; by rewrite account_snoc).
  clear Ht. induction T as [|[b k] T IH] using rev_ind; intros HT; [by rewrite app_nil_r|].
  rewrite map_app, elem_of_app in HT. unfold lost in *. rewrite (app_assoc t), account_snoc, omap_ob_app, <-IH by tauto.
  unfold omap_ob. simpl. destruct k; simpl; rewrite ?app_nil_r; try done.
  - destruct a; by rewrite ?app_nil_r.
  - by destruct r.
  - exfalso. apply HT. right. by left.
Qed.
Lemma process_queued_drains n (s : mst W heapst) s' : process_queued ch U n s = (Ret tt, s') → queue (en s') = [].
Proof.
  revert s. induction n as [|n IH]; intros s H; simpl in H; unfold bind, gets in H; destruct (queue (en s)) eqn:E; try done.
  - injection H as <-. done.
  - injection H as <-. done.
  - destruct (on_env _ s) as [[[]| | |] s1]; try done. destruct (send_event ch U e s1) as [[r| | |] s2]; try done.
    destruct (defer_if U r e s2) as [[[]| | |] s3]; try done. by eapply IH.
Qed.
Lemma call_drains s o s' : (∃ n, o = OpInitiate n) ∨ (∃ n e, o = OpProcess n e) → call ch U o s = (Ret tt, s') → queue (en s') = [].
Proof.
  intros [(n & ->)|(n & e & ->)]; simpl; unfold initiate, process_event, bind.
  - destruct (terminate ch U s) as [[[]| | |] s1]; try done.
    destruct (with_trig _ _ s1) as [[[]| | |] s2]; try done. apply process_queued_drains.
  - destruct (emit _ s) as [[[]| | |] s1]; try done. destruct (send_event ch U e s1) as [[r| | |] s2]; try done.
    destruct (defer_if U r e s2) as [[[]| | |] s3]; try done. apply process_queued_drains.
Qed.

(** ** How dispatching ends *)
Definition last_throw (T : list obs) : option exn :=
  match last T with Some (Obs _ (OThrow y)) => Some y | _ => None end.
Lemma last_throw_app T o : last_throw (T ++ [o]) = match ob o with OThrow y => Some y | _ => None end.
Proof. unfold last_throw. rewrite last_snoc. by destruct o as [b []]. Qed.
Lemma last_throw_under T b k : last_throw (T ++ under b [k]) = match k with OThrow y => Some y | _ => None end.
Proof. apply (last_throw_app T (Obs b k)). Qed.
Lemma last_throw_suffix T T' : last_throw T' = None → T' ≠ [] → last_throw (T ++ T') = None.
Proof.
  destruct T' as [|o T' _] using rev_ind; [done|]. rewrite app_assoc, !last_throw_app. done.
Qed.
Lemma search_done_last t fe e x ks r b : search ch U t fe e x ks (Done r) → last_throw (under b ks) = None ∧ ks ≠ [].
Proof.
  intros H. apply search_last in H as (ks' & p & c & ->). rewrite under_app_. split; [by rewrite last_throw_under|]. by destruct ks'.
Qed.
Lemma dispatch_done_last e t ls T r : dispatch ch U e t ls T (Done r) → last_throw T = None.
Proof.
  intros H. remember (Done r) as o eqn:Eo. induction H as [t|t x ls ks T o Hl Hs Hd IH|t x ls ks r' Hl Hs Hr|t x ls ks y T o Hl Hs Hh]; subst.
  - done.
  - destruct T as [|o' T]; [rewrite app_nil_r; by eapply search_done_last|]. apply last_throw_suffix; [by apply IH|done].
  - by eapply search_done_last.
  - inversion Hh as [T' o' Hh']; subst. inversion Hh'; subst. rewrite !app_assoc. by rewrite last_throw_under.
Qed.
Lemma ending_dones t fe b ks : ending ch t fe ks → Forall (λ o, ob o ≠ ODone) (under b ks).
Proof. intros H. eapply Forall_impl; [by eapply ending_end|]. by intros ? []. Qed.
Lemma one_event_last t e T o : one_event ch U t e T o → ∃ T', T = T' ++ [Obs None ODone] ∧ Forall (λ o, ob o ≠ ODone) T' ∧
  ∀ y, last_throw T' = Some y → o = Threw y.
Proof.
  assert (∀ ls T o, innermost ch t ls → dispatch ch U e (t ++ under (Some e) [ODispatch e ls]) ls T o → Forall (λ o, ob o ≠ ODone) T) as Hdd.
  { intros ls T0 o0 Hin Hd. apply dispatch_innerk in Hd. eapply Forall_impl; [apply innerk_end; exact Hd|]. by intros ? []. }
  intros H. destruct H as [ls T r Hin Hd Hr|ls T ks y Hin Hd Hc|ls T y ks Hin Hd Hen].
  - exists (under (Some e) [ODispatch e ls] ++ T). split; [by rewrite <-app_assoc|]. split.
    + apply Forall_app. split; [by repeat constructor|by eapply Hdd].
    + intros y. apply dispatch_done_last in Hd as Hl. destruct T as [|o T]; [done|]. by rewrite last_throw_suffix.
  - exists (under (Some e) [ODispatch e ls] ++ T ++ under (Some e) (OUnconsumed e :: ks)). split; [by rewrite <-!app_assoc|]. split.
    + rewrite !Forall_app. split_and!; [by repeat constructor|by eapply Hdd|]. constructor; [done|]. apply Forall_map.
      apply Forall_forall. intros k Hk Ek. cbn in Ek. subst k. by eapply (called_no ODone).
    + rewrite app_assoc. intros y' Hy. destruct Hc as [ks Hk|ks y Hk].
      * exfalso. rewrite last_throw_suffix in Hy; [done| |done]. destruct ks as [|k ks _] using rev_ind; [done|].
        rewrite app_comm_cons, under_app_, last_throw_under. apply Forall_app in Hk as [_ Hk]. apply Forall_cons in Hk as [[Hk _] _]. by destruct k.
      * rewrite app_comm_cons, under_app_, app_assoc, last_throw_under in Hy. by injection Hy as ->.
  - exists (under (Some e) [ODispatch e ls] ++ T ++ under (Some e) ks). split; [by rewrite <-!app_assoc|]. split.
    + rewrite !Forall_app. split_and!; [by repeat constructor|by eapply Hdd|by eapply ending_dones].
    + intros y' Hy. exfalso. destruct (ending_last _ _ _ _ Hen) as [ks' ->].
      by rewrite under_app_, !app_assoc, last_throw_under in Hy.
Qed.

(** ** An exception thrown by unconsumed_event() *)
(** An exception that is directly followed by the end of the event is the last thing that happens. *)
Definition last_word (T : list obs) (o : ending_of) : Prop :=
  ∀ T1 b y b' T2, T = T1 ++ Obs b (OThrow y) :: Obs b' ODone :: T2 → T2 = [] ∧ o = Raised y.
Lemma last_word_none T o : Forall (λ o, ob o ≠ ODone) T → last_word T o.
Proof.
  intros H T1 b y b' T2 ->. apply Forall_app in H as [_ H]. apply Forall_cons in H as [_ H]. by apply Forall_cons in H as [].
Qed.
Lemma last_word_pre T T' o : Forall (λ o, ob o ≠ ODone) T → last_throw T = None → last_word T' o → last_word (T ++ T') o.
Proof.
  intros H1 H2 H3 T1 b y b' T2 E. apply app_eq_inv in E as [(k & E0 & E)|(k & E0 & E)]; [|by eapply H3].
  destruct k as [|o1 [|o2 k]]; simpl in E.
  - by apply (H3 [] b y b').
  - injection E as <- _. rewrite E0, last_throw_app in H2. done.
  - injection E as <- <- _. subst T. apply Forall_app in H1 as [_ H1]. apply Forall_cons in H1 as [_ H1]. by apply Forall_cons in H1 as [].
Qed.
Lemma last_word_event t e T o T' r : one_event ch U t e T (Done r) → last_word T' o → last_word (T ++ T') o.
Proof.
  intros H H3. destruct (one_event_last _ _ _ _ H) as (T0 & -> & H1 & H2). rewrite <-app_assoc. apply last_word_pre; [done| |].
  - destruct (last_throw T0) as [y|] eqn:E; [|done]. by specialize (H2 _ eq_refl).
  - intros [|o1 T1] b y b' T2 E; [done|]. injection E as <- E. by eapply H3.
Qed.
Lemma last_word_raised t e T y : one_event ch U t e T (Threw y) → last_word T (Raised y).
Proof.
  intros H T1 b y' b' T2 E. destruct (one_event_last _ _ _ _ H) as (T0 & -> & H1 & H2).
  destruct T2 as [|o T2 _] using rev_ind.
  - split; [done|]. rewrite (cons_middle _ T1), app_assoc in E. apply app_inj_tail in E as [-> _]. rewrite last_throw_app in H2.
    specialize (H2 _ eq_refl). by injection H2 as ->.
  - exfalso. rewrite !app_comm_cons, app_assoc in E. apply app_inj_tail in E as [-> _]. apply Forall_app in H1 as [_ H1].
    apply Forall_cons in H1 as [_ H1]. by apply Forall_cons in H1 as [].
Qed.
Lemma last_word_defers e o T o' : last_word T o' → last_word (under None (defers e o) ++ T) o'.
Proof. intros H. apply last_word_pre; [| |done]; destruct o as [[]|]; by repeat constructor. Qed.
Lemma last_word_loop n t T o : event_loop ch U n t T o → last_word T o.
Proof.
  induction 1 as [n t|t|n t e T r T' o H1 _ IH|n t e T y H1|n t e T y H1].
  - by apply last_word_none.
  - by apply last_word_none.
  - apply last_word_pre; [by repeat constructor|done|]. eapply last_word_event; [done|]. by apply last_word_defers.
  - apply last_word_pre; [by repeat constructor|done|]. by eapply last_word_raised.
  - apply last_word_pre; [by repeat constructor|done|]. eapply last_word_event; [done|]. apply last_word_none. by repeat constructor.
Qed.
Lemma stops_dones P y ks b : stops ch P y ks → Forall (λ o, ob o ≠ ODone) (under b ks).
Proof. intros H. apply stops_dull in H. apply Forall_map. eapply Forall_impl; [exact H|]. by intros []. Qed.
Lemma handling_dones tb t b cur st y T o : handling ch U tb t b cur st y T o → Forall (λ o, ob o ≠ ODone) T ∧ last_throw T = None.
Proof.
  intros H. destruct H as [T o H].
  assert (∀ t e x ks o, search ch U t false e x ks o → Forall (λ o, ob o ≠ ODone) (under (Some e) ks)) as Hse.
  { intros t0 e x ks o0 Hs. apply search_innerk in Hs. apply Forall_map. eapply Forall_impl; [exact Hs|]. by intros []. }
  split.
  - apply Forall_app. split; [by repeat constructor|]. destruct H as [|xe x ks ? ? ? Hs|xe x ks r ? ? ? Hs|xe x ks y' ? ? ? Hs]; [constructor|..];
      (apply Forall_app; split; [|by repeat constructor]); (constructor; [done|]); by eapply Hse.
  - destruct H; [done|..]; by rewrite app_assoc, last_throw_under.
Qed.
Lemma last_throw_mid T T' : last_throw T' = None → last_throw T = None → last_throw (T ++ T') = None.
Proof. intros H1 H2. destruct T' as [|o T']; [by rewrite app_nil_r|]. by apply last_throw_suffix. Qed.
Lemma translated_dones t (P : list okind → outcome → Prop) T o : (∀ ks r, P ks (Done r) → Forall (λ k, k ≠ ODone) ks ∧ last_throw (under None ks) = None) →
  (∀ ks y, P ks (Threw y) → ∃ Q, stops ch Q y ks) → translated ch U t P T o → Forall (λ o, ob o ≠ ODone) T ∧ last_throw T = None.
Proof.
  intros H1 H2 H. destruct H as [ks r Hk|ks y T r Hk Hh|ks y T y' ks' Hk Hh Hen].
  - destruct (H1 _ _ Hk) as [? ?]. split; [|done]. by apply Forall_map.
  - destruct (H2 _ _ Hk) as [Q HQ]. apply handling_dones in Hh as Hd. destruct Hd as [Hd1 Hd2]. split.
    + apply Forall_app. split; [by eapply stops_dones|done].
    + destruct Hh. by apply last_throw_suffix.
  - destruct (H2 _ _ Hk) as [Q HQ]. apply handling_dones in Hh as Hd. destruct Hd as [Hd1 Hd2]. split.
    + rewrite !Forall_app. split_and!; [by eapply stops_dones|done|by eapply ending_dones].
    + destruct (ending_last _ _ _ _ Hen) as [ke ->]. by rewrite under_app_, !app_assoc, last_throw_under.
Qed.
Lemma terminating_dones t T o : terminating ch U t T o → Forall (λ o, ob o ≠ ODone) T ∧ last_throw T = None.
Proof.
  apply translated_dones.
  - intros ks r Hk. split.
    + apply (ending_dones _ _ None), (proj1 (Forall_map _ _ _)) in Hk. done.
    + destruct (ending_last _ _ _ _ Hk) as [ke ->]. by rewrite under_app_, last_throw_under.
  - intros ks y Hk. by eexists.
Qed.
Lemma quiet_dones ks b : Forall (λ k, quiet k = true) ks → Forall (λ k, k ≠ ODone) ks ∧ last_throw (under b ks) = None.
Proof.
  intros Hq. split; [eapply Forall_impl; [exact Hq|]; by intros []|].
  destruct ks as [|k ks _] using rev_ind; [done|]. rewrite under_app_, last_throw_under. apply Forall_app in Hq as [_ Hq].
  apply Forall_cons in Hq as [Hq _]. by destruct k.
Qed.
Lemma starting_dones t T o : translated ch U t (starts ch t) T o → Forall (λ o, ob o ≠ ODone) T ∧ last_throw T = None.
Proof.
  apply translated_dones.
  - intros ks r [Hq _]. by apply quiet_dones.
  - intros ks y Hk. by eexists.
Qed.
Lemma last_word_story o t T r : story ch U o t T r → last_word T r.
Proof.
  destruct o as [n| |n e|e|c k|c k]; cbn [story]; intros H.
  - destruct H as [T y H|T T' y H H'|T T' T'' o H H' H''].
    + apply last_word_none. by eapply terminating_dones.
    + apply last_word_none. apply Forall_app. split; [by eapply terminating_dones|by eapply starting_dones].
    + apply terminating_dones in H as []. apply starting_dones in H' as [].
      apply last_word_pre; [done|done|]. apply last_word_pre; [done|done|]. by eapply last_word_loop.
  - apply last_word_none. by eapply terminating_dones.
  - destruct H as [T r T' o H1 Hl|T y H1|T y H1].
    + apply last_word_pre; [by repeat constructor|done|]. eapply last_word_event; [done|]. apply last_word_defers. by eapply last_word_loop.
    + apply last_word_pre; [by repeat constructor|done|]. by eapply last_word_raised.
    + apply last_word_pre; [by repeat constructor|done|]. eapply last_word_event; [done|]. apply last_word_none. by repeat constructor.
  - destruct H as [-> _]. by apply last_word_none; repeat constructor.
  - destruct H as [-> _]. by apply last_word_none; repeat constructor.
  - destruct H as [-> _]. by apply last_word_none; repeat constructor.
Qed.
(** ... and nothing else changes. *)
Lemma omap_ob_none f T : Forall (λ o, f (ob o) = None) T → omap_ob f T = [].
Proof. induction 1 as [|o T H _ IH]; [done|]. unfold omap_ob in *. simpl. by rewrite H. Qed.
Lemma split_unique {A} (P : A → Prop) l1 x1 r1 l2 x2 r2 : Forall P l1 → Forall P l2 → ¬ P x1 → ¬ P x2 →
  l1 ++ x1 :: r1 = l2 ++ x2 :: r2 → l1 = l2 ∧ x1 = x2 ∧ r1 = r2.
Proof.
  intros H. revert l2. induction H as [|y l1 Hy _ IH]; intros l2 H2 N1 N2 E.
  - destruct l2 as [|z l2]; simpl in E; injection E as -> ->; [done|]. by apply Forall_cons in H2 as [].
  - destruct l2 as [|z l2]; simpl in E; injection E as -> E; [done|]. apply Forall_cons in H2 as [_ H2].
    by destruct (IH l2 H2 N1 N2 E) as (-> & -> & ->).
Qed.
Lemma unconsumed_throw s o r s' T T1 b e kc y T2 : reach ch U s → op_ok ch o = true → op_allowed ch U o s →
  call ch U o s = (r, s') → seen ch U s' → tr s' = tr s ++ T → T = T1 ++ under b (OUnconsumed e :: kc ++ [OThrow y]) ++ T2 → Forall (λ k, user_call k = true) kc →
  r = Exn y ∧ T2 = [Obs None ODone] ∧
  (∀ x, active s' x ↔ lives (tr s ++ T1) x) ∧
  queue (en s') = pending (tr s ++ T1) ++ posts (under b kc) ∧ deferred (en s') = waiting (tr s ++ T1).
Proof.
  intros Hr H1 H2 H3 Hs' E ET Hk.
  assert (tr s' = (tr s ++ T1) ++ Obs b (OUnconsumed e) :: (under b (kc ++ [OThrow y]) ++ T2)) as E'.
  { rewrite E, ET. by rewrite <-app_assoc. }
  destruct (unconsumed_shape ch U Hwf HU _ _ _ _ _ Hs' E') as (_ & _ & _ & _ & _ & _ & _ & -> & ks & y' & t3 & Ek & Hc).
  rewrite under_app_, <-app_assoc in Ek. cbn in Ek.
  assert (calls kc) as Hk' by (eapply Forall_impl; [exact Hk|]; by intros []).
  assert (∀ ks, calls ks → Forall (λ o, quiet (ob o) = true) (under (Some e) ks)) as Hu.
  { intros ks0 H0. apply Forall_map. eapply Forall_impl; [exact H0|]. by intros k []. }
  assert (T2 = Obs None ODone :: t3) as ->.
  { destruct Hc as [ks Hks|ks y' Hks].
    - apply (split_unique (λ o, quiet (ob o) = true)) in Ek as (_ & ? & _); [done|by apply Hu|by apply Hu|done|done].
    - rewrite under_app_, <-app_assoc in Ek. cbn in Ek.
      apply (split_unique (λ o, quiet (ob o) = true)) in Ek as (_ & _ & ->); [done|by apply Hu|by apply Hu|done|done]. }
  destruct (story_call ch U Hwf HU _ _ _ _ Hr H1 H2 H3) as (T' & o' & He & ET' & Hst).
  rewrite E in ET'. apply app_inv_head in ET' as <-.
  destruct (last_word_story _ _ _ _ Hst (T1 ++ under (Some e) (OUnconsumed e :: kc)) (Some e) y None t3) as [-> ->].
  { rewrite ET, app_comm_cons, under_app_. cbn. by repeat (rewrite <-app_assoc; cbn). }
  assert (r = Exn y) as -> by (destruct r as [|y1| |]; try done; cbn in He; by injection He as ->).
  split; [done|]. split; [done|].
  assert (tr s' = (tr s ++ T1) ++ under (Some e) (OUnconsumed e :: kc ++ [OThrow y]) ++ [Obs None ODone]) as E2 by by rewrite E'.
  assert (undisturbed (under (Some e) (OUnconsumed e :: kc ++ [OThrow y]) ++ [Obs None ODone])) as Hun.
  { apply Forall_app. split; [|by repeat constructor]. apply Forall_map. constructor; [done|]. apply Forall_app.
    split; [|by repeat constructor]. eapply Forall_impl; [exact Hk|]. by intros []. }
  split; [|destruct (seen_truthful ch U Hwf HU _ Hs') as [Htr _]; rewrite E2 in Htr; destruct (truthful_fifo _ _ _ Htr Hun) as [F1 F2];
    destruct (seen_queues ch U Hwf HU _ Hs') as [-> ->]; rewrite E2].
  - intros x. rewrite (seen_active ch U Hwf HU _ _ Hs'), E2. symmetry. apply same_objs_app.
    apply Forall_app. split; [|by repeat constructor]. apply Forall_map. constructor; [done|]. apply Forall_app.
    split; [|by repeat constructor]. eapply Forall_impl; [by apply calls_unmoved|]. by intros k [].
  - assert (∀ f, (∀ k, user_call k = true → f k = None) → f (OThrow y) = None → f (OUnconsumed e) = None → f ODone = None →
      omap_ob f (under (Some e) (OUnconsumed e :: kc ++ [OThrow y]) ++ [Obs None ODone]) = []) as Hom.
    { intros f Hf Hf1 Hf2 Hf3. apply omap_ob_none. apply Forall_app. split; [|by repeat constructor]. apply Forall_map. constructor; [done|]. apply Forall_app.
    split; [|by repeat constructor]. eapply Forall_impl; [exact Hk|]. apply Hf. }
    unfold takes, deferrals in F1, F2. rewrite Hom in F1 by (done || by intros []). rewrite Hom in F2 by (done || by intros []).
    rewrite app_nil_r in F2. split; [|done]. rewrite app_nil_l in F1. rewrite F1. f_equal. unfold posts. rewrite omap_ob_app.
    change (under (Some e) (OUnconsumed e :: kc ++ [OThrow y])) with (under (Some e) ([OUnconsumed e] ++ kc ++ [OThrow y])).
    rewrite !under_app_, !omap_ob_app. simpl. by rewrite !app_nil_r.
Qed.

(** ** A cleared machine *)
(** Nothing is waiting and nothing is remembered. *)
Definition cleared (s : mst W heapst) : Prop :=
  queue (en s) = [] ∧ deferred (en s) = [] ∧
  (∀ r h, shallow_map (en s) !! r ≠ Some (Some h)) ∧ (∀ r h, deep_map (en s) !! r ≠ Some (Some h)).
Lemma queues_dones t T : Forall (λ o, ob o = ODone) T → queues (t ++ T) = queues t.
Proof.
  intros H. revert t. induction H as [|[b k] T Hk _ IH]; intros t; [by rewrite app_nil_r|]. cbn in Hk. subst k.
  rewrite cons_middle, app_assoc, IH. by rewrite queues_snoc.
Qed.
Lemma reset_cleared s t b T : seen ch U s → tr s = t ++ Obs b OReset :: T → Forall (λ o, ob o = ODone) T → cleared s.
Proof.
  intros Hs E HT.
  assert (queues (tr s) = ([], [])) as Hq by (rewrite E, cons_middle, app_assoc, queues_dones by done; by rewrite queues_snoc).
  destruct (seen_queues ch U Hwf HU _ Hs) as [Q1 Q2]. unfold pending, waiting in Q1, Q2. rewrite Hq in Q1, Q2.
  destruct (reset_forgets t b T) as [F1 F2]; [eapply Forall_impl; [exact HT|]; by intros [? []]|]. rewrite <-E in F1, F2.
  split_and!; [done|done|intros r h Hh..].
  - by apply (F1 r h), (seen_shallow ch U Hwf HU).
  - by apply (F2 r h), (seen_deep ch U Hwf HU).
Qed.
Lemma end_plan_gone t fe b ks : end_plan ch t fe (lifes ks) → ∀ x, ¬ lives (t ++ under b (ks ++ [OReset])) x.
Proof.
  intros (L & HL & _ & EL).
  assert (∀ x, ODtor x.2 x.1 ∈ ks ↔ lives t x) as Hd.
  { intros x. rewrite <-HL. rewrite <-(elem_exits_dtor x fe L), <-EL. by rewrite elem_lifes. }
  intros x [Hc Hn]. rewrite map_app, map_ob_under, !elem_of_app in Hc, Hn. apply Hn. right. left. apply Hd.
  destruct Hc as [Hc|[Hc|Hc]].
  - split; [done|]. tauto.
  - exfalso. assert (OCtor x.2 x.1 ∈ lifes ks) as Hin by by apply elem_lifes. rewrite EL in Hin. by eapply exits_no_ctor.
  - by apply elem_of_list_singleton in Hc.
Qed.
Lemma terminate_cleared s s' T : reach ch U s → call ch U OpTerminate s = (Ret tt, s') → tr s' = tr s ++ T →
  (∀ y, OThrow y ∉ map ob T) → terminated s' = true ∧ (∀ x, ¬ active s' x) ∧ cleared s'.
Proof.
  intros Hr Hc E Hn.
  assert (seen ch U s') as Hs' by (apply seen_reach; eapply reach_ret; [exact Hr| | |exact Hc]; done).
  destruct (terminate_call ch U Hwf HU _ _ _ _ Hr Hc E) as (ks & k & rest & Hsp & Hp & [(-> & -> & _ & ->)|(y & ->)]).
  - rewrite app_nil_r in Hp. 
    assert (∀ x, ¬ active s' x) as Hna.
    { intros x Hx. apply (seen_active ch U Hwf HU _ _ Hs') in Hx. rewrite E in Hx. by eapply end_plan_gone. }
    split_and!; [by apply (terminated_iff ch U Hwf HU)|done|]. rewrite under_app_, app_assoc in E.
    eapply reset_cleared; [done|exact E|constructor].
  - exfalso. destruct Hsp as (_ & _ & b' & T' & ->). apply (Hn y). rewrite map_app, elem_of_app. right. by left.
Qed.
Lemma escape_cleared s o y s' T : reach ch U s → op_ok ch o = true → op_allowed ch U o s → call ch U o s = (Exn y, s') →
  tr s' = tr s ++ T →
  (∃ T0 e kc, T = T0 ++ under (Some e) (OUnconsumed e :: kc ++ [OThrow y]) ++ under None [ODone] ∧ calls kc) ∨
  (∃ T0 e, T = T0 ++ under None [ODone; ORefused (ADefer e); OThrow y]) ∨
  terminated s' = true ∧ (∀ x, ¬ active s' x) ∧ cleared s'.
Proof.
  intros Hr H1 H2 H3 E. destruct (raised_call ch U Hwf HU s o y s' Hr H1 H2 H3) as (T' & E' & H). rewrite E in E'. apply app_inv_head in E' as <-.
  destruct H as [H|[(_ & T1 & b & T2 & ET & HT2 & Hno)|H]]; [by left|right; right|by right; left].
  assert (seen ch U s') as Hs by (apply seen_reach; by eapply reach_exn).
  assert (∀ x, ¬ active s' x) as Hna. { intros x Hx. apply (Hno x). rewrite <-E. by apply (seen_active ch U Hwf HU). }
  split_and!; [by apply (terminated_iff ch U Hwf HU)|done|]. rewrite ET, app_assoc in E. by eapply reset_cleared.
Qed.
(** terminate(), whatever happens: either an exception was translated and handled, or everything is gone. *)
Lemma terminate_cases s r s' T : reach ch U s → call ch U OpTerminate s = (r, s') → tr s' = tr s ++ T →
  (r = Ret tt ∧ OReset ∉ map ob T ∧ (∃ T', T = T' ++ under None [OHandled]) ∧
    ∃ y xe, OThrow y ∈ map ob T ∧ u_translate U y = Some xe) ∨
  (∃ T', T = T' ++ under None [OReset]) ∧ terminated s' = true ∧ (∀ x, ¬ active s' x) ∧ cleared s'.
Proof.
  intros Hr Hc E. destruct (story_call ch U Hwf HU s OpTerminate r s' Hr eq_refl I Hc) as (T' & o' & He & E' & Hst).
  rewrite E in E'. apply app_inv_head in E' as <-. simpl in Hst.
  pose proof (terminating_outerk ch U _ _ _ Hst) as Hk. unfold terminating in Hst.
  destruct Hst as [ks r' Hd|ks y T r' Hd Hh|ks y T y' ks' Hd Hh Hen].
  - right. destruct Hd as (ks' & -> & Hg). split; [exists (under None ks'); by rewrite under_app_|].
    destruct r as [[]|y|f|]; try done. destruct Hg as [Hq _].
    apply (terminate_cleared s s' _ Hr Hc E). intros y Hy. rewrite map_ob_under in Hy.
    apply elem_of_app in Hy as [Hy|Hy%elem_of_list_singleton]; [|done]. rewrite Forall_forall in Hq. by specialize (Hq _ Hy).
  - left. destruct r as [[]|y0|f|]; try done. split; [done|]. destruct Hd as (k1 & g & k2 & rest & -> & Hq1 & Hq2 & _).
    split.
    + rewrite map_app, map_ob_under, elem_of_app. intros [Hx|Hx].
      * apply elem_of_app in Hx as [Hx|Hx]; [rewrite Forall_forall in Hq1; by specialize (Hq1 _ Hx)|].
        apply elem_of_app in Hx as [Hx|Hx]; [destruct g; [|by apply elem_of_nil in Hx]; by apply elem_of_list_singleton in Hx|].
        apply elem_of_cons in Hx as [Hx|Hx]; [done|]. rewrite Forall_forall in Hq2; by specialize (Hq2 _ Hx).
      * apply handling_innerk in Hh; [|done..]. apply elem_of_list_fmap in Hx as (o & Eo & Ho). rewrite Forall_forall in Hh.
        specialize (Hh _ Ho). by rewrite <-Eo in Hh.
    + assert (OThrow y ∈ map ob (under None (k1 ++ refusal g ++ OThrow y :: k2) ++ T)) as Hy.
      { rewrite map_app, map_ob_under, !elem_of_app. left. right. right. by left. }
      inversion Hh as [T2 o2 Hh2]; subst. inversion Hh2; subst. split; [|by eauto].
      eexists. rewrite !app_assoc. reflexivity.
  - right. split; [destruct Hen as (ks2 & -> & _); exists (under None ks ++ T ++ under None ks2); by rewrite under_app_, !app_assoc|].
    destruct r as [[]|y0|f|]; try done. 
    destruct (escape_cleared s OpTerminate y0 s' _ Hr eq_refl I Hc E) as [(T0 & e & kc & ET & _)|[(T0 & e & ET)|H]]; [exfalso..|done];
    rewrite ET in Hk; rewrite !Forall_app in Hk; unfold under in Hk; simpl in Hk; destruct Hk as [_ Hk].
    + destruct Hk as [Hk _]. apply Forall_cons in Hk as [Hk _]. done.
    + apply Forall_cons in Hk as [Hk _]. done.
Qed.

(** ** Clearing history *)
Lemma clear_shallow_call s q i r s' : reach ch U s → op_ok ch (OpClearShallow q i) = true → call ch U (OpClearShallow q i) s = (r, s') →
  r = Ret tt ∧ (∀ h, shallow_map (en s') !! (Some q, i) ≠ Some (Some h)) ∧
  (∀ r' h, r' ≠ (Some q, i) → shallow_map (en s') !! r' = Some (Some h) ↔ shallow_map (en s) !! r' = Some (Some h)) ∧
  (∀ r' h, deep_map (en s') !! r' = Some (Some h) ↔ deep_map (en s) !! r' = Some (Some h)).
Proof.
  intros Hr H1 H3. pose proof (call_seen s _ r s' Hr H1 I H3) as Hs'.
  destruct (story_call ch U Hwf HU _ _ _ _ Hr H1 I H3) as (T & o' & He & E & Hst). destruct Hst as [-> ->].
  apply seen_reach in Hr as Hs. split_and!.
  - by destruct r as [[]| | |].
  - intros h Hh. apply (seen_shallow ch U Hwf HU _ _ _ Hs') in Hh. rewrite E in Hh. revert Hh.
    apply (clear_forgets_shallow (tr s) None q i []). by intros [].
  - intros r' h Hne. rewrite (seen_shallow ch U Hwf HU _ _ _ Hs'), (seen_shallow ch U Hwf HU _ _ _ Hs), E.
    apply (clear_keeps (tr s) None (OClearS q i)); [done|done|done|]. intros q' Er [= -> ->]. by apply Hne.
  - intros r' h. rewrite (seen_deep ch U Hwf HU _ _ _ Hs'), (seen_deep ch U Hwf HU _ _ _ Hs), E.
    by apply (clear_keeps (tr s) None (OClearS q i)).
Qed.
Lemma clear_deep_call s q i r s' : reach ch U s → op_ok ch (OpClearDeep q i) = true → call ch U (OpClearDeep q i) s = (r, s') →
  r = Ret tt ∧ (∀ h, deep_map (en s') !! (Some q, i) ≠ Some (Some h)) ∧
  (∀ r' h, r' ≠ (Some q, i) → deep_map (en s') !! r' = Some (Some h) ↔ deep_map (en s) !! r' = Some (Some h)) ∧
  (∀ r' h, shallow_map (en s') !! r' = Some (Some h) ↔ shallow_map (en s) !! r' = Some (Some h)).
Proof.
  intros Hr H1 H3. pose proof (call_seen s _ r s' Hr H1 I H3) as Hs'.
  destruct (story_call ch U Hwf HU _ _ _ _ Hr H1 I H3) as (T & o' & He & E & Hst). destruct Hst as [-> ->].
  apply seen_reach in Hr as Hs. split_and!.
  - by destruct r as [[]| | |].
  - intros h Hh. apply (seen_deep ch U Hwf HU _ _ _ Hs') in Hh. rewrite E in Hh. revert Hh.
    apply (clear_forgets_deep (tr s) None q i []). by intros [].
  - intros r' h Hne. rewrite (seen_deep ch U Hwf HU _ _ _ Hs'), (seen_deep ch U Hwf HU _ _ _ Hs), E.
    apply (clear_keeps (tr s) None (OClearD q i)); [done|done|done|]. intros q' Er [= -> ->]. by apply Hne.
  - intros r' h. rewrite (seen_shallow ch U Hwf HU _ _ _ Hs'), (seen_shallow ch U Hwf HU _ _ _ Hs), E.
    by apply (clear_keeps (tr s) None (OClearD q i)).
Qed.
(** The chain of states entered through deep history. *)
Lemma transit_chain s t1 b p c d t2 ks k k1 c0 l k2 : seen ch U s → tr s = t1 ++ Obs b (OTransit p c d) :: t2 →
  spans b t2 ks k → ks = k1 ++ OHistD c0 l :: k2 → (∀ y, k ≠ Some (OThrow y)) →
  ∀ q, within ch q l → encloses ch (parent ch c0) q → ∃ n, OCtor n q ∈ k2.
Proof.
  intros Hs E Hsp Ek Hk q Hq He. destruct (transit_recalls _ _ _ _ _ _ _ _ _ _ _ _ Hs E Hsp Ek) as (H1 & H2 & n & cs & kb & Hb & Hp).
  destruct Hp as [[rest Hp]|[_ [y Hy]]]; [|by destruct (Hk y)].
  assert (∀ q, q ∈ cs → ∃ n, OCtor n q ∈ kb) as Hcs.
  { intros q' Hq'. pose proof (builds_ctors ch _ _ _ _ _ Hb) as Hc. destruct (built_ctors n cs) as [B1 _]. rewrite <-B1 in Hq'.
    apply elem_of_list_fmap in Hq' as ([c' m] & -> & Hm). exists m. apply elem_built in Hm. rewrite <-Hc in Hm. by apply elem_of_list_filter in Hm as []. }
  assert (q ∈ cs) as Hin.
  { destruct (builds_path ch _ _ _ _ _ Hb) as (n' & cs' & ks' & H3 & _ & Hb'). apply H3, elem_of_app.
    destruct Hq as [->|Hq]; [right; inversion Hb'; subst; by left|]. left.
    destruct (decide (q ∈ path_below ch (parent ch c0) l)) as [|Hn]; [done|exfalso].
    destruct (outside_path ch Hwf _ _ _ H1 Hq Hn) as [Ec|(q' & Ec & He')]; rewrite Ec in He; apply (encloses_lt ch Hwf) in He; [lia|].
    apply (encloses_lt ch Hwf) in He'. lia. }
  destruct (Hcs q Hin) as [m Hm]. exists m. apply elem_lifes; [done|]. rewrite Hp, elem_of_app. by left.
Qed.
End recall.
