(** How exceptions end, and what an event that moves nothing leaves alone. *)
From Verif Require Export Asked.

Section outcome.
Context {W : Type} (ch : chart) (U : user W).
Context (Hwf : wf_chart ch = true) (HU : user_ok ch U).

(** ** No exit() while an exception is under way *)
Definition no_exits (T : list obs) : Prop := Forall (λ o, is_exit (ob o) = false) T.
Lemma falling_no_exits T : Forall (λ o, falling (ob o) = true) T → no_exits T.
Proof. intros H. eapply Forall_impl; [exact H|]. by intros [b []]. Qed.
Definition settles (T : list obs) : Prop :=
  ∃ T1 b k T2, T = T1 ++ Obs b k :: T2 ∧ settled k = true ∧ no_exits T1.
Lemma settles_pre T T' : no_exits T → settles T' → settles (T ++ T').
Proof.
  intros H (T1 & b & k & T2 & -> & Hk & H1). exists (T ++ T1), b, k, T2. split; [by rewrite app_assoc|]. split; [done|].
  by apply Forall_app.
Qed.
Lemma settles_cons o T : is_exit (ob o) = false → settles T → settles (o :: T).
Proof. intros H. apply (settles_pre [o]). by repeat constructor. Qed.
Lemma ufate_settles T : ufate T → settles T.
Proof.
  intros (ks & [b m] & T' & -> & H & Hm). cbn in Hm. subst m. exists ks, b, OReset, T'. split; [done|]. split; [done|].
  by apply falling_no_exits.
Qed.
Lemma throw_settles s t1 b y t2 : seen ch U s → tr s = t1 ++ Obs b (OThrow y) :: t2 → undeferred t1 ∨ settles t2.
Proof.
  intros Hs E. pose proof (everyx_seen ch U Hwf HU s Hs) as Hev.
  assert (∀ t1 b k t2, tr s = t1 ++ Obs b k :: t2 → after ch U t1 (Obs b k) t2) as Hat.
  { intros t1' b' k' t2' E'. by apply (Hev t1' (Obs b' k') t2'). }
  destruct (Hat _ _ _ _ E) as [[Hu _]|(ks & [b' m] & T' & -> & Hf & Hm)]; [by left|right]. apply settles_pre; [by apply falling_no_exits|].
  assert (tr s = (t1 ++ Obs b (OThrow y) :: ks) ++ Obs b' m :: T') as E' by by rewrite <-app_assoc.
  cbn [ob] in Hm. destruct m; try done.
  - pose proof (Hat _ _ _ _ E') as (_ & _ & H). apply settles_cons; [done|].
    destruct H as [(xe & p & T0 & _ & _ & ->)|[_ H]]; [|by apply ufate_settles]. apply settles_cons; [done|].
    rewrite cons_middle, app_assoc in E'.
    destruct (Hat _ _ _ _ E') as (c & kh & b0 & m & T1 & -> & Hmm & _ & Hk & _).
    apply settles_pre.
    { apply Forall_map. constructor; [done|]. eapply Forall_impl; [exact Hk|]. by intros k []. }
    destruct Hmm as [->| ->]; [exists [], b0, OHandled, T1; by repeat constructor|]. apply settles_cons; [done|]. apply ufate_settles.
    assert (tr s = (((t1 ++ Obs b (OThrow y) :: ks) ++ [Obs b' (OCatch x)]) ++ Obs (Some xe) (OHandle p xe) :: under (Some xe) (OVisit p c xe :: kh)) ++
      Obs b0 OUnhandled :: T1) as E2 by (rewrite E', <-!app_assoc; done).
    exact (Hat _ _ _ _ E2).
  - exists [], b', ODone, T'. by repeat constructor.
  - apply settles_cons; [done|]. apply ufate_settles. exact (Hat _ _ _ _ E').
Qed.

(** Nothing is recorded either. *)
Lemma latest_stays (rec : list obs → cls → Prop) (del : list obs → Prop) t o T h :
  (∀ T1 T2 h', T = T1 ++ T2 → ¬ rec (t ++ o :: T1) h') → latest rec del (t ++ o :: T) h → latest rec del t h.
Proof.
  intros Hn (t1 & t2 & E & H1 & H2). apply app_eq_inv in E as [(k & -> & E)|(k & -> & E)].
  - exists t1, k. split; [done|]. split; [done|]. intros t3 t4 -> Hne. apply (H2 t3 (t4 ++ o :: T)); [|done].
    by rewrite E, <-app_assoc.
  - destruct k as [|o' k]; simpl in E.
    + subst t2. rewrite app_nil_r in H1, H2. exists t, []. rewrite app_nil_r. split; [done|]. split; [done|].
      intros t3 t4 E3. symmetry in E3. by apply app_eq_nil in E3 as [-> _].
    + injection E as <- ->. exfalso. by apply (Hn k t2 h).
Qed.
Lemma left_normally_not t b y T T1 T2 h x : no_exits T → Forall (λ o, partial (ob o) = false) T → T = T1 ++ T2 →
  ¬ noted (t ++ Obs b (OThrow y) :: T1) h x.
Proof.
  intros Hno Hpa ->. apply Forall_app in Hno as [Hno _]. apply Forall_app in Hpa as [Hpa _].
  destruct x as [z|].
  { intros (t0 & b0 & E). destruct T1 as [|o T1 _] using rev_ind; [by apply app_inj_tail in E as [_ ?]|].
    rewrite app_comm_cons, app_assoc in E. apply app_inj_tail in E as [_ ->]. apply Forall_app in Hpa as [_ Hpa].
    by apply Forall_cons in Hpa as []. }
  intros (t0 & b0 & p & u & b' & E & Hu).
  apply app_eq_inv in E as [(k & -> & E)|(k & -> & E)]; (destruct k as [|o' k]; simpl in E; [done|]).
  - injection E as <- E. assert (Obs b (OThrow y) ∈ u ++ [Obs b' (ODtor p h)]) as Hin.
    { rewrite E. apply elem_of_app. right. by left. }
    apply elem_of_app in Hin as [Hin|Hin%elem_of_list_singleton]; [|done].
    rewrite Forall_forall in Hu. by specialize (Hu _ Hin).
  - injection E as <- ->. apply Forall_app in Hno as [_ Hno]. by apply Forall_cons in Hno as [].
Qed.
Lemma shallow_stays t b y T r h : no_exits T → Forall (λ o, partial (ob o) = false) T →
  shallow_memory ch (t ++ Obs b (OThrow y) :: T) r h → shallow_memory ch t r h.
Proof. intros Hn Hp. apply latest_stays. intros T1 T2 h' ET [[x Hl] _]. by eapply left_normally_not. Qed.
Lemma deep_stays t b y T r h : no_exits T → Forall (λ o, partial (ob o) = false) T →
  deep_memory ch (t ++ Obs b (OThrow y) :: T) r h → deep_memory ch t r h.
Proof. intros Hn Hp. apply latest_stays. intros T1 T2 h' ET [(x & Hl & _) _]. by eapply left_normally_not. Qed.

(** ** Calls that return *)
Definition swallowed (y : exn) (T : list obs) : Prop :=
  ∃ T0 b0 xe p ks b1 T3, T = T0 ++ Obs b0 (OCatch y) :: under (Some xe) (OHandle p xe :: ks) ++ Obs b1 OHandled :: T3 ∧
    Forall (λ o, falling (ob o) = true) T0 ∧ nothrow ks ∧ u_translate U y = Some xe.
Definition smooth (t : list obs) (o : obs) (T : list obs) : Prop :=
  match ob o with OThrow y => swallowed y T | OUnhandled => False | _ => True end.
Notation everys := (everywhere smooth).
Lemma everys_app t T T' : everys t T → everys (t ++ T) T' → everys t (T ++ T').
Proof.
  apply everywhere_app. intros t0 o T0 T1. unfold smooth. destruct (ob o); try done.
  intros (Ta & b0 & xe & p & ks & b1 & T3 & -> & H). exists Ta, b0, xe, p, ks, b1, (T3 ++ T1). split; [|done].
  by rewrite <-app_assoc, <-app_comm_cons, <-app_assoc.
Qed.
Definition smoothk (k : okind) : bool := match k with OThrow _ | OUnhandled => false | _ => true end.
Lemma everys_plain t b ks : Forall (λ k, smoothk k = true) ks → everys t (under b ks).
Proof.
  intros H. revert t. induction H as [|k ks Hk _ IH]; intros t; [apply everywhere_nil|]. simpl. apply everywhere_cons; [|done].
  by destruct k.
Qed.
Lemma still_smooth ks : Forall (λ k, still k = true) ks → nothrow ks → Forall (λ k, smoothk k = true) ks.
Proof. unfold nothrow. rewrite !Forall_forall. intros H1 H2 k Hk. specialize (H1 k Hk). specialize (H2 k Hk). by destruct k. Qed.
Lemma everys_handling t b ks k1 k2 y t0 t' b' cur st T r : ks = k1 ++ OThrow y :: k2 → nothrow k1 →
  Forall (λ k, falling k = true) k2 → Forall (λ k, still k = true) ks →
  handling ch U t0 t' b' cur st y T (Done r) → everys t (under b ks ++ T).
Proof.
  intros -> Hn Hf Hs Hh. inversion Hh as [T' o' Hd]; subst. inversion Hd as [|xe x kh Htr Hl Hsa Hse Hst Hc| |]; subst.
  apply Forall_app in Hs as [Hs1 Hs2]. apply Forall_cons in Hs2 as [_ Hs2]. rewrite under_app_, <-app_assoc.
  apply everys_app; [apply everys_plain; by apply still_smooth|].
  change (under b (OThrow y :: k2)) with (Obs b (OThrow y) :: under b k2). rewrite <-app_comm_cons. apply everywhere_cons.
  { unfold smooth. cbn [ob]. exists (under b k2), b', xe, x.2, kh, b', []. split; [done|].
    split; [by apply Forall_map|]. split; [by eapply search_nothrow|done]. }
  apply everys_app; [apply everys_plain; apply still_smooth; [done|by apply falling_nothrow]|].
  apply everys_app; [apply everys_plain; by repeat constructor|].
  apply everys_app; [|apply everys_plain; by repeat constructor]. apply everys_plain. constructor; [done|].
  apply still_smooth; [by eapply search_still|by eapply search_nothrow].
Qed.
Lemma everys_dispatch e t ls T r : dispatch ch U e t ls T (Done r) → everys t T.
Proof.
  intros H. remember (Done r) as o eqn:Eo in H.
  induction H as [t|t x ls ks T o Hl Hs Hd IH|t x ls ks r' Hl Hs Hr|t x ls ks y T o Hl Hs Hh].
  - apply everywhere_nil.
  - apply everys_app; [|by apply IH]. apply everys_plain, still_smooth; [by eapply search_still|by eapply search_nothrow].
  - apply everys_plain, still_smooth; [by eapply search_still|by eapply search_nothrow].
  - subst o. destruct (search_thrown _ _ _ _ _ _ _ _ Hs) as (k1 & k2 & E & Hn & Hf & _).
    eapply everys_handling; try done. by eapply search_still.
Qed.
Lemma everys_one_event e t T r : one_event ch U t e T (Done r) → everys t T.
Proof.
  intros H. inversion H as [ls T1 r' Hin Hd Hr|ls T1 ks y Hin Hd Hca|]; subst.
  - apply everys_app; [apply everys_plain; by repeat constructor|]. apply everys_app; [by eapply everys_dispatch|].
    apply everys_plain; by repeat constructor.
  - apply everys_app; [apply everys_plain; by repeat constructor|]. apply everys_app; [by eapply everys_dispatch|].
    destruct y; [done|]. inversion Hca as [ks' Hc|]; subst.
    apply everys_app; [|apply everys_plain; by repeat constructor]. apply everys_plain. constructor; [done|].
    eapply Forall_impl; [exact Hc|]. by intros [] [].
Qed.
Lemma defers_smooth e o : Forall (λ k, smoothk k = true) (defers e o).
Proof. destruct o as [[]|]; by repeat constructor. Qed.
Lemma everys_event_loop n t T o : event_loop ch U n t T o → (∀ y, o ≠ Raised y) → everys t T.
Proof.
  intros H Hn. induction H as [n t|t|n t e T r T' o H1 _ IH|n t e T y H1|n t e T y H1]; [apply everywhere_nil..| |by destruct (Hn y)|by destruct (Hn y)].
  apply everys_app; [apply everys_plain; by repeat constructor|]. apply everys_app; [by eapply everys_one_event|].
  apply everys_app; [apply everys_plain, defers_smooth|]. rewrite <-!app_assoc. by apply IH.
Qed.
Lemma everys_translated t (P : list okind → outcome → Prop) T o : translated ch U t P T o → (∀ y, o ≠ Raised y) →
  (∀ ks r, P ks (Done r) → Forall (λ k, smoothk k = true) ks) → (∀ ks y, P ks (Threw y) → ∃ Q, stops ch Q y ks) → everys t T.
Proof.
  intros H Hn H1 H2. destruct H as [ks r Hk|ks y T r Hk Hh|ks y T y' ks' Hk Hh Hen]; [| |by destruct (Hn y')].
  - apply everys_plain. by eapply H1.
  - destruct (H2 _ _ Hk) as [Q HQ]. destruct (stops_thrown _ _ _ _ HQ) as (k1 & k2 & E & F1 & F2).
    eapply everys_handling; try done; [by apply steady_nothrow|]. by eapply dulls_still, stops_dull.
Qed.
Lemma quiet_smooth ks : Forall (λ k, quiet k = true) ks → Forall (λ k, smoothk k = true) ks.
Proof. intros H. eapply Forall_impl; [exact H|]. by intros []. Qed.
Lemma everys_terminating t T o : terminating ch U t T o → (∀ y, o ≠ Raised y) → everys t T.
Proof.
  intros H Hn. eapply everys_translated; [exact H|done|..].
  - intros ks r (ks' & -> & Hq & _). apply Forall_app. split; [by apply quiet_smooth|by repeat constructor].
  - intros ks y Hk. by eexists.
Qed.
Lemma everys_story o t T r : story ch U o t T r → (∀ y, r ≠ Raised y) → everys t T.
Proof.
  intros H Hn. destruct o as [n| |n e|e|c k|c k]; cbn [story] in H.
  - destruct H as [T y H|T T' y H H'|T T' T'' o H H' H'']; [by destruct (Hn y)..|].
    apply everys_app; [by eapply everys_terminating|]. apply everys_app.
    + eapply everys_translated; [exact H'|done|..].
      * intros ks r [Hq _]. by apply quiet_smooth.
      * intros ks y Hk. by eexists.
    + rewrite <-app_assoc. by eapply everys_event_loop.
  - by eapply everys_terminating.
  - destruct H as [T r T' o H1 Hl|T y H1|T y H1]; [|by destruct (Hn y)..].
    apply everys_app; [apply everys_plain; by repeat constructor|]. apply everys_app; [by eapply everys_one_event|].
    apply everys_app; [apply everys_plain, defers_smooth|]. rewrite <-!app_assoc. by eapply everys_event_loop.
  - destruct H as [-> _]. apply everys_plain. by repeat constructor.
  - destruct H as [-> _]. apply everys_plain. by repeat constructor.
  - destruct H as [-> _]. apply everys_plain. by repeat constructor.
Qed.
Lemma returned_swallows s o r s' T T1 b y T2 : reach ch U s → op_ok ch o = true → op_allowed ch U o s →
  call ch U o s = (r, s') → (∀ y, r ≠ Exn y) → tr s' = tr s ++ T → T = T1 ++ Obs b (OThrow y) :: T2 → swallowed y T2.
Proof.
  intros Hr H1 H2 H3 Hn E1 E2. destruct (story_call ch U Hwf HU _ _ _ _ Hr H1 H2 H3) as (T' & o' & He & E & Hst).
  rewrite E1 in E. apply app_inv_head in E as <-.
  assert (∀ y, o' ≠ Raised y) as Hn'. { intros y0 ->. destruct r as [|y1| |]; try done. by destruct (Hn y1). }
  exact (everys_story _ _ _ _ Hst Hn' _ _ _ E2).
Qed.

(** ** Events that move nothing *)
Lemma effect_unmoved t fe e x d ks o : effect ch t fe e x d ks o → ¬ moved ks → Forall (λ k, is_life k = false ∧ k ≠ OReset) ks.
Proof. intros H Hm. destruct H; try (by repeat constructor); exfalso; apply Hm; eexists; by (split; [left|]). Qed.
Lemma calls_unmoved ks : calls ks → Forall (λ k, is_life k = false ∧ k ≠ OReset) ks.
Proof. intros H. eapply Forall_impl; [exact H|]. by intros [] []. Qed.
Lemma turn_unmoved t fe e x ks o : turn ch U t fe e x ks o → ¬ moved ks → Forall (λ k, is_life k = false ∧ k ≠ OReset) ks.
Proof.
  intros H Hm. destruct H as [|? ? ? ? ? ? _ H|? ? ? ? _ H|? ? ? ? _ H| |? ? ? ? ? _ Hc|? ? ? ? ? ? ? _ Hc H];
    try (by constructor); try (by eapply effect_unmoved).
  - constructor; [done|]. destruct Hc; [by apply calls_unmoved|]. apply Forall_app. split; [by apply calls_unmoved|by repeat constructor].
  - constructor; [done|]. apply Forall_app. split; [by apply calls_unmoved|]. eapply effect_unmoved; [done|].
    intros Hm'. apply Hm. rewrite moved_cons, moved_app by done. by right.
Qed.
Lemma search_unmoved t fe e x ks o : search ch U t fe e x ks o → ¬ moved ks → Forall (λ k, is_life k = false ∧ k ≠ OReset) ks.
Proof.
  induction 1 as [x ks r Ht _|x ks y Ht|x ks Ht _|x ks z ks' o Ht _ _ _ IH]; intros Hm;
    rewrite moved_cons in Hm by done; rewrite ?moved_app in Hm; (constructor; [done|]); rewrite ?Forall_app;
    repeat split; try (eapply turn_unmoved; [done|tauto]); try (by repeat constructor).
  constructor; [done|]. apply IH. intros Hm'. apply Hm. right. by rewrite moved_cons.
Qed.
Definition no_catch (T : list obs) : Prop := ∀ y, OCatch y ∉ map ob T.
Lemma dispatch_unmoved e t ls T o : dispatch ch U e t ls T o → no_catch T → ¬ moved (map ob T) →
  Forall (λ o, is_life (ob o) = false ∧ ob o ≠ OReset) T ∧ ∀ y, o ≠ Threw y.
Proof.
  assert (∀ t x ks o, search ch U t true e x ks o → ¬ moved ks →
    Forall (λ o, is_life (ob o) = false ∧ ob o ≠ OReset) (under (Some e) ks)) as Hse.
  { intros t' x ks o' Hs Hm. apply Forall_map. by eapply search_unmoved. }
  induction 1 as [t|t x ls ks T o Hl Hs Hd IH|t x ls ks r' Hl Hs Hr|t x ls ks y T o Hl Hs Hh]; intros Hc Hm.
  - split; [constructor|done].
  - rewrite map_app, map_ob_under, moved_app in Hm. destruct IH as [IH1 IH2].
    + intros y Hy. apply (Hc y). rewrite map_app, elem_of_app. by right.
    + tauto.
    + split; [|done]. apply Forall_app. split; [|done]. eapply Hse; [done|tauto].
  - split; [|done]. rewrite map_ob_under in Hm. by eapply Hse.
  - exfalso. destruct Hh as [T o Hh]. apply (Hc y). rewrite !map_app, !elem_of_app. right. left. by left.
Qed.
Lemma event_unmoved s t1 b e ls T T' : seen ch U s → tr s = t1 ++ Obs b (ODispatch e ls) :: T ++ Obs None ODone :: T' →
  Forall (λ o, ob o ≠ ODone) T → no_catch T → ¬ moved (map ob T) →
  Forall (λ o, is_life (ob o) = false ∧ ob o ≠ OReset) T.
Proof.
  intros Hs E Hnd Hc Hm. destruct (every_seen ch U Hwf HU s Hs) as [Hev _].
  destruct (Hev _ _ _ E) as [_ Hd]. cbn in Hd. destruct Hd as (Ta & r & Tb & Eo & Hone).
  assert (∀ X Y : list obs, Forall (λ o, ob o ≠ ODone) X → T ++ Obs None ODone :: T' = X ++ Obs None ODone :: Y → T = X) as Hu.
  { intros X Y HX EX. apply app_eq_inv in EX as [(k & -> & EX)|(k & -> & EX)];
      (destruct k as [|o k]; [by rewrite app_nil_r|]); simpl in EX; injection EX as <- ->; exfalso.
    - apply Forall_app in Hnd as [_ Hnd]. by apply Forall_cons in Hnd as [].
    - apply Forall_app in HX as [_ HX]. by apply Forall_cons in HX as []. }
  assert (∀ P T0 o0 t0, dispatch ch U e t0 ls T0 o0 → P = T0 → Forall (λ o, ob o ≠ ODone) T0) as Hdd.
  { intros P T0 o0 t0 Hd _. apply (dispatch_innerk ch U) in Hd. eapply Forall_impl; [exact Hd|]. intros [b0 []]; done. }
  inversion Hone as [ls' T0 r' Hin Hd Hr|ls' T0 ks y Hin Hd Hca|ls' T0 y ks Hin Hd Hen]; subst; injection Eo as -> -> Eo.
  - rewrite <-app_assoc in Eo. apply Hu in Eo as ->; [|by eapply Hdd]. by apply dispatch_unmoved in Hd as [].
  - assert (T ++ Obs None ODone :: T' = (T0 ++ under (Some e) (OUnconsumed e :: ks)) ++ Obs None ODone :: Tb) as Eo'.
    { rewrite Eo. simpl. repeat (rewrite <-?app_assoc; simpl). done. }
    assert (Forall (λ o, ob o ≠ ODone) (under (Some e) (OUnconsumed e :: ks)) ∧
      Forall (λ o, is_life (ob o) = false ∧ ob o ≠ OReset) (under (Some e) (OUnconsumed e :: ks))) as [Hk1 Hk2].
    { split; apply Forall_map; (constructor; [done|]); destruct Hca as [ks Hca|ks y Hca]; rewrite ?Forall_app;
        repeat split; try (by repeat constructor); try (by apply calls_unmoved);
        (eapply Forall_impl; [exact Hca|]); by intros [] []. }
    apply Hu in Eo' as ->.
    + apply Forall_app. split; [|done]. apply dispatch_unmoved in Hd as []; [done|..].
      * intros y' Hy'. apply (Hc y'). rewrite map_app, elem_of_app. by left.
      * rewrite map_app, moved_app in Hm. tauto.
    + apply Forall_app. split; [by eapply Hdd|done].
  - exfalso. assert (T ++ Obs None ODone :: T' = (T0 ++ under (Some e) ks) ++ Obs None ODone :: Tb) as Eo'.
    { rewrite Eo. simpl. repeat (rewrite <-?app_assoc; simpl). done. }
    apply Hu in Eo' as ->.
    + apply dispatch_unmoved in Hd as [_ Hd]; [by apply (Hd y)|..].
      * intros y' Hy'. apply (Hc y'). rewrite map_app, elem_of_app. by left.
      * rewrite map_app, moved_app in Hm. tauto.
    + apply Forall_app. split; [by eapply Hdd|]. apply (ending_end ch _ _ (Some e)) in Hen. eapply Forall_impl; [exact Hen|]. by intros o [].
Qed.

Lemma order_unmoved t T : Forall (λ o, is_life (ob o) = false ∧ ob o ≠ OReset) T → order_of ch (t ++ T) = order_of ch t.
Proof.
  intros H. unfold order_of. rewrite map_app, foldl_app. generalize (foldl (order_step ch) [] (map ob t)). 
  induction H as [|[b k] T [Hk _] _ IH]; intros l; [done|]. simpl. rewrite IH. by destruct k.
Qed.
(** Nothing was recorded or erased in [T]. *)
Lemma latest_same (rec : list obs → cls → Prop) (del : list obs → Prop) t T h :
  (∀ T1 o T2, T = T1 ++ o :: T2 → ¬ del (t ++ T1 ++ [o]) ∧ ∀ h', ¬ rec (t ++ T1 ++ [o]) h') →
  latest rec del (t ++ T) h ↔ latest rec del t h.
Proof.
  intros Hn. split.
  - intros (t1 & t2 & E & H1 & H2). apply app_eq_inv in E as [(k & -> & E)|(k & -> & E)].
    + exists t1, k. split; [done|]. split; [done|]. intros t3 t4 -> Hne. apply (H2 t3 (t4 ++ T)); [|done].
      by rewrite E, <-app_assoc.
    + destruct k as [|o k _] using rev_ind.
      * simpl in E. subst t2. rewrite app_nil_r in H1, H2. exists t, []. rewrite app_nil_r. split; [done|]. split; [done|].
        intros t3 t4 E3. symmetry in E3. by apply app_eq_nil in E3 as [-> _].
      * exfalso. rewrite <-app_assoc in E. by apply (Hn k o t2 E) in H1.
  - intros (t1 & t2 & -> & H1 & H2). exists t1, (t2 ++ T). split; [by rewrite <-app_assoc|]. split; [done|].
    intros t3 t4 E Hne. apply app_eq_inv in E as [(k & E & E')|(k & -> & E)].
    + by apply (H2 t3 k).
    + destruct k as [|o k _] using rev_ind.
      * rewrite app_nil_r in *. apply (H2 t2 []); [by rewrite app_nil_r|done].
      * rewrite <-app_assoc in E. destruct (Hn k o t4 E) as [H3 H4]. rewrite <-app_assoc in H3.
        setoid_rewrite <-app_assoc in H4. split; [done|]. intros h' Hh. by apply (H4 h').
Qed.
Lemma left_ends t T o h x : is_life (ob o) = false → partial (ob o) = false → ¬ noted (t ++ T ++ [o]) h x.
Proof.
  intros Ho Hp. destruct x as [z|].
  { intros (t0 & b & E). rewrite app_assoc in E. apply app_inj_tail in E as [_ ->]. done. }
  intros (t0 & b & p & u & b' & E & _). rewrite app_assoc, app_comm_cons, app_assoc in E.
  apply app_inj_tail in E as [_ ->]. done.
Qed.
Lemma shallow_unmoved t T r h : Forall (λ o, is_life (ob o) = false ∧ ob o ≠ OReset ∧ partial (ob o) = false) T → (∀ q, r.1 = Some q → OClearS q r.2 ∉ map ob T) →
  shallow_memory ch (t ++ T) r h ↔ shallow_memory ch t r h.
Proof.
  intros H Hc. apply latest_same. intros T1 [b k] T2 ->. apply Forall_app in H as [_ H]. apply Forall_cons in H as [(Hk & Hk' & Hk2) _]. split.
  - intros (t0 & b0 & k0 & E & Hd). rewrite app_assoc in E. apply app_inj_tail in E as [_ [= -> ->]].
    destruct Hd as [->|(q & -> & Hq)]; [done|]. apply (Hc q Hq). rewrite map_app, elem_of_app. right. by left.
  - intros h' [[x Hl] _]. by eapply left_ends.
Qed.
Lemma deep_unmoved t T r h : Forall (λ o, is_life (ob o) = false ∧ ob o ≠ OReset ∧ partial (ob o) = false) T → (∀ q, r.1 = Some q → OClearD q r.2 ∉ map ob T) →
  deep_memory ch (t ++ T) r h ↔ deep_memory ch t r h.
Proof.
  intros H Hc. apply latest_same. intros T1 [b k] T2 ->. apply Forall_app in H as [_ H]. apply Forall_cons in H as [(Hk & Hk' & Hk2) _]. split.
  - intros (t0 & b0 & k0 & E & Hd). rewrite app_assoc in E. apply app_inj_tail in E as [_ [= -> ->]].
    destruct Hd as [->|(q & -> & Hq)]; [done|]. apply (Hc q Hq). rewrite map_app, elem_of_app. right. by left.
  - intros h' [(x & Hl & _) _]. by eapply left_ends.
Qed.

(** ** unconsumed_event() *)
Lemma unconsumed_shape s t1 b e t2 : seen ch U s → tr s = t1 ++ Obs b (OUnconsumed e) :: t2 →
  ∃ t0 ls T1, t1 = t0 ++ Obs (Some e) (ODispatch e ls) :: T1 ∧ forwards T1 ∧ leaves_asked ch T1 = ls ∧
    Forall (λ o, ob o ≠ ODone ∧ is_throw (ob o) = false ∧ ∀ e', ob o ≠ OUnconsumed e') T1 ∧
    b = Some e ∧ ∃ ks y t3, t2 = under (Some e) ks ++ Obs None ODone :: t3 ∧ called ks y.
Proof.
  intros Hs E. destruct (kept_seen ch U Hwf HU s Hs) as [[Hp _] _].
  destruct (Hp _ _ _ E) as (t0 & ls & T1 & Et & HT). simpl in Et. subst t1.
  assert (tr s = t0 ++ Obs (Some e) (ODispatch e ls) :: (T1 ++ Obs b (OUnconsumed e) :: t2)) as E'.
  { by rewrite E, <-app_assoc. }
  exists t0, ls, T1. split; [done|].
  destruct (event_shape ch U Hwf HU s _ _ _ _ _ Hs E') as (_ & _ & T1' & T2 & T3 & Et & H1 & _ & _ & H2).
  assert (Forall (λ o, ob o ≠ ODone ∧ ∀ e, ob o ≠ OUnconsumed e) T1') as H1'.
  { apply innerk_end. eapply Forall_impl; [exact H1|]. naive_solver. }
  pose proof Et as Et0.
  assert (∃ X, T1' ++ T2 = T1 ++ Obs b (OUnconsumed e) :: X) as [X EX].
  { rewrite app_assoc in Et. apply app_eq_inv in Et as [(k & E0 & Et)|(k & E0 & Et)].
    - exfalso. destruct k as [|o k]; simpl in Et; [done|]. injection Et as <- _. rewrite E0 in HT.
      apply Forall_app in HT as [_ HT]. by apply Forall_cons in HT as [].
    - destruct k as [|o k]; simpl in Et; [done|]. injection Et as <- _. by exists k. }
  assert (∀ Y Z, Forall (λ o, ob o ≠ ODone ∧ ∀ e, ob o ≠ OUnconsumed e) Y → Y = T1 ++ Obs b (OUnconsumed e) :: Z → False) as Hno.
  { intros Y Z HY ->. apply Forall_app in HY as [_ HY]. apply Forall_cons in HY as [[_ HY] _]. by apply (HY e). }
  destruct H2 as [(T0 & p & c & r & -> & _)|[(ks & y & -> & Hc & H3 & H4)|(y & T4 & -> & _ & _ & H3)]].
  - exfalso. rewrite app_nil_r in EX. by eapply Hno.
  - assert (T1 = T1') as ->.
    { simpl in EX. apply app_eq_inv in EX as [(k & E0 & EX)|(k & E0 & EX)]; (destruct k as [|o k]; [by rewrite E0, app_nil_r|]);
        simpl in EX; injection EX as E1 E2; exfalso.
      - subst o. rewrite E0 in H1'. apply (Hno _ k H1' eq_refl).
      - assert (Obs b (OUnconsumed e) ∈ under (Some e) ks) as Hin by (rewrite E2; apply elem_of_app; right; left).
        apply elem_of_list_fmap in Hin as (k' & [= -> <-] & Hk'). by eapply (called_no (OUnconsumed e)). }
    apply app_inv_head in Et0. injection Et0 as -> ->.
    split_and!; try done; [|by eauto]. rewrite Forall_forall in *. intros o Ho. destruct (H1' o Ho). destruct (H1 o Ho) as (_ & _ & _ & ?). done.
  - exfalso. eapply (Hno (T1' ++ _)); [|exact EX]. apply Forall_app. split; [done|]. by constructor.
Qed.
Lemma unconsumed_why s t1 b e t2 : seen ch U s → tr s = t1 ++ Obs b (OUnconsumed e) :: t2 →
  ∃ t0 ls T1, t1 = t0 ++ Obs (Some e) (ODispatch e ls) :: T1 ∧ forwards T1 ∧ leaves_asked ch T1 = ls ∧
    Forall (λ o, ob o ≠ ODone ∧ is_throw (ob o) = false ∧ ∀ e', ob o ≠ OUnconsumed e') T1.
Proof.
  intros Hs E. destruct (unconsumed_shape s t1 b e t2 Hs E) as (t0 & ls & T1 & H1 & H2 & H3 & H4 & _). by exists t0, ls, T1.
Qed.
(** A machine without active states reports every event. *)
Lemma terminated_reports s t1 b e ls t2 : seen ch U s → tr s = t1 ++ Obs b (ODispatch e ls) :: t2 → (∀ x, ¬ lives t1 x) →
  ls = [] ∧ ∃ t3, t2 = Obs (Some e) (OUnconsumed e) :: t3.
Proof.
  intros Hs E Hno. destruct (event_shape ch U Hwf HU s _ _ _ _ _ Hs E) as (_ & Hin & T1 & T2 & T3 & -> & _ & _ & H1 & H2).
  assert (ls = []) as ->. { destruct ls as [|c ls]; [done|]. exfalso. destruct (proj1 (proj2 Hin c)) as [_ [p Hp]]; [left|]. by apply (Hno (c, p)). }
  split; [done|]. rewrite (H1 eq_refl) in *. destruct H2 as [(T0 & p & c & r & _ & _ & E0 & _)|[(ks & y & -> & _)|(y & T4 & _ & ? & _)]].
  - by destruct T0.
  - simpl. eauto.
  - done.
Qed.

(** ** Statements about exception events, triggering_event() and unmoved configurations *)
Lemma handle_outcome s t1 b p xe t2 : seen ch U s → tr s = t1 ++ Obs b (OHandle p xe) :: t2 →
  ∃ ks b' m t3, t2 = under (Some xe) ks ++ Obs b' m :: t3 ∧ (m = OHandled ∨ m = OUnhandled) ∧
    Forall (λ k, still k = true) ks ∧
    (m = OHandled ↔ (∃ q c', last ks = Some (OResult q c' RDiscard)) ∧ (in_state t1 ∨ moved ks)) ∧
    (m = OHandled → nothrow ks ∧ complete ch (t1 ++ under (Some xe) (OHandle p xe :: ks)) ∧
      (md_disp (mode_of t1) ≠ None → ∃ t4, t3 = Obs None ODone :: t4)) ∧
    (m = OUnhandled → ufate t3).
Proof.
  intros Hs E. pose proof (everyx_seen ch U Hwf HU s Hs) as Hev.
  destruct (Hev _ _ _ E) as (c & ks & b' & m & t3 & -> & Hm & _ & Hk & _ & _ & _ & Hi & Hh).
  exists (OVisit p c xe :: ks), b', m, t3. simpl in Hi, Hh.
  assert (Forall (λ k, still k = true) (OVisit p c xe :: ks)) as Hst.
  { constructor; [done|]. eapply Forall_impl; [exact Hk|]. by intros k []. }
  assert (tr s = ((t1 ++ [Obs b (OHandle p xe)]) ++ under (Some xe) (OVisit p c xe :: ks)) ++ Obs b' m :: t3) as E'.
  { rewrite E, <-!app_assoc. done. }
  split_and!; try done.
  - rewrite Hi. rewrite moved_cons by done. destruct ks as [|k ks]; [|done]. simpl. split; [by intros [(q & c' & ?) _]|].
    intros [(q & c' & ?) _]. done.
  - intros ->. destruct (Hh eq_refl) as [H1 H2]. split_and!; [by constructor|done|]. intros Hd. apply (Hev _ _ _ E').
    change (md_disp (mode_of ((t1 ++ [Obs b (OHandle p xe)]) ++ under (Some xe) (OVisit p c xe :: ks))) ≠ None).
    rewrite mode_still by done. by rewrite mode_snoc.
  - intros ->. exact (Hev _ _ _ E').
Qed.
Lemma no_trigger s : seen ch U s → trig (en s) = None ∧ current (tr s) = None.
Proof.
  intros Hs. destruct (every_seen ch U Hwf HU s Hs) as [_ Hm]. split; [|unfold current; by rewrite Hm].
  destruct (seen_backed ch U Hwf HU s Hs) as [a [[_ Ha] Hb _]]. rewrite Ha. apply Hb.
Qed.
Lemma unmoved_unchanged s t1 b e ls T t2 : seen ch U s →
  tr s = t1 ++ Obs b (ODispatch e ls) :: T ++ Obs None ODone :: t2 → Forall (λ o, ob o ≠ ODone) T →
  Forall (λ o, (∀ y, ob o ≠ OCatch y) ∧ moves (ob o) = false) T →
  Forall (λ o, ∀ p c, ob o ≠ OCtor p c ∧ ob o ≠ OExit p c ∧ ob o ≠ ODtor p c ∧ ob o ≠ OCtorThrow p c) T ∧
  (∀ x, lives (t1 ++ Obs b (ODispatch e ls) :: T) x ↔ lives t1 x) ∧
  order_of ch (t1 ++ Obs b (ODispatch e ls) :: T) = order_of ch t1 ∧
  ∀ q i h, (OClearS q i ∉ map ob T → shallow_memory ch (t1 ++ Obs b (ODispatch e ls) :: T) (Some q, i) h ↔ shallow_memory ch t1 (Some q, i) h) ∧
    (OClearD q i ∉ map ob T → deep_memory ch (t1 ++ Obs b (ODispatch e ls) :: T) (Some q, i) h ↔ deep_memory ch t1 (Some q, i) h).
Proof.
  intros Hs E Hd Hc.
  assert (Forall (λ o, is_life (ob o) = false ∧ ob o ≠ OReset) T) as Hu.
  { eapply event_unmoved; [exact Hs|exact E|done| |].
    - intros y [o [Ey Ho]]%elem_of_list_fmap. rewrite Forall_forall in Hc. by apply (proj1 (Hc o Ho) y).
    - apply not_moved, Forall_map. eapply Forall_impl; [exact Hc|]. by intros o []. }
  assert (Forall (λ o, is_life (ob o) = false ∧ ob o ≠ OReset) (Obs b (ODispatch e ls) :: T)) as Hu' by by constructor.
  split_and!.
  - eapply Forall_impl; [exact Hu|]. intros o [Ho _] p c. by destruct (ob o).
  - intros x. symmetry. apply same_objs_app. eapply Forall_impl; [exact Hu'|]. by intros o [].
  - by apply order_unmoved.
  - assert (Forall (λ o, is_life (ob o) = false ∧ ob o ≠ OReset ∧ partial (ob o) = false) (Obs b (ODispatch e ls) :: T)) as Hu2.
    { constructor; [done|]. assert (Forall (λ o, partial (ob o) = false) T) as Hpa.
      { eapply (unrecorded ch U Hwf HU); [exact Hs|exact E|done|]. eapply Forall_impl; [exact Hu|]. intros o [Ho _] p c Eo. by rewrite Eo in Ho. }
      apply Forall_forall. intros o Ho. rewrite Forall_forall in Hu, Hpa. destruct (Hu o Ho). auto. }
    intros q i h. split; intros Hcl.
    + apply shallow_unmoved; [done|]. intros q' [= <-] [?|?]%elem_of_cons; done.
    + apply deep_unmoved; [done|]. intros q' [= <-] [?|?]%elem_of_cons; done.
Qed.
End outcome.
