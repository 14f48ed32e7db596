(** Where exception events are sent when terminate() or the initial transition threw. *)
From Verif Require Export Outcome.

Section unstable.
Context {W : Type} (ch : chart) (U : user W).
Context (Hwf : wf_chart ch = true) (HU : user_ok ch U).

(** An exception event is sent while an event is being processed (if [D]), or to a state about which [t1]
    holds. *)
Definition placed (D : Prop) (t1 : list obs → obj → Prop) (t : list obs) (o : obs) (_ : list obs) : Prop :=
  match ob o with
  | OHandle p _ => D ∧ md_disp (mode_of t) ≠ None ∨ ∃ c, lives t (c, p) ∧ t1 t (c, p)
  | _ => True
  end.
Definition handles (k : okind) : bool := match k with OHandle _ _ => true | _ => false end.
Notation everyh D t1 := (everywhere (placed D t1)).

Lemma everyh_app D t1 t T T' : everyh D t1 t T → everyh D t1 (t ++ T) T' → everyh D t1 t (T ++ T').
Proof. by apply everywhere_app. Qed.
Lemma everyh_plain D t1 t b ks : Forall (λ k, handles k = false) ks → everyh D t1 t (under b ks).
Proof.
  intros H. revert t. induction H as [|k ks Hk _ IH]; intros t; [apply everywhere_nil|]. simpl. apply everywhere_cons; [|done].
  by destruct k.
Qed.
Lemma still_handles ks : Forall (λ k, still k = true) ks → Forall (λ k, handles k = false) ks.
Proof. intros H. eapply Forall_impl; [exact H|]. by intros []. Qed.
Lemma dull_handles ks : Forall (λ k, dull k = true) ks → Forall (λ k, handles k = false) ks.
Proof. intros H. by apply still_handles, dulls_still. Qed.

Lemma everyh_handling (D : Prop) t1 t0 t b cur st y T o : handling ch U t0 t b cur st y T o →
  (D ∧ md_disp (mode_of t) ≠ None ∨ (t1 = (λ t, outermost_unstable ch t0 t) ∧ ¬ st ∧ b = None)) → everyh D t1 t T.
Proof.
  intros [T' o' Hh] Hp. apply everyh_app; [apply everyh_plain; by repeat constructor|].
  assert (∀ xe x ks o'' k, lives (t ++ under b [OCatch y]) x → starts_at ch t0 (t ++ under b [OCatch y]) b cur st x →
    search ch U (t ++ under b [OCatch y]) false xe x ks o'' → handles k = false →
    everyh D t1 (t ++ under b [OCatch y]) (under (Some xe) (OHandle x.2 xe :: ks) ++ under b [k])) as Hgo.
  { intros xe x ks o'' k Hl [_ Hsa] Hs Hk. simpl. apply everywhere_cons.
    - unfold placed. cbn [ob]. destruct Hp as [Hp|(-> & Hst & Hbn)].
      + left. split; [apply Hp|]. destruct Hp as [_ Hp]. change (md_disp (mode_of (t ++ under b [OCatch y])) ≠ None). rewrite mode_still; [done|by repeat constructor].
      + right. destruct (Hsa Hst) as (_ & _ & Ho). exists x.1. rewrite <-surjective_pairing. auto.
    - apply everyh_app; [|by apply (everyh_plain _ _ _ b [k]); repeat constructor].
      apply everyh_plain, still_handles. by eapply search_still. }
  destruct Hh; [apply everywhere_nil|..]; by eapply Hgo.
Qed.
Lemma everyh_dispatch (D : Prop) t1 e t ls T o : D → mode_of t = Mode (Some e) None → dispatch ch U e t ls T o → everyh D t1 t T.
Proof.
  intros HD Hm Hd. induction Hd as [t|t x ls ks T o Hl Hs Hd IH|t x ls ks r Hl Hs Hr|t x ls ks y T o Hl Hs Hh].
  - apply everywhere_nil.
  - pose proof (search_still _ _ _ _ _ _ _ _ Hs) as Hss.
    apply everyh_app; [by apply everyh_plain, still_handles|]. apply IH. by rewrite mode_still.
  - apply everyh_plain, still_handles. by eapply search_still.
  - pose proof (search_still _ _ _ _ _ _ _ _ Hs) as Hss.
    apply everyh_app; [by apply everyh_plain, still_handles|]. eapply everyh_handling; [exact Hh|]. left.
    split; [done|]. rewrite mode_still by done. by rewrite Hm.
Qed.
Lemma everyh_one_event (D : Prop) t1 e t T o : D → one_event ch U t e T o → everyh D t1 t T.
Proof.
  intros HD. assert (∀ ls, mode_of (t ++ under (Some e) [ODispatch e ls]) = Mode (Some e) None) as Hm.
  { intros ls. by rewrite mode_app. }
  assert (∀ b t, everyh D t1 t (under b [ODone])) as Hdn by (intros; apply everyh_plain; by repeat constructor).
  intros H. destruct H as [ls T r _ H _|ls T ks y _ H Hc|ls T y ks _ H Hen];
    (apply everyh_app; [apply everyh_plain; by repeat constructor|]; apply everyh_app; [by eapply everyh_dispatch|]); [done|..].
  - apply everyh_app; [|done]. apply everyh_plain. constructor; [done|]. apply dull_handles.
    destruct Hc; [by apply calls_dull|]. apply Forall_app. split; [by apply calls_dull|by repeat constructor].
  - apply everyh_app; [|done]. apply everyh_plain. apply ending_plain in Hen. eapply Forall_impl; [exact Hen|]. by intros [].
Qed.
Lemma everyh_event_loop (D : Prop) t1 n t T o : D → event_loop ch U n t T o → everyh D t1 t T.
Proof.
  intros HD. induction 1 as [n t|t|n t e T r T' o H1 _ IH|n t e T y H1|n t e T y H1].
  - apply everywhere_nil.
  - apply everywhere_nil.
  - apply everyh_app; [apply everyh_plain; by repeat constructor|]. apply everyh_app; [by eapply everyh_one_event|].
    apply everyh_app; [apply everyh_plain, dull_handles, defers_dull|]. by rewrite <-!app_assoc.
  - apply everyh_app; [apply everyh_plain; by repeat constructor|]. by eapply everyh_one_event.
  - apply everyh_app; [apply everyh_plain; by repeat constructor|]. apply everyh_app; [by eapply everyh_one_event|].
    apply everyh_plain. by repeat constructor.
Qed.
Lemma everyh_processing (D : Prop) t1 n t e T o : D → processing ch U n t e T o → everyh D t1 t T.
Proof.
  intros HD [T' r T'' o' H1 H2|T' y H1|T' y H1].
  - apply everyh_app; [apply everyh_plain; by repeat constructor|]. apply everyh_app; [by eapply everyh_one_event|].
    apply everyh_app; [apply everyh_plain, dull_handles, defers_dull|]. rewrite <-!app_assoc. by eapply everyh_event_loop.
  - apply everyh_app; [apply everyh_plain; by repeat constructor|]. by eapply everyh_one_event.
  - apply everyh_app; [apply everyh_plain; by repeat constructor|]. apply everyh_app; [by eapply everyh_one_event|].
    apply everyh_plain. by repeat constructor.
Qed.
Lemma everyh_translated t (P : list okind → outcome → Prop) T o :
  (∀ ks r, P ks (Done r) → Forall (λ k, handles k = false) ks) → (∀ ks y, P ks (Threw y) → ∃ Q, stops ch Q y ks) →
  translated ch U t P T o → everyh False (λ t', outermost_unstable ch t t') t T.
Proof.
  intros HP HP' H.
  assert (∀ ks y, P ks (Threw y) → ∀ b, everyh False (λ t', outermost_unstable ch t t') t (under b ks)) as Hks.
  { intros ks y Hk b. destruct (HP' _ _ Hk) as [Q HQ]. apply everyh_plain, dull_handles. by eapply stops_dull. }
  destruct H as [ks r Hk|ks y T r Hk Hh|ks y T y' ks' Hk Hh Hen].
  - apply everyh_plain. by eapply HP.
  - apply everyh_app; [by eapply Hks|]. eapply everyh_handling; [exact Hh|]. right. split_and!; [done|tauto|done].
  - apply everyh_app; [by eapply Hks|]. apply everyh_app.
    + eapply everyh_handling; [exact Hh|]. right. split_and!; [done|tauto|done].
    + apply everyh_plain. apply ending_plain in Hen. eapply Forall_impl; [exact Hen|]. by intros [].
Qed.
Lemma everyh_terminating t T o : terminating ch U t T o → everyh False (λ t', outermost_unstable ch t t') t T.
Proof.
  intros H. eapply everyh_translated; [| |exact H].
  - intros ks r Hk. apply ending_plain in Hk. eapply Forall_impl; [exact Hk|]. by intros [].
  - intros ks y Hk. by eexists.
Qed.
Lemma everyh_starting t T o : translated ch U t (starts ch t) T o → everyh False (λ t', outermost_unstable ch t t') t T.
Proof.
  intros H. eapply everyh_translated; [| |exact H].
  - intros ks r [Hq _]. eapply Forall_impl; [exact Hq|]. by intros [].
  - intros ks y Hk. by eexists.
Qed.
Lemma starting_empty t T o : translated ch U t (starts ch t) T o → ∀ x, ¬ lives t x.
Proof.
  assert (∀ ks o, starts ch t ks o → ∀ x, ¬ lives t x) as Hgo.
  { intros ks [r|y].
    - intros (_ & H & _). exact H.
    - intros (k1 & g & k2 & r & _ & _ & _ & (H & _) & _). exact H. }
  intros H. destruct H; by eapply Hgo.
Qed.

(** ** Calls *)
Lemma terminate_places s r s' T T1 b p xe T2 : reach ch U s → call ch U OpTerminate s = (r, s') →
  tr s' = tr s ++ T → T = T1 ++ Obs b (OHandle p xe) :: T2 →
  ∃ c, lives (tr s ++ T1) (c, p) ∧ outermost_unstable ch (tr s) (tr s ++ T1) (c, p).
Proof.
  intros Hr H3 E1 E2. destruct (story_call ch U Hwf HU _ _ _ _ Hr (eq_refl : op_ok ch OpTerminate = true) I H3) as (T' & o' & He & E & Hst).
  rewrite E1 in E. apply app_inv_head in E as <-. by destruct (everyh_terminating _ _ _ Hst _ _ _ E2) as [[[] _]|H].
Qed.
Lemma initiate_places n s r s' T T1 b p xe T2 : reach ch U s → op_allowed ch U (OpInitiate n) s →
  call ch U (OpInitiate n) s = (r, s') → tr s' = tr s ++ T → T = T1 ++ Obs b (OHandle p xe) :: T2 →
  md_disp (mode_of (tr s ++ T1)) ≠ None ∨ ∃ T0 T0' c, T1 = T0 ++ T0' ∧ (T0 = [] ∨ ∀ x, ¬ lives (tr s ++ T0) x) ∧
    lives (tr s ++ T1) (c, p) ∧ outermost_unstable ch (tr s ++ T0) (tr s ++ T1) (c, p).
Proof.
  intros Hr Ha H3 E1 E2. destruct (story_call ch U Hwf HU _ _ _ _ Hr (eq_refl : op_ok ch (OpInitiate n) = true) Ha H3) as (T' & o' & He & E & Hst).
  rewrite E1 in E. apply app_inv_head in E as <-. simpl in Hst.
  set (G := λ (t : list obs) (o : obs) (_ : list obs), ∀ p xe, ob o = OHandle p xe →
    md_disp (mode_of t) ≠ None ∨ ∃ T0 T0' c, t = tr s ++ T0 ++ T0' ∧ (T0 = [] ∨ ∀ x, ¬ lives (tr s ++ T0) x) ∧
      lives t (c, p) ∧ outermost_unstable ch (tr s ++ T0) t (c, p)).
  assert (∀ T0 T, (T0 = [] ∨ ∀ x, ¬ lives (tr s ++ T0) x) → everyh False (λ t', outermost_unstable ch (tr s ++ T0) t') (tr s ++ T0) T → everywhere G (tr s ++ T0) T) as HG.
  { intros T0 T3 HT0 Hev T4 o T5 E3 p0 xe0 Eo. specialize (Hev _ _ _ E3). unfold placed in Hev. rewrite Eo in Hev.
    destruct Hev as [[[] _]|(c & Hl & Hou)]. right. exists T0, T4, c. by rewrite app_assoc. }
  assert (everywhere G (tr s) T) as HT.
  { pose proof (HG [] ) as HG0. rewrite app_nil_r in HG0.
    destruct Hst as [T3 y H|T3 T4 y H H'|T3 T4 T5 o H H' H''].
    - apply HG0; [by left|]. by eapply everyh_terminating.
    - apply everywhere_app; [done|apply HG0; [by left|by eapply everyh_terminating]|].
      apply HG; [right; by eapply starting_empty|by eapply everyh_starting].
    - apply everywhere_app; [done|apply HG0; [by left|by eapply everyh_terminating]|].
      apply everywhere_app; [done|apply HG; [right; by eapply starting_empty|by eapply everyh_starting]|].
      rewrite <-app_assoc. intros T6 o6 T7 E6 p6 xe6 Eo. left.
      pose proof (everyh_event_loop True (λ _ _, False) _ _ _ _ I H'' _ _ _ E6) as Hp. unfold placed in Hp. rewrite Eo in Hp.
      destruct Hp as [[_ Hp]|(c & _ & [])]. exact Hp. }
  destruct (HT _ _ _ E2 p xe eq_refl) as [H|(T0 & T0' & c & E & H)]; [by left|right]. exists T0, T0', c. split; [|done].
  by apply app_inv_head in E.
Qed.
Lemma call_places o s r s' T T1 b p xe T2 : reach ch U s → op_ok ch o = true → op_allowed ch U o s →
  call ch U o s = (r, s') → tr s' = tr s ++ T → T = T1 ++ Obs b (OHandle p xe) :: T2 →
  md_disp (mode_of (tr s ++ T1)) = None →
  ∃ T0 T0' c, T1 = T0 ++ T0' ∧ (T0 = [] ∨ (∃ n, o = OpInitiate n) ∧ ∀ x, ¬ lives (tr s ++ T0) x) ∧
    (o = OpTerminate ∨ ∃ n, o = OpInitiate n) ∧
    lives (tr s ++ T1) (c, p) ∧ outermost_unstable ch (tr s ++ T0) (tr s ++ T1) (c, p).
Proof.
  intros Hr Hok Ha H3 E1 E2 Hmd. destruct o as [n| |n e|e|c k|c k].
  - destruct (initiate_places n s r s' T T1 b p xe T2 Hr Ha H3 E1 E2) as [?|(T0 & T0' & c & ? & ? & ? & ?)]; [done|].
    exists T0, T0', c. split_and!; try done; naive_solver.
  - destruct (terminate_places s r s' T T1 b p xe T2 Hr H3 E1 E2) as (c & ? & ?). exists [], T1, c. rewrite app_nil_r. auto.
  - exfalso. destruct (story_call ch U Hwf HU _ _ _ _ Hr Hok Ha H3) as (T' & o' & He & E & Hst).
    rewrite E1 in E. apply app_inv_head in E as <-. simpl in Hst.
    destruct (everyh_processing True (λ _ _, False) _ _ _ _ _ I Hst _ _ _ E2) as [[_ ?]|(c & _ & [])]. done.
  - exfalso. destruct (story_call ch U Hwf HU _ _ _ _ Hr Hok Ha H3) as (T' & o' & He & E & [-> _]).
    rewrite E1 in E. apply app_inv_head in E. rewrite E in E2. by destruct T1 as [|? []].
  - exfalso. destruct (story_call ch U Hwf HU _ _ _ _ Hr Hok Ha H3) as (T' & o' & He & E & [-> _]).
    rewrite E1 in E. apply app_inv_head in E. rewrite E in E2. by destruct T1 as [|? []].
  - exfalso. destruct (story_call ch U Hwf HU _ _ _ _ Hr Hok Ha H3) as (T' & o' & He & E & [-> _]).
    rewrite E1 in E. apply app_inv_head in E. rewrite E in E2. by destruct T1 as [|? []].
Qed.
End unstable.
