(** What a trace says about the innermost states, the waiting events and the recorded history agrees with
    what the machine holds; and how events are passed from one queue to the next. *)
From stdpp Require Import relations.
From Verif Require Export Replay React.

(** ** Vocabulary *)
Definition omap_ob (f : okind → option event) (T : list obs) : list event := omap (λ o, f (ob o)) T.
(** The events posted, deferred, taken from the queue, handed to process_event() and dispatched, in order. *)
Definition posts : list obs → list event := omap_ob (λ k, match k with OPost e => Some e | _ => None end).
Definition deferrals : list obs → list event := omap_ob (λ k, match k with ODefer e => Some e | _ => None end).
Definition takes : list obs → list event := omap_ob (λ k, match k with OTake e => Some e | _ => None end).
Definition dispatches : list obs → list event := omap_ob (λ k, match k with ODispatch e _ => Some e | _ => None end).
(** The events that leave a queue or the hand of the client, in order. *)
Definition arrivals : list obs → list event :=
  omap_ob (λ k, match k with OTake e | OProcess e => Some e | _ => None end).
(** Nothing is released and the machine is not cleared. *)
Definition undisturbed (T : list obs) : Prop := Forall (λ o, ob o ≠ ORelease ∧ ob o ≠ OReset) T.

(** Events received, finished and lost since the machine was last cleared.  An event is finished when its
    dispatching ends, unless the last thing that happened was that a reaction deferred it.  It is lost when it was to
    be deferred and there was no memory. *)
Record account := Account {
  ac_cur : option event;
  ac_dfr : bool;
  ac_in : list event;
  ac_out : list event;
  ac_lost : list event }.
Definition account_step (a : account) (k : okind) : account :=
  match k with
  | OProcess e | OPost e => Account (ac_cur a) false (ac_in a ++ [e]) (ac_out a) (ac_lost a)
  | ODispatch e _ => Account (Some e) false (ac_in a) (ac_out a) (ac_lost a)
  | OResult _ _ RDefer => Account (ac_cur a) true (ac_in a) (ac_out a) (ac_lost a)
  | ODone => Account None false (ac_in a) (ac_out a ++ (if ac_dfr a then [] else option_list (ac_cur a))) (ac_lost a)
  | ORefused (ADefer e) => Account (ac_cur a) false (ac_in a) (ac_out a) (ac_lost a ++ [e])
  | OReset => Account None false [] [] []
  | _ => Account (ac_cur a) false (ac_in a) (ac_out a) (ac_lost a)
  end.
Definition account_of (t : list obs) : account := foldl account_step (Account None false [] [] []) (map ob t).
Definition received (t : list obs) : list event := ac_in (account_of t).
Definition finished (t : list obs) : list event := ac_out (account_of t).
Definition lost (t : list obs) : list event := ac_lost (account_of t).

Lemma omap_ob_app f T T' : omap_ob f (T ++ T') = omap_ob f T ++ omap_ob f T'.
Proof. apply omap_app. Qed.

(** ** Consequences of truthful traces *)
Lemma queues_app t T : queues (t ++ T) = foldl queue_step (queues t) (map ob T).
Proof. unfold queues. by rewrite map_app, foldl_app. Qed.
Lemma truthful_pre ch t T : truthful ch (t ++ T) → truthful ch t.
Proof. intros H t1 b k t2 ->. apply (H t1 b k (t2 ++ T)). by rewrite <-app_assoc. Qed.

(** Between releases, both queues are first-in first-out. *)
Lemma truthful_fifo ch t T : truthful ch (t ++ T) → undisturbed T →
  takes T ++ pending (t ++ T) = pending t ++ posts T ∧ waiting (t ++ T) = waiting t ++ deferrals T.
Proof.
  intros Ht Hu. induction T as [|[b k] T IH] using rev_ind.
  - simpl. by rewrite !app_nil_r.
  - rewrite app_assoc in Ht. apply Forall_app in Hu as [Hu Hk]. apply Forall_cons in Hk as [[Hk1 Hk2] _]. cbn in Hk1, Hk2.
    destruct (IH (truthful_pre _ _ _ Ht) Hu) as [IH1 IH2].
    pose proof (Ht (t ++ T) b k [] eq_refl) as He.
    rewrite (app_assoc t). unfold posts, takes, deferrals in *. rewrite !omap_ob_app. unfold pending, waiting in *.
    rewrite queues_snoc. destruct k; try done; cbn in *; rewrite ?app_nil_r; try done.
    + split; [|done]. rewrite app_assoc, IH1. by rewrite app_assoc.
    + split; [|done]. rewrite <-app_assoc. unfold pending in He.
      destruct (queues (t ++ T)) as [[|e' q] d]; [done|]. cbn in *. by injection He as ->.
    + split; [done|]. by rewrite IH2, <-app_assoc.
Qed.

(** Whether an entry matters for the account. *)
Definition idlek (k : okind) : bool :=
  match k with
  | OProcess _ | OTake _ | ODispatch _ _ | ODone | ODefer _ | ORefused (ADefer _) | OReset => false
  | _ => true
  end.
(** [m] is what is in the hands of the machine. *)
Record balanced (t : list obs) (cur : option event) (m : list event) : Prop := {
  bl_cur : ac_cur (account_of t) = cur;
  bl_eq : received t ≡ₚ m ++ lost t ++ finished t ++ pending t ++ waiting t }.

Lemma account_snoc t b k : account_of (t ++ [Obs b k]) = account_step (account_of t) k.
Proof. unfold account_of. by rewrite map_app, foldl_app. Qed.
Lemma balanced_idle t b k cur m : idlek k = true → balanced t cur m → balanced (t ++ [Obs b k]) cur m.
Proof.
  intros Hk [H1 H2]. split.
  - rewrite account_snoc. destruct k; try done; [by destruct a|by destruct r].
  - unfold received, finished, lost, pending, waiting in *. rewrite queues_snoc, account_snoc.
    destruct k; try done; try (by destruct a); cbn in *; try done.
    + rewrite H2. destruct (queues t) as [q d]; cbn. rewrite <-!app_assoc. do 4 apply Permutation_app_head. apply Permutation_app_comm.
    + by destruct r.
    + rewrite H2. destruct (queues t) as [q d]; cbn. rewrite app_nil_r. do 3 apply Permutation_app_head. apply Permutation_app_comm.
Qed.
Lemma balanced_idles t T cur m : Forall (λ o, idlek (ob o) = true) T → balanced t cur m → balanced (t ++ T) cur m.
Proof.
  intros H. revert t. induction H as [|[b k] T Hk _ IH]; intros t Hb; [by rewrite app_nil_r|].
  rewrite cons_middle, app_assoc. apply IH. by apply balanced_idle.
Qed.
Lemma balanced_reset t b : balanced (t ++ [Obs b OReset]) None [].
Proof.
  split; unfold received, finished, lost, pending, waiting; rewrite ?queues_snoc, account_snoc; done.
Qed.

(** How the entries about events follow each other. *)
Definition enclosed (k : okind) : bool :=
  match k with OProcess _ | OTake _ | ODispatch _ _ | ODone | ODefer _ | ORefused (ADefer _) => false | _ => true end.
Definition ends_deferred (T : list obs) : Prop := ∃ T0 b p c, T = T0 ++ [Obs b (OResult p c RDefer)].
Definition pace (t : list obs) (o : obs) (T : list obs) : Prop :=
  match ob o with
  | OTake e | OProcess e => ∃ ls T', T = Obs (Some e) (ODispatch e ls) :: T'
  | ODispatch e ls =>
      (∃ t0 b k, t = t0 ++ [Obs b k] ∧ (k = OTake e ∨ k = OProcess e)) ∧
      ∃ T1 T2, T = T1 ++ Obs None ODone :: T2 ∧ Forall (λ o, enclosed (ob o) = true) T1 ∧
        (ends_deferred T1 → ∃ T3, T2 = Obs None (ODefer e) :: T3 ∨ ∃ y, T2 = under None (refused e y) ++ T3)
  | ODefer e => ∃ t0 ls T1, t = t0 ++ Obs (Some e) (ODispatch e ls) :: T1 ++ [Obs None ODone] ∧
      Forall (λ o, enclosed (ob o) = true) T1 ∧ ends_deferred T1
  | ORefused (ADefer e) => (∃ t0 ls T1, t = t0 ++ Obs (Some e) (ODispatch e ls) :: T1 ++ [Obs None ODone] ∧
      Forall (λ o, enclosed (ob o) = true) T1 ∧ ends_deferred T1) ∧ ∃ y T', T = Obs None (OThrow y) :: T'
  | OUnconsumed e => ∃ t0 ls T1, t = t0 ++ Obs (Some e) (ODispatch e ls) :: T1 ∧ Forall (λ o, enclosed (ob o) = true) T1
  | _ => True
  end.
Lemma pace_mono t o T T' : pace t o T → pace t o (T ++ T').
Proof.
  unfold pace. destruct (ob o); try done.
  - destruct a; try done. intros [H (y & T0 & ->)]. split; [done|]. by exists y, (T0 ++ T').
  - intros (ls & T0 & ->). by exists ls, (T0 ++ T').
  - intros [H (T1 & T2 & -> & H1 & H2)]. split; [done|]. exists T1, (T2 ++ T'). split; [by rewrite <-app_assoc|]. split; [done|].
    intros H3. destruct (H2 H3) as (T3 & [->|[y ->]]); exists (T3 ++ T'); [by left|]. right. by exists y.
  - intros (ls & T0 & ->). by exists ls, (T0 ++ T').
Qed.
Notation everyp := (everywhere pace).
Lemma everyp_app t T T' : everyp t T → everyp (t ++ T) T' → everyp t (T ++ T').
Proof. apply everywhere_app. intros. by apply pace_mono. Qed.
Lemma everyp_enclosed t T : Forall (λ o, enclosed (ob o) = true ∧ ∀ e, ob o ≠ OUnconsumed e) T → everyp t T.
Proof.
  intros H. revert t. induction H as [|o T [Hk Hk'] _ IH]; intros t; [apply everywhere_nil|]. apply everywhere_cons; [|done].
  unfold pace. destruct (ob o) eqn:E; try done; [by destruct (Hk' e)|by destruct a].
Qed.
Lemma everyp_inside t0 e ls pre T : Forall (λ o, enclosed (ob o) = true) pre → Forall (λ o, enclosed (ob o) = true ∧ ∀ e', ob o = OUnconsumed e' → e' = e) T →
  everyp (t0 ++ Obs (Some e) (ODispatch e ls) :: pre) T.
Proof.
  intros Hp H. revert pre Hp. induction H as [|o T [Hk Hk'] _ IH]; intros pre Hp; [apply everywhere_nil|]. apply everywhere_cons.
  - unfold pace. destruct (ob o) eqn:E; try done; [|by destruct a]. rewrite (Hk' _ eq_refl). eauto.
  - rewrite <-app_assoc. apply (IH (pre ++ [o])). apply Forall_app. split; [done|by repeat constructor].
Qed.
Definition outerk (k : okind) : bool := match k with OUnconsumed _ => false | _ => enclosed k end.
Lemma arrivals_app T T' : arrivals (T ++ T') = arrivals T ++ arrivals T'.
Proof. apply omap_ob_app. Qed.
Lemma dispatches_app T T' : dispatches (T ++ T') = dispatches T ++ dispatches T'.
Proof. apply omap_ob_app. Qed.
Lemma enclosed_none T : Forall (λ o, enclosed (ob o) = true) T → arrivals T = [] ∧ dispatches T = [] ∧ deferrals T = [].
Proof.
  induction 1 as [|[b k] T Hk _ IH]; [done|]. destruct IH as (IH1 & IH2 & IH3). unfold arrivals, dispatches, deferrals, omap_ob in *.
  cbn. destruct k; try done; try (by destruct a); cbn; rewrite ?IH1, ?IH2, ?IH3; done.
Qed.

Section kept.
Context {W : Type} (ch : chart) (U : user W).
Context (Hwf : wf_chart ch = true) (HU : user_ok ch U).

(** *** One event *)
Lemma innerk_enclosed T : Forall (λ o, innerk (ob o) = true) T → Forall (λ o, enclosed (ob o) = true ∧ idlek (ob o) = true) T.
Proof. intros H. eapply Forall_impl; [exact H|]. intros [b []]; done. Qed.
Lemma under_innerk b ks : Forall (λ k, innerk k = true) ks → Forall (λ o, enclosed (ob o) = true ∧ idlek (ob o) = true) (under b ks).
Proof. intros H. apply innerk_enclosed. by apply Forall_map. Qed.
Lemma dispatch_innerk e t ls T o : dispatch ch U e t ls T o → Forall (λ o, innerk (ob o) = true) T.
Proof.
  induction 1 as [t|t x ls ks T o Hl Hs Hd IH|t x ls ks r Hl Hs Hr|t x ls ks y T o Hl Hs Hh]; [constructor|..];
    rewrite ?Forall_app; try split; try (apply Forall_map; by eapply search_innerk); try done. by eapply handling_innerk.
Qed.
Lemma dispatch_last e t ls T r : dispatch ch U e t ls T (Done r) → r ≠ RForward →
  ∃ T0 b k, T = T0 ++ [Obs b k] ∧ ((∃ p c, k = OResult p c r) ∨ k = OHandled ∧ r = RDiscard).
Proof.
  intros H. remember (Done r) as o eqn:Eo in H. induction H as [t|t x ls ks T o Hl Hs Hd IH|t x ls ks r' Hl Hs Hr|t x ls ks y T o Hl Hs Hh]; intros Hne.
  - congruence.
  - destruct (IH Eo Hne) as (T0 & b & k & -> & Hk). exists (under (Some e) ks ++ T0), b, k. split; [by rewrite app_assoc|done].
  - injection Eo as ->. destruct (search_last _ _ _ _ _ _ _ _ Hs) as (k0 & p & c & ->). exists (under (Some e) k0), (Some e), (OResult p c r).
    split; [apply under_app_|]. left. eauto.
  - subst o. inversion Hh as [T0 o0 Hh0]; subst. inversion Hh0 as [|xe z k0 _ _ _ _ _ _| |]; subst.
    exists (under (Some e) ks ++ under (Some e) [OCatch y] ++ under (Some xe) (OHandle z.2 xe :: k0)), (Some e), OHandled.
    split; [by rewrite <-!app_assoc|]. by right.
Qed.
Lemma ending_enclosed t fe b ks : ending ch t fe ks → ∃ T0, under b ks = T0 ++ [Obs b OReset] ∧
  Forall (λ o, enclosed (ob o) = true ∧ idlek (ob o) = true) T0.
Proof.
  intros (k & -> & Hq & _). exists (under b k). split; [apply under_app_|]. apply Forall_map. eapply Forall_impl; [exact Hq|]. by intros [].
Qed.

(** An event from ODispatch to ODone. *)
Lemma one_event_run t e T o : one_event ch U t e T o →
  ∃ ls T1 b k, T = Obs (Some e) (ODispatch e ls) :: T1 ++ [Obs b k; Obs None ODone] ∧
    Forall (λ o, enclosed (ob o) = true ∧ idlek (ob o) = true) T1 ∧ enclosed k = true ∧
    (∀ e', OUnconsumed e' ∈ map ob T1 ++ [k] → e' = e) ∧
    (k = OReset ∧ (∃ y, o = Threw y) ∨ idlek k = true) ∧
    ((∃ p c, k = OResult p c RDefer) ↔ o = Done RDefer).
Proof.
  intros [ls T1 r Hin Hd Hr|ls T1 ks y Hin Hd Hca|ls T1 y ks Hin Hd Hen]; pose proof (dispatch_innerk _ _ _ _ _ Hd) as Hi0;
    pose proof (innerk_enclosed _ Hi0) as Hi;
    assert (∀ e', OUnconsumed e' ∉ map ob T1) as Hun by
      (intros e' (o' & Eo & Ho')%elem_of_list_fmap; rewrite Forall_forall in Hi0; specialize (Hi0 _ Ho'); by rewrite <-Eo in Hi0).
  - destruct (dispatch_last _ _ _ _ _ Hd Hr) as (T0 & b & k & -> & Hk). apply Forall_app in Hi as [Hi Hi'].
    apply Forall_cons in Hi' as [[Hk1 Hk2] _]. exists ls, T0, b, k. split; [simpl; by rewrite <-app_assoc|]. split_and!; try done.
    + intros e' H. exfalso. apply (Hun e'). by rewrite map_app.
    + by right.
    + destruct Hk as [(p & c & ->)|[-> ->]].
      * split; [by intros (? & ? & [= -> -> ->])|]. intros [= ->]. eauto.
      * split; [by intros (? & ? & ?)|done].
  - assert (∃ k0 k, OUnconsumed e :: ks = k0 ++ [k]) as (k0 & k & E).
    { destruct (exists_last (l := OUnconsumed e :: ks)) as (k0 & k & E); [done|]. eauto. }
    assert (Forall (λ k, enclosed k = true ∧ idlek k = true) (k0 ++ [k])) as Hk.
    { rewrite <-E. constructor; [done|]. apply called_innerk in Hca. eapply Forall_impl; [exact Hca|]. by intros []. }
    assert (∀ p c r, k ≠ OResult p c r) as Hne.
    { intros p c r ->. assert (OResult p c r ∈ OUnconsumed e :: ks) as Hin'.
      { rewrite E. apply elem_of_app. right. by left. }
      apply elem_of_cons in Hin' as [?|Hin']; [done|]. revert Hin'. by eapply called_no. }
    apply Forall_app in Hk as [Hk1 Hk2]. apply Forall_cons in Hk2 as [[Hk2 Hk3] _].
    exists ls, (T1 ++ under (Some e) k0), (Some e), k. split; [rewrite E, under_app_, <-!app_assoc; done|]. split_and!; try done.
    + apply Forall_app. split; [done|]. by apply Forall_map.
    + intros e'. rewrite map_app, map_ob_under, <-app_assoc, <-E. intros [?%Hun|[[= ->]|Hin']%elem_of_cons]%elem_of_app; [done|done|].
      exfalso. revert Hin'. by eapply called_no.
    + by right.
    + split; [by intros (p & c & ?%Hne)|]. by destruct y.
  - destruct (ending_enclosed _ _ (Some e) _ Hen) as (T0 & E & HT0). exists ls, (T1 ++ T0), (Some e), OReset. rewrite E.
    split; [rewrite <-!app_assoc; done|]. split_and!; [by apply Forall_app|done| |left; eauto|split; [by intros (? & ? & ?)|done]].
    intros e'. rewrite map_app, <-app_assoc. intros [?%Hun|Hin']%elem_of_app; [done|]. exfalso.
    assert (OUnconsumed e' ∈ ks) as Hk.
    { rewrite <-(map_ob_under (Some e) ks), E, map_app. done. }
    destruct Hen as (k & -> & Hq & _). apply elem_of_app in Hk as [Hk|Hk%elem_of_list_singleton]; [|done].
    rewrite Forall_forall in Hq. by specialize (Hq _ Hk).
Qed.

(** *** Accounts *)
Lemma account_not_deferred t b k : (∀ p c, k ≠ OResult p c RDefer) → ac_dfr (account_of (t ++ [Obs b k])) = false.
Proof. intros H. rewrite account_snoc. destruct k; try done; [by destruct a|]. destruct r; try done. by destruct (H p c). Qed.
Lemma balanced_done_none t b m : balanced t None m → balanced (t ++ [Obs b ODone]) None m.
Proof.
  intros [H1 H2]. split; [by rewrite account_snoc|]. unfold received, finished, lost, pending, waiting in *.
  rewrite account_snoc, queues_snoc. cbn. rewrite H1. cbn. by destruct (ac_dfr _); rewrite app_nil_r.
Qed.
Lemma balanced_done_keep t b cur m : ac_dfr (account_of t) = true → balanced t cur m → balanced (t ++ [Obs b ODone]) None m.
Proof.
  intros H0 [H1 H2]. split; [by rewrite account_snoc|]. unfold received, finished, lost, pending, waiting in *.
  rewrite account_snoc, queues_snoc. cbn. rewrite H0. by rewrite app_nil_r.
Qed.
Lemma balanced_done t e b : ac_dfr (account_of t) = false → balanced t (Some e) [e] → balanced (t ++ [Obs b ODone]) None [].
Proof.
  intros H0 [H1 H2]. split; [by rewrite account_snoc|]. unfold received, finished, lost, pending, waiting in *.
  rewrite account_snoc, queues_snoc. cbn. rewrite H0, H1, H2. cbn. rewrite <-!app_assoc. cbn. by rewrite <-!Permutation_middle.
Qed.
Lemma one_event_balanced t e T o : balanced t None [e] → one_event ch U t e T o →
  balanced (t ++ T) None (match o with Done RDefer => [e] | _ => [] end).
Proof.
  intros Hb Ho. destruct (one_event_run _ _ _ _ Ho) as (ls & T1 & b & k & -> & HT & _ & _ & Hk & Hd).
  assert (balanced (t ++ Obs (Some e) (ODispatch e ls) :: T1) (Some e) [e]) as H1.
  { rewrite cons_middle, app_assoc. apply balanced_idles; [eapply Forall_impl; [exact HT|]; by intros ? []|].
    destruct Hb as [H1 H2]. split; [by rewrite account_snoc|].
    unfold received, finished, lost, pending, waiting in *. by rewrite account_snoc, queues_snoc. }
  change (Obs (Some e) (ODispatch e ls) :: T1 ++ [Obs b k; Obs None ODone])
    with ((Obs (Some e) (ODispatch e ls) :: T1) ++ [Obs b k] ++ [Obs None ODone]). rewrite !app_assoc.
  destruct Hk as [[-> (y & ->)]|Hk].
  - apply balanced_done_none, balanced_reset.
  - pose proof (balanced_idle _ b k _ _ Hk H1) as H2. destruct o as [r|y].
    + destruct (decide (r = RDefer)) as [->|Hne].
      * destruct Hd as [_ Hd]. destruct (Hd eq_refl) as (p & c & ->). eapply balanced_done_keep; [by rewrite account_snoc|done].
      * replace (match r with RDefer => [e] | _ => [] end) with (@nil event) by by destruct r.
        apply (balanced_done _ e); [|done]. apply account_not_deferred. intros p c ->. apply Hne.
        destruct Hd as [Hd _]. assert (Done r = Done RDefer) as [=]; [|done]. eauto.
    + apply (balanced_done _ e); [|done]. apply account_not_deferred. intros p c ->.
      destruct Hd as [Hd _]. assert (Threw y = Done RDefer); [|done]. eauto.
Qed.
Lemma balanced_defer t e r : balanced t None (match r with RDefer => [e] | _ => [] end) →
  balanced (t ++ under None (defers e (Done r))) None [].
Proof.
  destruct r; cbn; rewrite ?app_nil_r; try done. intros [H1 H2]. split; [by rewrite account_snoc|].
  unfold received, finished, lost, pending, waiting in *. rewrite account_snoc, queues_snoc. cbn. rewrite H2. cbn.
  rewrite !app_assoc. by rewrite <-Permutation_cons_append.
Qed.
Lemma balanced_refused t e y : balanced t None [e] → balanced (t ++ under None (refused e y)) None [].
Proof.
  intros Hb. change (refused e y) with ([ORefused (ADefer e)] ++ [OThrow y]). rewrite under_app_, app_assoc.
  apply balanced_idle; [done|]. unfold under. cbn [map]. destruct Hb as [H1 H2]. split; [by rewrite account_snoc|].
  unfold received, finished, lost, pending, waiting in *. rewrite account_snoc, queues_snoc. cbn. rewrite H2. cbn.
  rewrite <-app_assoc. cbn. by rewrite <-Permutation_middle.
Qed.
Lemma balanced_take t e b : truthful ch (t ++ [Obs b (OTake e)]) → balanced t None [] → balanced (t ++ [Obs b (OTake e)]) None [e].
Proof.
  intros Ht [H1 H2]. split; [by rewrite account_snoc|]. pose proof (Ht t b (OTake e) [] eq_refl) as He. cbn in He.
  unfold received, finished, lost, pending, waiting in *. rewrite account_snoc, queues_snoc. cbn. rewrite H2. cbn.
  destruct (queues t) as [[|e' q] d]; [done|]. injection He as ->. cbn. by rewrite <-!Permutation_middle.
Qed.
Lemma balanced_process t e b : balanced t None [] → balanced (t ++ [Obs b (OProcess e)]) None [e].
Proof.
  intros [H1 H2]. split; [by rewrite account_snoc|].
  unfold received, finished, lost, pending, waiting in *. rewrite account_snoc, queues_snoc. cbn. rewrite H2. cbn.
  by rewrite <-Permutation_cons_append.
Qed.
Lemma event_loop_balanced n t T o : truthful ch (t ++ T) → balanced t None [] → event_loop ch U n t T o → balanced (t ++ T) None [].
Proof.
  intros Ht Hb H. induction H as [n t|t|n t e T r T' o H1 _ IH|n t e T y H1|n t e T y H1]; try by rewrite app_nil_r.
  - rewrite !app_assoc in *. apply IH; [done|]. apply balanced_defer. apply (one_event_balanced _ _ _ (Done r)); [|done].
    apply balanced_take; [|done]. do 3 apply truthful_pre in Ht. done.
  - rewrite app_assoc in *. apply (one_event_balanced _ e _ (Threw y)); [|done].
    apply balanced_take; [|done]. by apply truthful_pre in Ht.
  - rewrite !app_assoc in *. apply balanced_refused, (one_event_balanced _ e _ (Done RDefer)); [|done].
    apply balanced_take; [|done]. do 2 apply truthful_pre in Ht. done.
Qed.
Lemma translated_balanced t (P : list okind → outcome → Prop) T o :
  (∀ ks r, P ks (Done r) → Forall (λ k, idlek k = true) ks ∨ ∃ ks', ks = ks' ++ [OReset]) →
  (∀ ks y, P ks (Threw y) → ∃ Q, stops ch Q y ks) → translated ch U t P T o → balanced t None [] → balanced (t ++ T) None [].
Proof.
  intros HP HP' H Hb.
  assert (∀ ks y, P ks (Threw y) → balanced (t ++ under None ks) None []) as Hst.
  { intros ks y Hk. destruct (HP' _ _ Hk) as [Q HQ]. apply balanced_idles; [|done]. apply stops_innerk in HQ.
    eapply Forall_impl; [by apply under_innerk|]. by intros ? []. }
  assert (∀ ks y Th o', P ks (Threw y) → handling ch U t (t ++ under None ks) None None False y Th o' →
    balanced ((t ++ under None ks) ++ Th) None []) as Hh'.
  { intros ks y Th o' Hk Hh. apply balanced_idles; [|by eapply Hst]. apply handling_innerk, innerk_enclosed in Hh.
    eapply Forall_impl; [exact Hh|]. by intros ? []. }
  destruct H as [ks r Hk|ks y T r Hk Hh|ks y T y' ks' Hk Hh Hen].
  - destruct (HP _ _ Hk) as [Hi|(ks' & ->)].
    + apply balanced_idles; [by apply Forall_map|done].
    + rewrite under_app_, app_assoc. apply balanced_reset.
  - rewrite app_assoc. by eapply Hh'.
  - destruct (ending_enclosed _ _ None _ Hen) as (T0 & -> & HT0). rewrite !app_assoc. apply balanced_reset.
Qed.
Lemma quiet_idlek ks : Forall (λ k, quiet k = true) ks → Forall (λ k, idlek k = true) ks.
Proof. intros H. eapply Forall_impl; [exact H|]. by intros []. Qed.
Lemma terminating_balanced t T o : terminating ch U t T o → balanced t None [] → balanced (t ++ T) None [].
Proof.
  intros H. eapply translated_balanced; [| |exact H].
  - intros ks r (k & -> & _). right. eauto.
  - intros ks y Hk. by eexists.
Qed.
Lemma starting_balanced t T o : translated ch U t (starts ch t) T o → balanced t None [] → balanced (t ++ T) None [].
Proof.
  intros H. eapply translated_balanced; [| |exact H].
  - intros ks r [Hq _]. left. by apply quiet_idlek.
  - intros ks y Hk. by eexists.
Qed.
Lemma story_balanced o t T r : truthful ch (t ++ T) → story ch U o t T r → balanced t None [] → balanced (t ++ T) None [].
Proof.
  intros Ht H Hb. destruct o as [n| |n e|e|c k|c k]; cbn [story] in H.
  - destruct H as [T y H|T T' y H H'|T T' T'' o H H' H''].
    + by eapply terminating_balanced.
    + rewrite app_assoc. eapply starting_balanced; [done|]. by eapply terminating_balanced.
    + rewrite !app_assoc in *. eapply event_loop_balanced; [done| |done]. eapply starting_balanced; [done|]. by eapply terminating_balanced.
  - by eapply terminating_balanced.
  - destruct H as [T r T' o H1 Hl|T y H1|T y H1].
    + rewrite !app_assoc in *. eapply event_loop_balanced; [done| |done]. apply balanced_defer. apply (one_event_balanced _ _ _ (Done r)); [|done].
      by apply balanced_process.
    + rewrite app_assoc in *. apply (one_event_balanced _ e _ (Threw y)); [|done]. by apply balanced_process.
    + rewrite !app_assoc in *. apply balanced_refused, (one_event_balanced _ e _ (Done RDefer)); [|done]. by apply balanced_process.
  - destruct H as [-> _]. apply balanced_idles; [by repeat constructor|done].
  - destruct H as [-> _]. apply balanced_idles; [by repeat constructor|done].
  - destruct H as [-> _]. apply balanced_idles; [by repeat constructor|done].
Qed.

(** *** The order of entries *)
Lemma one_event_pace t b k e T o D : k = OTake e ∨ k = OProcess e → one_event ch U (t ++ [Obs b k]) e T o →
  D = under None (defers e o) ∨ (o = Done RDefer ∧ ∃ y, D = under None (refused e y)) →
  everyp t ([Obs b k] ++ T ++ D) ∧ arrivals ([Obs b k] ++ T ++ D) = dispatches ([Obs b k] ++ T ++ D).
Proof.
  intros Hk Ho HD. destruct (one_event_run _ _ _ _ Ho) as (ls & T1 & b' & k' & -> & HT & Hk' & Hun & _ & Hd).
  assert (Forall (λ o, enclosed (ob o) = true) (T1 ++ [Obs b' k'])) as HT'.
  { apply Forall_app. split; [|by repeat constructor]. eapply Forall_impl; [exact HT|]. by intros ? []. }
  assert (ends_deferred (T1 ++ [Obs b' k']) ↔ o = Done RDefer) as Hed.
  { rewrite <-Hd. split.
    - intros (T0 & b0 & p & c & [_ [= _ ->]]%app_inj_tail). eauto.
    - intros (p & c & ->). by exists T1, b', p, c. }
  assert ((Obs (Some e) (ODispatch e ls) :: T1 ++ [Obs b' k'; Obs None ODone]) ++ D =
    Obs (Some e) (ODispatch e ls) :: (T1 ++ [Obs b' k']) ++ Obs None ODone :: D) as ->.
  { cbn. rewrite <-!app_assoc. done. }
  split.
  - cbn [app]. apply everywhere_cons; [by unfold pace; destruct Hk as [->| ->]; cbn [ob]; do 2 eexists|]. apply everywhere_cons.
    { unfold pace. cbn [ob]. split; [eauto 10|]. eexists _, D. split; [done|]. split; [done|]. intros Hx. apply Hed in Hx. subst o.
      destruct HD as [->|[_ [y ->]]]; [eexists; by left|]. exists []. right. exists y. by rewrite app_nil_r. }
    apply everyp_app.
    { apply (everyp_inside (t ++ [Obs b k]) e ls []); [constructor|]. apply Forall_forall. intros o' Ho'.
      rewrite Forall_forall in HT'. split; [by apply HT'|]. intros e' E. apply Hun. apply (elem_of_list_fmap_1 ob) in Ho'.
      by rewrite E, map_app in Ho'. }
    apply everywhere_cons; [done|].
    assert (o = Done RDefer → ∃ t0 ls0 T0, ((((t ++ [Obs b k]) ++ [Obs (Some e) (ODispatch e ls)]) ++ T1 ++ [Obs b' k']) ++ [Obs None ODone] =
      t0 ++ Obs (Some e) (ODispatch e ls0) :: T0 ++ [Obs None ODone]) ∧ Forall (λ o, enclosed (ob o) = true) T0 ∧ ends_deferred T0) as Hw.
    { intros Hx. exists (t ++ [Obs b k]), ls, (T1 ++ [Obs b' k']). split; [by rewrite <-!app_assoc|]. split; [done|]. by apply Hed. }
    destruct HD as [->|[-> [y ->]]].
    + destruct o as [[]|]; try apply everywhere_nil. apply everywhere_one. unfold pace. cbn [ob]. by apply Hw.
    + apply everywhere_cons; [|apply everywhere_one; done]. unfold pace. cbn [ob]. split; [by apply Hw|]. by exists y, [].
  - destruct (enclosed_none _ HT') as (H1 & H2 & _). rewrite arrivals_app, dispatches_app.
    change (arrivals (Obs (Some e) (ODispatch e ls) :: (T1 ++ [Obs b' k']) ++ Obs None ODone :: D))
      with (arrivals ((T1 ++ [Obs b' k']) ++ Obs None ODone :: D)).
    change (dispatches (Obs (Some e) (ODispatch e ls) :: (T1 ++ [Obs b' k']) ++ Obs None ODone :: D))
      with (e :: dispatches ((T1 ++ [Obs b' k']) ++ Obs None ODone :: D)).
    rewrite arrivals_app, dispatches_app, H1, H2. cbn [app].
    destruct HD as [->|[-> [y ->]]]; destruct Hk as [->| ->]; try done; by destruct o as [[]|].
Qed.
Definition paced (t T : list obs) : Prop := everyp t T ∧ arrivals T = dispatches T.
Lemma paced_app t T T' : paced t T → paced (t ++ T) T' → paced t (T ++ T').
Proof. intros [H1 H2] [H3 H4]. split; [by apply everyp_app|]. rewrite arrivals_app, dispatches_app. congruence. Qed.
Lemma paced_enclosed t T : Forall (λ o, outerk (ob o) = true) T → paced t T.
Proof.
  intros H. split; [apply everyp_enclosed; eapply Forall_impl; [exact H|]; by intros [b []]|].
  assert (Forall (λ o, enclosed (ob o) = true) T) as H'; [eapply Forall_impl; [exact H|]; by intros [b []]|].
  destruct (enclosed_none _ H') as (-> & -> & _). done.
Qed.
Lemma one_event_paced t b k e T o T' : k = OTake e ∨ k = OProcess e → one_event ch U (t ++ [Obs b k]) e T o →
  paced (t ++ [Obs b k] ++ T ++ under None (defers e o)) T' →
  paced t ([Obs b k] ++ T ++ under None (defers e o) ++ T').
Proof.
  intros Hk Ho HT'. rewrite (app_assoc T), (app_assoc [_]). apply paced_app; [|done]. eapply one_event_pace; [done|done|by left].
Qed.
Lemma refused_paced t b k e T y : k = OTake e ∨ k = OProcess e → one_event ch U (t ++ [Obs b k]) e T (Done RDefer) →
  paced t ([Obs b k] ++ T ++ under None (refused e y)).
Proof. intros Hk Ho. eapply one_event_pace; [done|done|]. right. eauto. Qed.
Lemma event_loop_paced n t T o : event_loop ch U n t T o → paced t T.
Proof.
  induction 1 as [n t|t|n t e T r T' o H1 _ IH|n t e T y H1|n t e T y H1]; try by apply paced_enclosed.
  - eapply one_event_paced; [by left|done|done].
  - rewrite <-(app_nil_r T). apply (one_event_paced t None (OTake e) e T (Threw y) []); [by left|done|]. by apply paced_enclosed.
  - apply (refused_paced t None (OTake e)); [by left|done].
Qed.
Lemma translated_outerk t (P : list okind → outcome → Prop) T o :
  (∀ ks o, P ks o → Forall (λ k, outerk k = true) ks) → translated ch U t P T o → Forall (λ o, outerk (ob o) = true) T.
Proof.
  intros HP H.
  assert (∀ ks o, P ks o → Forall (λ o, outerk (ob o) = true) (under None ks)) as HP'.
  { intros ks o' Hk. apply Forall_map. by eapply HP. }
  assert (∀ t0 t y T o, handling ch U t0 t None None False y T o → Forall (λ o, outerk (ob o) = true) T) as Hh'.
  { intros t0 t' y Th o' Hh. apply handling_innerk in Hh. eapply Forall_impl; [exact Hh|]. by intros [b []]. }
  destruct H as [ks r Hk|ks y T r Hk Hh|ks y T y' ks' Hk Hh Hen]; rewrite ?Forall_app; eauto.
  split_and!; eauto. destruct Hen as (k & -> & Hq & _). apply Forall_map, Forall_app. split; [|by repeat constructor].
  eapply Forall_impl; [exact Hq|]. by intros [].
Qed.
Lemma translated_paced t (P : list okind → outcome → Prop) T o :
  (∀ ks o, P ks o → Forall (λ k, outerk k = true) ks) → translated ch U t P T o → paced t T.
Proof. intros HP H. apply paced_enclosed. by eapply translated_outerk. Qed.
Lemma quiet_enclosed ks : Forall (λ k, quiet k = true) ks → Forall (λ k, outerk k = true) ks.
Proof. intros H. eapply Forall_impl; [exact H|]. by intros []. Qed.
Lemma stops_enclosed P y ks : stops ch P y ks → Forall (λ k, outerk k = true) ks.
Proof. intros H. apply stops_innerk in H. eapply Forall_impl; [exact H|]. by intros []. Qed.
Lemma terminating_outerk t T o : terminating ch U t T o → Forall (λ o, outerk (ob o) = true) T.
Proof.
  apply translated_outerk. intros ks [r|y]; [|by apply stops_enclosed]. intros (k & -> & Hq & _). apply Forall_app.
  split; [by apply quiet_enclosed|by repeat constructor].
Qed.
Lemma terminating_paced t T o : terminating ch U t T o → paced t T.
Proof. intros H. apply paced_enclosed. by eapply terminating_outerk. Qed.
Lemma starting_outerk t T o : translated ch U t (starts ch t) T o → Forall (λ o, outerk (ob o) = true) T.
Proof. apply translated_outerk. intros ks [r|y]; [|by apply stops_enclosed]. intros [Hq _]. by apply quiet_enclosed. Qed.
Lemma starting_paced t T o : translated ch U t (starts ch t) T o → paced t T.
Proof. intros H. apply paced_enclosed. by eapply starting_outerk. Qed.
Lemma story_paced o t T r : story ch U o t T r → paced t T.
Proof.
  intros H. destruct o as [n| |n e|e|c k|c k]; cbn [story] in H.
  - destruct H as [T y H|T T' y H H'|T T' T'' o H H' H''].
    + by eapply terminating_paced.
    + apply paced_app; [by eapply terminating_paced|by eapply starting_paced].
    + apply paced_app; [by eapply terminating_paced|]. apply paced_app; [by eapply starting_paced|].
      rewrite <-app_assoc. by eapply event_loop_paced.
  - by eapply terminating_paced.
  - destruct H as [T r T' o H1 Hl|T y H1|T y H1].
    + eapply one_event_paced; [by right|done|]. by eapply event_loop_paced.
    + rewrite <-(app_nil_r T). apply (one_event_paced t None (OProcess e) e T (Threw y) []); [by right|done|]. by apply paced_enclosed.
    + apply (refused_paced t None (OProcess e)); [by right|done].
  - destruct H as [-> _]. apply paced_enclosed. by repeat constructor.
  - destruct H as [-> _]. apply paced_enclosed. by repeat constructor.
  - destruct H as [-> _]. apply paced_enclosed. by repeat constructor.
Qed.

(** ** Machines *)
Lemma seen_replays s : seen ch U s → ∃ a, backed ch s a ∧ tr s = trace (en a) ∧ en s = en a ∧ replays ch a.
Proof.
  intros (a & Ha & Et & HT)%(seen_tracks ch U Hwf HU). exists a. split_and!; [done|done|apply (bk_R _ _ _ Ha)|].
  destruct (bk_steps _ _ _ Ha) as [w Hw]. eapply replays_steps; [done| | |exact Hw]; [|by apply replays_fresh].
  by apply tracks_fresh.
Qed.
Lemma seen_truthful s : seen ch U s → truthful ch (tr s) ∧ releases (tr s).
Proof. intros (a & _ & -> & _ & H)%seen_replays. split; apply H. Qed.
Lemma seen_order s : seen ch U s → leaves s = map fst (order_of ch (tr s)).
Proof.
  intros (a & Ha & -> & _ & H)%seen_replays. rewrite (leaves_ord _ _ _ Ha). unfold abs_leaves. by rewrite (rp_ord _ _ H).
Qed.
Lemma seen_queues s : seen ch U s → queue (en s) = pending (tr s) ∧ deferred (en s) = waiting (tr s).
Proof.
  intros (a & Ha & -> & -> & H)%seen_replays. pose proof (eo_queues _ _ (rp_env _ _ H)) as E.
  unfold pending, waiting. by rewrite <-E.
Qed.
Lemma seen_shallow s r h : seen ch U s → shallow_map (en s) !! r = Some (Some h) ↔ shallow_memory ch (tr s) r h.
Proof. intros (a & Ha & -> & -> & H)%seen_replays. apply (eo_shallow _ _ (rp_env _ _ H)). Qed.
Lemma seen_deep s r h : seen ch U s → deep_map (en s) !! r = Some (Some h) ↔ deep_memory ch (tr s) r h.
Proof. intros (a & Ha & -> & -> & H)%seen_replays. apply (eo_deep _ _ (rp_env _ _ H)). Qed.

Definition kept (s : mst W heapst) : Prop := paced [] (tr s) ∧ balanced (tr s) None [].
Lemma kept_reach s : reach ch U s → kept s.
Proof.
  assert (∀ s o r s', reach ch U s → seen ch U s' → kept s → op_ok ch o = true →
    op_allowed ch U o s → call ch U o s = (r, s') → kept s') as Hgo.
  { intros s1 o r s' Hr Hs' [H1 H2] H3 H4 H5. destruct (story_call ch U Hwf HU _ _ _ _ Hr H3 H4 H5) as (T & o' & _ & Et & Hst).
    destruct (seen_truthful _ Hs') as [Ht _]. unfold kept. rewrite Et in *. split.
    - apply paced_app; [done|]. by eapply story_paced.
    - by eapply story_balanced. }
  induction 1 as [w|s o s' Hr IH H1 H2 H3|s o x s' Hr IH H1 H2 H3].
  - split; [apply paced_enclosed; constructor|]. by split.
  - eapply Hgo; [exact Hr| |done..]. apply seen_reach. by eapply reach_ret.
  - eapply Hgo; [exact Hr| |done..]. apply seen_reach. by eapply reach_exn.
Qed.
Lemma kept_seen s : seen ch U s → kept s.
Proof.
  intros Hs. pose proof Hs as Hs'. destruct Hs as [s' Hs|s' o s1 Hs H1 H2 H3|s' s1 Hs H1].
  - by apply kept_reach.
  - destruct (story_call ch U Hwf HU _ _ _ _ Hs H1 H2 H3) as (T & o' & _ & Et & Hst).
    destruct (seen_truthful _ Hs') as [Ht _]. destruct (kept_reach _ Hs) as [K1 K2]. unfold kept. rewrite Et in *. split.
    + apply paced_app; [done|]. by eapply story_paced.
    + by eapply story_balanced.
  - destruct (destroyed ch U Hwf HU _ _ _ Hs H1) as (_ & _ & ks & L & Et & Hq & _).
    destruct (kept_reach _ Hs) as [K1 K2]. unfold kept. rewrite Et, under_app_. split.
    + apply paced_app; [done|]. apply paced_enclosed, Forall_app. split; [|by repeat constructor]. apply Forall_map. by apply quiet_enclosed.
    + rewrite app_assoc. apply balanced_reset.
Qed.
End kept.
