(** Simulation of the concrete machine by the abstract one: constructors, destructors, exits. *)
From Verif Require Export RefineHeap.

Definition bot {S T : Type} : S → T → Prop := λ _ _, False.

Section sim.
Context {W : Type} (ch : chart) (U : user W) (Hwf : wf_chart ch = true).
Notation alive := (alive ch).
Notation R := (R ch).
Notation wfa := (wfa ch).
Notation refs := (refs ch).
Notation kids := (kids ch).
Notation S := (mst W heapst).
Notation T := (mst W acore).

(** The concrete heap satisfies [P], the abstract core is [a], the environments are equal. *)
Definition RP (P : heapst → Prop) (a : acore) (s : S) (t : T) : Prop :=
  P (core s) ∧ core t = a ∧ en s = en t.
Notation RA H a := (RP (λ h, R H h a) a).
Definition RR (H : list aid) (s : S) (t : T) : Prop := R H (core s) (core t) ∧ en s = en t.

Lemma RR_RA H s t : RR H s t ↔ RA H (core t) s t.
Proof. unfold RR, RP. tauto. Qed.
Lemma RA_RR H a s t : RA H a s t → RR H s t.
Proof. intros (H1 & <- & H2). done. Qed.

Lemma sim_fix {A B} H (m : M S A) (m' : M T B) Q E :
  (∀ a, sim (RA H a) m m' Q E) → sim (RR H) m m' Q E.
Proof. intros Hs s t Hst. apply RR_RA in Hst. by apply (Hs (core t) s t). Qed.

Lemma sim_pure_l {A B} (P : S → T → Prop) (m : M S A) (X : Prop) (m' : M T B) Q E :
  (∀ s t, P s t → X) → (X → sim P m m' Q E) → sim P m m' Q E.
Proof. intros HX Hs s t Hst. by apply (Hs (HX s t Hst)). Qed.

Lemma sim_assoc_r {A B C D} P (m : M S A) (m' : M T B) (k : B → M T C) (k' : C → M T D) Q E :
  sim P m (bind m' (λ x, bind (k x) k')) Q E → sim P m (bind (bind m' k) k') Q E.
Proof.
  intros Hs s t Hst. specialize (Hs s t Hst). revert Hs. unfold bind.
  destruct (m' t) as [[]]; done.
Qed.
Lemma sim_assoc_l {A B C D} P (m : M S A) (k : A → M S B) (k' : B → M S C) (m' : M T D) Q E :
  sim P (bind m (λ x, bind (k x) k')) m' Q E → sim P (bind (bind m k) k') m' Q E.
Proof.
  intros Hs s t Hst. specialize (Hs s t Hst). revert Hs. unfold bind.
  destruct (m s) as [[]]; done.
Qed.
Lemma sim_unit_r {A B} P (m : M S A) (k : unit → M T B) Q E :
  sim P m (k tt) Q E → sim P m (bind (ret tt) k) Q E.
Proof. done. Qed.
Lemma sim_unit_l {A B C} P (v : A) (k : A → M S B) (m : M T C) Q E :
  sim P (k v) m Q E → sim P (bind (ret v) k) m Q E.
Proof. done. Qed.

Lemma sim_core_r {A B} P a (m : M S A) (k : acore → M T B) Q E :
  sim (RP P a) m (k a) Q E → sim (RP P a) m (bind (gets core) k) Q E.
Proof.
  intros Hs s t Hst. specialize (Hs s t Hst). destruct Hst as (_ & <- & _). done.
Qed.
Lemma sim_on_core_r {A B} P a f (m : M S A) (k : unit → M T B) Q E :
  sim (RP P (f a)) m (k tt) Q E → sim (RP P a) m (bind (on_core f) k) Q E.
Proof.
  intros Hs s t Hst. apply (Hs s (MSt (f (core t)) (en t))).
  destruct Hst as (? & <- & ?). done.
Qed.
Lemma sim_assert_r {A B} P (X : Prop) `{Decision X} (m : M S A) (k : unit → M T B) Q E :
  (X → sim P m (k tt) Q E) → sim P m (bind (assert X) k) Q E.
Proof.
  intros Hs. unfold assert. apply sim_check_r. intros ?%bool_decide_eq_true. auto.
Qed.
Lemma sim_crun {A B C} (P : heapst → Prop) (P' : A → heapst → Prop) a
    (m : M S A) (k : A → M S B) (m' : M T C) Q E :
  crun m P P' → (∀ v, sim (RP (P' v) a) (k v) m' Q E) →
  sim (RP P a) (bind m k) m' Q E.
Proof.
  intros Hc Hs. eapply (sim_bind_l _ _ _ _ (λ v, RP (P' v) a)); [|done].
  intros s t (HP & <- & He). destruct (Hc s HP) as (v & s' & Heq & He' & HP').
  exists v, s'. split; [done|]. split; [done|]. split; [done|congruence].
Qed.
Lemma sim_crun' {A C} (P : heapst → Prop) (P' : A → heapst → Prop) a
    (m : M S A) (m' : M T C) Q E :
  crun m P P' → (∀ v, sim (RP (P' v) a) (ret v) m' Q E) →
  sim (RP P a) m m' Q E.
Proof.
  intros Hc Hs s t (HP & <- & He). destruct (Hc s HP) as (v & s' & Heq & He' & HP').
  rewrite Heq. apply (Hs v s' t). split; [done|]. split; [done|congruence].
Qed.
Lemma sim_on_env {A B} P a f (k : unit → M S A) (k' : unit → M T B) Q E :
  sim (RP P a) (k tt) (k' tt) Q E →
  sim (RP P a) (bind (on_env f) k) (bind (on_env f) k') Q E.
Proof.
  intros Hs s t (HP & Ha & He). unfold bind, on_env, modify. simpl.
  apply (Hs (MSt (core s) (f (en s))) (MSt (core t) (f (en t)))).
  split; [done|]. split; [done|]. simpl. by rewrite He.
Qed.
Lemma sim_on_env' P a f (Q : unit → unit → S → T → Prop) E :
  (∀ s t, RP P a s t → Q tt tt s t) →
  sim (RP P a) (on_env f) (on_env f) Q E.
Proof.
  intros Hs s t (HP & Ha & He). simpl. eexists tt, _. split; [done|]. apply Hs.
  split; [done|]. split; [done|]. simpl. by rewrite He.
Qed.

(** ** User code *)
Lemma sim_do_cmd P a x : sim (RP P a) (do_cmd ch x) (do_cmd ch x) (λ _ _, RP P a) bot.
Proof.
  destruct x as [e|c k|c k]; simpl.
  - apply sim_on_env'. done.
  - destruct (clear_ok _ _ _ _); [|apply sim_faulty]. apply sim_on_env'. done.
  - destruct (clear_ok _ _ _ _); [|apply sim_faulty]. apply sim_on_env'. done.
Qed.

(** ** Looking around *)
Lemma bind_eq {X A B} (m : M X A) (k : A → M X B) s v s' :
  m s = (Ret v, s') → bind m k s = k v s'.
Proof. intros Hm. unfold bind. by rewrite Hm. Qed.
Lemma deref_eq p (s : S) o : heap (core s) !! p = Some o → deref p s = (Ret o, s).
Proof. intros Ho. unfold deref, hp, gets, bind. by rewrite Ho. Qed.

Record readable (a : acore) (h : heapst) : Prop := {
  rd_wf : ∃ H, wfa H a;
  rd_send : send h = length (ord a);
  rd_slots i x : ord a !! i = Some x → slots h !! i = Some (Some x.2);
  rd_obj x : alive a x →
    ∃ o, heap h !! x.2 = Some o ∧ o_cls o = x.1 ∧ o_ctx o = Some (snd <$> ctx_of ch a x.1) }.

(** The context [x] of class [c] from which user code looks around. *)
Definition anchored (a : acore) (c : option cls) (x : option ptr) (h : heapst) : Prop :=
  match c, x with
  | None, None => True
  | Some c, Some p =>
      ∃ o y, heap h !! p = Some o ∧ o_cls o = c ∧ o_ctx o = Some (snd <$> y) ∧
        match parent ch c, y with
        | None, None => True
        | Some q, Some y => y.1 = q ∧ alive a y
        | _, _ => False
        end
  | _, _ => False
  end.

Lemma R_readable H h a : R H h a → readable a h.
Proof.
  intros HR. constructor.
  - exists H. apply (R_wf _ _ _ _ HR).
  - apply (R_send _ _ _ _ HR).
  - apply (R_slots _ _ _ _ HR).
  - intros x Hx. destruct (R_lookup _ _ _ _ _ HR Hx) as (o & H1 & H2 & _ & H3 & _). eauto.
Qed.
Lemma anchored_alive a h x : readable a h → alive a x → anchored a (Some x.1) (Some x.2) h.
Proof.
  intros Hr Hx. destruct (rd_wf _ _ Hr) as [H Hw].
  destruct (rd_obj _ _ Hr x Hx) as (o & H1 & H2 & H3). exists o, (ctx_of ch a x.1).
  split_and!; [done..|]. destruct x as [c p]. simpl in *. destruct (ctx_of ch a c) as [q|] eqn:Hc.
  - destruct (ctx_of_alive _ _ _ _ _ _ Hw Hx Hc) as [Hq ->]. done.
  - by rewrite (ctx_of_None _ _ _ _ _ Hw Hx Hc).
Qed.
Lemma anchored_opt a h x : readable a h → alive_opt ch a x → anchored a (fst <$> x) (snd <$> x) h.
Proof. destruct x as [x|]; [|done]. apply anchored_alive. Qed.

Lemma readable_leaves a h : readable a h → heap_leaves h = abs_leaves a.
Proof.
  intros Hr. unfold heap_leaves, abs_leaves. destruct (rd_wf _ _ Hr) as [H Hw].
  assert (take (send h) (slots h) = (λ x : aid, Some x.2) <$> ord a) as ->.
  { apply list_eq. intros i. rewrite list_lookup_fmap.
    destruct (ord a !! i) as [x|] eqn:E; simpl.
    - rewrite lookup_take by (rewrite (rd_send _ _ Hr); by eapply lookup_lt_Some).
      by apply (rd_slots _ _ Hr).
    - apply lookup_ge_None_2. rewrite take_length, (rd_send _ _ Hr).
      apply lookup_ge_None in E. lia. }
  assert (∀ x, x ∈ ord a → o_cls <$> heap h !! x.2 = Some x.1) as Hl.
  { intros x Hx. apply (wa_ord _ _ _ Hw) in Hx as [Hx _].
    destruct (rd_obj _ _ Hr x Hx) as (o & -> & Hc & _). simpl. by rewrite Hc. }
  induction (ord a) as [|x l IH]; simpl; [done|].
  rewrite Hl by left. simpl. f_equal. apply IH. intros y Hy. apply Hl. by right.
Qed.

Lemma walk_ok a n c x (s : S) : readable a (core s) → anchored a c x (core s) →
  from_option Datatypes.S 0 c < n → walk ch n c x s = (Ret tt, s).
Proof.
  intros Hr. revert c x. induction n as [|n IH]; intros c x Hx Hn; [lia|].
  destruct c as [c|], x as [p|]; try done. destruct Hx as (o & y & Ho & Hc & Hy & Hp). simpl in Hn.
  cbn [walk]. erewrite bind_eq by by apply deref_eq. rewrite Hc, bool_decide_true by done. simpl.
  erewrite bind_eq by done. rewrite Hy. apply IH.
  - destruct (parent ch c), y as [y|]; try done. destruct Hp as [<- Hp]. by apply anchored_alive.
  - destruct (parent ch c) as [q|] eqn:Hq; simpl; [|lia]. apply (parent_lt _ Hwf) in Hq. lia.
Qed.
Lemma look_ok a c x (s : S) : readable a (core s) → anchored a c x (core s) →
  look_around ch c x s = (Ret tt, s).
Proof.
  intros Hr Hx. unfold look_around. erewrite bind_eq by done.
  assert (∀ l, (∀ i, i ∈ l → i < length (ord a)) →
    iter (λ i, match slots (core s) !! i with
               | Some (Some p) => let! o := deref p in walk_from ch (Some (o_cls o)) (Some p)
               | _ => faulty FDangling
               end) l s = (Ret tt, s)) as Hl.
  { destruct (rd_wf _ _ Hr) as [H Hw].
    induction l as [|i l IH]; intros Hi; [done|]. simpl. 
    assert (i < length (ord a)) as Hlt by (apply Hi; left). apply lookup_lt_is_Some in Hlt as [y Hy].
    rewrite (rd_slots _ _ Hr _ _ Hy).
    assert (alive a y) as Hya by (apply (wa_ord _ _ _ Hw); by eapply elem_of_list_lookup_2).
    destruct (rd_obj _ _ Hr y Hya) as (o & Ho & Hc & _).
    erewrite bind_eq; [apply IH; intros j Hj; apply Hi; by right|].
    erewrite bind_eq by by apply deref_eq. rewrite Hc. unfold walk_from.
    apply (walk_ok a); [done|by apply anchored_alive|simpl; lia]. }
  erewrite bind_eq; [|apply Hl; rewrite <-(rd_send _ _ Hr); intros i Hi%elem_of_seq; lia].
  unfold walk_from. by apply (walk_ok a); [| |lia].
Qed.
Lemma sim_look {A B} (P : heapst → Prop) a c x (k : unit → M S A) (m' : M T B) Q E :
  (∀ h, P h → readable a h ∧ anchored a c x h) →
  sim (RP P a) (k tt) m' Q E → sim (RP P a) (bind (look_around ch c x) k) m' Q E.
Proof.
  intros HP Hs s t Hst. specialize (Hs s t Hst). destruct Hst as (Hh & _). destruct (HP _ Hh).
  erewrite bind_eq by by eapply look_ok. exact Hs.
Qed.

Lemma sim_ucall {A} (P : heapst → Prop) a (f : view → W → W * list cmd * A) :
  (∀ h, P h → heap_leaves h = abs_leaves a) →
  sim (RP P a) (ucall ch heap_leaves f) (ucall ch abs_leaves f)
    (λ r r' s t, r = r' ∧ RP P a s t) bot.
Proof.
  intros HP s t Hst. pose proof Hst as (Hs & Ha & He).
  assert (∀ X (lv : X → list cls) (s : mst W X), ucall ch lv f s =
    (let '(w, cs, r) := f (View (trig (en s)) (lv (core s))) (world (en s)) in
     on_env (λ e, set_world w (saw (lv (core s)) e)) ;! iter (do_cmd ch) cs ;! ret r) s) as Hu.
  { intros X lv s0. unfold ucall, gets, bind at 1. simpl. by destruct (f _ _) as [[]]. }
  rewrite !Hu, (HP _ Hs), He, Ha.
  destruct (f _ _) as [[w cs] r].
  assert (sim (RP P a) (on_env (λ e, set_world w (saw (abs_leaves a) e));! iter (do_cmd ch) cs;! ret r)
            (on_env (λ e, set_world w (saw (abs_leaves a) e));! iter (do_cmd ch) cs;! ret r)
            (λ r r' s t, r = r' ∧ RP P a s t) bot) as Hsim; [|by apply (Hsim s t)].
  apply sim_on_env. eapply sim_bind.
  - apply (sim_iter (RP P a)). apply Forall2_same_length_lookup_2; [done|].
    intros i x y Hx Hy. assert (x = y) as -> by congruence. apply sim_do_cmd.
  - intros ? ?. by apply sim_ret.
Qed.

Lemma sim_ucall_x (P : heapst → Prop) a f :
  (∀ h, P h → heap_leaves h = abs_leaves a) →
  sim (RP P a) (ucall_x ch heap_leaves f) (ucall_x ch abs_leaves f)
    (λ _ _, RP P a) (RP P a).
Proof.
  intros HP. unfold ucall_x. eapply sim_bind.
  - eapply sim_weaken; [by apply sim_ucall|done|done|]. intros ? ? [].
  - intros r r'. intros s t [<- Hst]. revert s t Hst.
    change (sim (RP P a) (match r with None => ret tt | Some x => emit (OThrow x);! throw x end)
              (match r with None => ret tt | Some x => emit (OThrow x);! throw x end)
              (λ _ _, RP P a) (RP P a)).
    destruct r; [|by apply sim_ret]. apply sim_on_env. by apply sim_throw.
Qed.

Lemma sim_alloc (P : heapst → Prop) a z :
  sim (RP P a) (alloc (W:=W) U z) (alloc (W:=W) U z) (λ _ _, RP P a) (RP P a).
Proof.
  intros s t Hst. pose proof Hst as (Hs & Ha & He). 
  assert (∀ X (s : mst W X), alloc U z s =
    (let '(w, r) := u_alloc U z (world (en s)) in
     on_env (set_world w) ;! match r with None => ret tt | Some x => emit (ORefused z) ;! emit (OThrow x) ;! throw x end) s) as Hu.
  { intros X s0. unfold alloc, gets, bind at 1. simpl. by destruct (u_alloc _ _ _). }
  rewrite !Hu, He.
  destruct (u_alloc U z (world (en t))) as [w r].
  assert (sim (RP P a) (on_env (set_world w) ;! match r with None => ret tt | Some x => emit (ORefused z) ;! emit (OThrow x) ;! throw x end)
    (on_env (set_world w) ;! match r with None => ret tt | Some x => emit (ORefused z) ;! emit (OThrow x) ;! throw x end)
    (λ _ _, RP P a) (RP P a)) as Hsim; [|by apply (Hsim s t)].
  apply sim_on_env. destruct r; [|by apply sim_ret]. apply sim_on_env, sim_on_env. by apply sim_throw.
Qed.

Lemma sim_new_element (P : heapst → Prop) a c z :
  sim (RP P a) (new_element (W:=W) ch U c z) (new_element (W:=W) ch U c z) (λ _ _, RP P a) (RP P a).
Proof.
  intros s t Hst. pose proof Hst as (Hs & Ha & He). 
  assert (∀ X (s : mst W X), new_element ch U c z s =
    (let '(w, r) := u_alloc U (ARecord c z) (world (en s)) in
     on_env (set_world w) ;! match r with None => ret tt | Some x => on_env (store_part ch c z) ;! emit (ORefused (ARecord c z)) ;! emit (OThrow x) ;! throw x end) s) as Hu.
  { intros X s0. unfold new_element, gets, bind at 1. simpl. by destruct (u_alloc _ _ _). }
  rewrite !Hu, He.
  destruct (u_alloc U (ARecord c z) (world (en t))) as [w r].
  assert (sim (RP P a) (on_env (set_world w) ;! match r with None => ret tt | Some x => on_env (store_part ch c z) ;! emit (ORefused (ARecord c z)) ;! emit (OThrow x) ;! throw x end)
    (on_env (set_world w) ;! match r with None => ret tt | Some x => on_env (store_part ch c z) ;! emit (ORefused (ARecord c z)) ;! emit (OThrow x) ;! throw x end)
    (λ _ _, RP P a) (RP P a)) as Hsim; [|by apply (Hsim s t)].
  apply sim_on_env. destruct r; [|by apply sim_ret]. apply sim_on_env, sim_on_env, sim_on_env. by apply sim_throw.
Qed.

Lemma RA_leaves H a h : R H h a → heap_leaves h = abs_leaves a.
Proof. apply leaves_eq. Qed.

Lemma R_perm H H' h a : R H h a → (∀ x, count_in x H = count_in x H') → R H' h a.
Proof.
  intros HR Hc. pose proof (R_wf _ _ _ _ HR) as Hw.
  destruct HR as [_ ? ? ? ? ? ? ? Hobj Hdom]. constructor; try assumption.
  - eapply wfa_setH; [done|]. intros y Hy. apply (wa_H _ _ _ Hw).
    destruct (decide (y ∈ H)) as [|Hn]; [done|]. apply count_in_0 in Hn.
    rewrite Hc in Hn. apply count_in_0 in Hn. done.
  - intros x Hx. destruct (Hobj x Hx) as (lp & Hl & Hlp). exists lp. split; [|done].
    rewrite Hl. f_equal. unfold absobj, RefineBase.refs. by rewrite Hc.
Qed.
Lemma count_in_app x H H' : count_in x (H ++ H') = count_in x H + count_in x H'.
Proof. unfold count_in. by rewrite filter_app, app_length. Qed.

Lemma sim_destroy {A B} H a x o (k : unit → M S A) (k' : unit → M T B) Q E :
  alive a x → busy ch H a x = false →
  (∀ u, sim (RA (opt_list (ctx_of ch a x.1) ++ H) (destroyed ch x a)) (k u) (k' tt) Q E) →
  sim (RP (λ h, R (x :: H) h a ∧ heap h !! x.2 = Some o) a)
    (on_heap (<[x.2 := set_rc 0 o]>) ;! emit (ODtor x.2 (o_cls o)) ;! user_dtor ch U x.2 (o_cls o) ;!
     bind (unlink ch x.2) k)
    (bind (a_destroy ch U x) k') Q E.
Proof.
  intros Hx Hb Hk.
  set (Pm := λ h, ∃ h0, R (x :: H) h0 a ∧ heap h0 !! x.2 = Some o ∧
                        h = set_heap (<[x.2 := set_rc 0 o]> (heap h0)) h0).
  eapply (sim_crun _ (λ _, Pm)).
  { intros s [HR Ho]. eexists tt, _. split; [done|]. split; [done|]. simpl. eexists. eauto. }
  intros _. unfold a_destroy.
  assert (∀ h0, R (x :: H) h0 a → heap h0 !! x.2 = Some o →
    o_cls o = x.1 ∧ o_ctx o = Some (snd <$> ctx_of ch a x.1) ∧ o_defer o = bool_decide (x.2 ∈ dfr a)) as Hof.
  { intros h0 HR Ho. destruct (R_lookup _ _ _ _ _ HR Hx) as (o' & Ho' & H1 & H2 & H3 & H4 & H5 & H6).
    assert (o' = o) as -> by congruence. done. }
  destruct (decide (o_cls o = x.1)) as [Hcl|]; [|intros s t ((h0 & HR & Ho & _) & _); by destruct (Hof _ HR Ho)].
  destruct (decide (o_ctx o = Some (snd <$> ctx_of ch a x.1))) as [Hctx|]; [|intros s t ((h0 & HR & Ho & _) & _); by destruct (Hof _ HR Ho) as (? & ? & ?)].
  destruct (decide (o_defer o = bool_decide (x.2 ∈ dfr a))) as [Hdf|]; [|intros s t ((h0 & HR & Ho & _) & _); by destruct (Hof _ HR Ho) as (? & ? & ?)].
  rewrite Hcl. apply sim_assoc_r. apply sim_on_env. apply sim_assoc_r. eapply (sim_bind _ _ _ _ _ (λ _ _, RP Pm a)).
  { assert (∀ h, Pm h → readable a h) as Hrd.
    { intros h (h0 & HR & Ho & ->). eapply R_readable in HR as Hr0. destruct Hr0 as [H1 H2 H3 H4].
      constructor; [done..|]. intros y Hy. simpl. destruct (H4 y Hy) as (oy & Hoy & Hc & Hcy).
      destruct (decide (y.2 = x.2)) as [Heq|Hne].
      - assert (y = x) as -> by (by apply (wfa_alive_inj _ _ _ _ _ (R_wf _ _ _ _ HR))).
        exists (set_rc 0 o). rewrite lookup_insert. done.
      - rewrite lookup_insert_ne by done. eauto. }
    apply sim_look; [intros h Hh; split; [by apply Hrd|apply anchored_alive; [by apply Hrd|done]]|].
    eapply sim_weaken; [apply (sim_ucall Pm a)|done| |].
    - intros h Hh. by apply readable_leaves, Hrd.
    - intros u u' s t [_ Hst]. exact Hst.
    - intros ? ? []. }
  intros _ _. apply sim_assoc_r. apply sim_core_r.
  unfold unlink. apply sim_assoc_l.
  eapply (sim_crun _ (λ o' h, o' = set_rc 0 o ∧ Pm h)).
  { intros s (h0 & HR & Ho & Heq). exists (set_rc 0 o), s. split.
    - unfold deref, hp, bind, gets. simpl. rewrite Heq. simpl. rewrite lookup_insert. done.
    - split; [done|]. split; [done|]. by exists h0. }
  intros o'. apply (sim_pure_l _ _ (o' = set_rc 0 o)); [by intros s t ((? & _) & _)|]. intros ->.
  cbn [o_ctx o_cls o_defer set_rc]. rewrite Hctx. cbn iota. rewrite Hcl, Hdf.
  apply sim_assoc_r. apply sim_assoc_l.
  assert (∀ KC KA,
    sim (RP Pm a) KC KA Q E →
    sim (RP (λ h, set_rc 0 o = set_rc 0 o ∧ Pm h) a)
      (bind (when (bool_decide (x.2 ∈ dfr a)) release_events) (λ _, KC))
      (bind (when (bool_decide (x.2 ∈ dfr a)) a_release_events) (λ _, KA)) Q E) as Hwhen.
  { intros KC KA HK. destruct (bool_decide (x.2 ∈ dfr a)); simpl.
    - unfold release_events, a_release_events. apply sim_on_env.
      eapply sim_weaken; [exact HK| |done|done]. intros s t ((_ & ?) & ?). done.
    - apply sim_unit_l, sim_unit_r. eapply sim_weaken; [exact HK| |done|done].
      intros s t ((_ & ?) & ?). done. }
  apply Hwhen. apply sim_on_core_r. apply sim_assoc_l.
  change (set_dfr (dfr a ∖ {[x.2]}) (set_occ (delete (region ch x.1) (occ a)) a)) with (destroyed ch x a).
  eapply (sim_bind_l _ _ _ _ (λ _ (s : S) (t : T),
    R (opt_list (ctx_of ch a x.1) ++ H) (set_heap (delete x.2 (heap (core s))) (core s)) (destroyed ch x a) ∧
    core t = destroyed ch x a ∧ en s = en t)).
  - intros s t ((h0 & HR & Ho & Heq) & Ht & He).
    pose proof (R_wf _ _ _ _ HR) as Hw.
    unfold remove_inner. destruct (ctx_of ch a x.1) as [q|] eqn:Hc; simpl.
    + destruct x as [c p]. destruct (ctx_of_alive _ _ _ _ _ _ Hw Hx Hc) as [Hq Hp]. simpl in *.
      assert (q.2 ≠ p) as Hne.
      { intros Hqp. assert (q = (c, p)) as -> by (by apply (wfa_alive_inj _ _ _ _ _ Hw)).
        apply (parent_lt _ Hwf) in Hp. simpl in Hp. lia. }
      destruct (R_lookup _ _ _ _ _ HR Hq) as (oq & Hoq & Hqc & _ & _ & Hqi & _).
      unfold deref, hp, bind, gets. simpl. rewrite Heq. simpl.
      rewrite lookup_insert_ne by done. rewrite Hoq.
      assert (pos ch c < length (o_inner oq)) as Hlen.
      { rewrite Hqi. unfold inner_of. rewrite fmap_length, seq_length. by apply (pos_lt _ Hwf). }
      unfold ret at 1, check. rewrite (bool_decide_true (pos ch c < length (o_inner oq))) by done.
      eexists tt, _. split; [done|]. simpl. split; [|done]. rewrite Heq. simpl.
      assert (opt_list (Some q) = opt_list (ctx_of ch a c)) as Hol by by rewrite Hc.
      change (q :: H) with (opt_list (Some q) ++ H). rewrite Hol.
      eapply (R_destroyed ch Hwf _ h0 _ (c, p)); try done.
      * simpl. by rewrite lookup_delete.
      * intros p' Hp'. simpl in *. rewrite Hc. rewrite lookup_delete_ne by done.
        destruct (decide (p' = q.2)) as [->|Hne'].
        -- rewrite lookup_insert, Hoq. done.
        -- rewrite lookup_insert_ne by done. by rewrite lookup_insert_ne by done.
      * simpl. by rewrite Hc.
    + destruct x as [c p]. pose proof (ctx_of_None _ _ _ _ _ Hw Hx Hc) as Hp. simpl in *.
      rewrite (pos_top _ Hwf _ Hp). simpl. eexists tt, _. split; [done|].
      simpl. split; [|done]. rewrite Heq. simpl.
      assert (opt_list None = opt_list (ctx_of ch a c)) as Hol by by rewrite Hc.
      change H with (opt_list None ++ H). rewrite Hol.
      eapply (R_destroyed ch Hwf _ h0 _ (c, p)); try done.
      * simpl. by rewrite lookup_delete.
      * intros p' Hp'. simpl in *. rewrite Hc. rewrite lookup_delete_ne by done.
        by rewrite lookup_insert_ne by done.
      * simpl. by rewrite Hc.
  - intros ?. eapply (sim_bind_l _ _ _ _ (λ _, RA (opt_list (ctx_of ch a x.1) ++ H) (destroyed ch x a))).
    + intros s t (HR & Ht & He). eexists tt, _. split; [done|]. split; [done|]. done.
    + intros u. apply Hk.
Qed.

Lemma busy_false_ctx H a x q : wfa (x :: H) a → alive a x → busy ch H a x = false →
  ctx_of ch a x.1 = Some q → alive (destroyed ch x a) q.
Proof.
  intros Hw Hx Hb Hc. destruct x as [c p].
  destruct (ctx_of_alive _ _ _ _ _ _ Hw Hx Hc) as [Hq Hp].
  apply (destroyed_alive _ _ _ _ _ Hw Hx). split; [done|]. intros ->. simpl in *.
  apply (parent_lt _ Hwf) in Hp. lia.
Qed.

Lemma sim_release n H x : sim (RR (x :: H)) (release ch U n x.2) (a_drop ch U n H x) (λ _ _, RR H) bot.
Proof.
  revert H x. induction n as [|n IH]; intros H x; [apply sim_faulty|]. simpl.
  apply sim_fix. intros a. apply sim_core_r. apply sim_assert_r. intros Hx.
  eapply (sim_crun _ _ _ _ _ _ _ _ (crun_deref ch x (x :: H) a Hx)).
  intros o.
  assert (∀ h, R (x :: H) h a → heap h !! x.2 = Some o →
     o_rc o = Datatypes.S (refs H a x) ∧ o_ctx o = Some (snd <$> ctx_of ch a x.1)) as Ho.
  { intros h HR Ho. destruct (R_lookup _ _ _ _ _ HR Hx) as (o' & Ho' & H1 & H2 & H3 & _).
    assert (o' = o) as -> by congruence. split; [|done]. rewrite H2. unfold RefineBase.refs.
    rewrite count_in_cons, (bool_decide_true (x = x)) by done. simpl. lia. }
  destruct (decide (o_rc o = Datatypes.S (refs H a x) ∧ o_ctx o = Some (snd <$> ctx_of ch a x.1)))
    as [[Hrc Hctx]|Hn]; [|intros s t ((HR & Hh) & _); destruct (Ho _ HR Hh); destruct Hn; done].
  rewrite Hrc. destruct (busy ch H a x) eqn:Hb.
  - apply busy_refs_pos in Hb. destruct (refs H a x) as [|r] eqn:Er; [lia|].
    intros s t ((HR & Hh) & Ht & He). eexists tt, _. split; [done|]. split; [|done]. simpl.
    rewrite <-Er, Ht. eapply R_setH; [done|done|done| |].
    + intros y Hy. rewrite count_in_cons, bool_decide_false by done. done.
    + intros y Hy. apply (wa_H _ _ _ (R_wf _ _ _ _ HR)). by right.
  - pose proof Hb as Hb'. apply busy_refs in Hb. rewrite Hb.
    apply (sim_destroy H a x o (λ _, match o_ctx o with Some (Some q) => release ch U n q | _ => ret tt end)
             (λ _, match ctx_of ch a x.1 with None => ret tt | Some q => a_drop ch U n H q end));
      [done|done|].
    intros _. rewrite Hctx. destruct (ctx_of ch a x.1) as [q|]; simpl.
    + eapply sim_weaken; [apply IH| |done|done]. intros s t Hst. by apply RA_RR in Hst.
    + apply sim_ret. intros s t Hst. by apply RA_RR in Hst.
Qed.

Lemma sim_rel H x : sim (RR (x :: H)) (rel ch U x.2) (drop_ ch U H x) (λ _ _, RR H) bot.
Proof. apply sim_release. Qed.
Lemma sim_rel_ctx H x :
  sim (RR (opt_list x ++ H)) (rel_ctx ch U (snd <$> x)) (drop_opt ch U H x) (λ _ _, RR H) bot.
Proof. destruct x as [x|]; simpl; [apply sim_rel|by apply sim_ret]. Qed.

(** Releasing a reference that is not the last one. *)
Lemma crun_release n x H a : alive a x → busy ch H a x = true →
  crun (release ch U (Datatypes.S n) x.2) (λ h, R (x :: H) h a) (λ _ h, R H h a).
Proof.
  intros Hx Hb s HR.
  pose proof (sim_release (Datatypes.S n) H x s (MSt a (en s))) as Hsim.
  simpl in Hsim. unfold bind at 1, gets at 1 in Hsim. cbn [core en] in Hsim.
  unfold assert in Hsim. rewrite bool_decide_true in Hsim by done. rewrite Hb in Hsim.
  simpl in Hsim. destruct Hsim as (v & s' & Heq & HRR); [done|].
  destruct v. exists tt, s'. split; [exact Heq|]. destruct HRR as [HRR He]. simpl in *. done.
Qed.

Lemma sim_assign_unst {A B} H a new (k : unit → M S A) (k' : unit → M T B) Q E :
  (∀ u, sim (RA H (set_aunst new a)) (k u) (k' tt) Q E) →
  sim (RA H a) (bind (assign_unst (snd <$> new)) k) (bind (a_set_unst ch H new) k') Q E.
Proof.
  intros Hk. unfold a_set_unst. apply sim_assoc_r, sim_core_r, sim_assoc_r, sim_assert_r.
  intros Hnew. apply sim_assoc_r, sim_on_core_r, sim_assoc_r, sim_core_r.
  assert (sim (RA H (set_aunst new a)) (ret tt) (ret tt) (λ _ _, RA H (set_aunst new a)) E) as Hr.
  { by apply sim_ret. }
  destruct (aunst a) as [o|] eqn:Eu.
  - apply sim_check_r. intros Hb.
    eapply sim_bind_l; [|apply Hk].
    intros s t (HR & Ht & He).
    destruct (crun_assign_unst (W:=W) ch new H a Hnew) with s as (v & s' & Heq & He' & HR'); [|done|].
    { intros o' Ho'. assert (o' = o) as -> by congruence. done. }
    exists v, s'. split; [done|]. split; [done|]. split; [done|congruence].
  - apply sim_unit_r. eapply sim_bind_l; [|apply Hk].
    intros s t (HR & Ht & He).
    destruct (crun_assign_unst (W:=W) ch new H a Hnew) with s as (v & s' & Heq & He' & HR'); [|done|].
    { intros o' Ho'. congruence. }
    exists v, s'. split; [done|]. split; [done|]. split; [done|congruence].
Qed.

End sim.
Notation RA ch H a := (RP (λ h, R ch H h a) a).
