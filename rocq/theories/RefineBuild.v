(** Simulation: construction of states. *)
From Verif Require Export RefineSim NoDiv.

Section build.
Context {W : Type} (ch : chart) (U : user W) (Hwf : wf_chart ch = true).
Notation alive := (alive ch).
Notation R := (R ch).
Notation wfa := (wfa ch).
Notation refs := (refs ch).
Notation kids := (kids ch).
Notation S := (mst W heapst).
Notation T := (mst W acore).
Notation RA H a := (RP (λ h, R H h a) a).
Notation RR := (RR ch).

Lemma alter_Some_insert {A} (f : A → A) (k : nat) v (m : gmap nat A) :
  m !! k = Some v → alter f k m = <[k := f v]> m.
Proof.
  intros Hk. apply map_eq. intros j. destruct (decide (j = k)) as [->|Hne].
  - by rewrite lookup_alter, lookup_insert, Hk.
  - by rewrite lookup_alter_ne, lookup_insert_ne.
Qed.

Lemma R_bump H h a : R H h a →
  R H (HeapSt (heap h) (anxt a + 1) (slots h) (send h) (outermost h) (unst h)) (set_anxt (anxt a + 1) a).
Proof.
  intros [[] ? ? ? ? ? ? ? Hobj Hdom]. constructor; simpl; try assumption; [|done].
  constructor; simpl; try assumption.
  - intros x Hx. apply wa_fresh in Hx. lia.
  - intros p Hp. apply wa_dfr in Hp. lia.
Qed.

Definition newobj (c : cls) (r : nat) (x : option (option ptr)) : obj :=
  Obj c r x (replicate (nreg ch c) None) None false.

(** The heap before and after a new object is linked to its context. *)
Definition unlinked_h (c : cls) (p : ptr) (r : nat) (h : heapst) : heapst :=
  HeapSt (<[p := newobj c r None]> (heap h)) (p + 1) (slots h) (send h) (outermost h) (unst h).
Definition upd_ctx (c : cls) (p : ptr) (o : obj) : obj :=
  set_inner (<[pos ch c := Some p]> (o_inner o)) (set_rc (o_rc o + 1) o).
Definition linked_h (c : cls) (p : ptr) (r : nat) (ctx : option aid) (h : heapst) : heapst :=
  HeapSt (<[p := newobj c r (Some (snd <$> ctx))]>
            (match ctx with None => heap h | Some q => alter (upd_ctx c p) q.2 (heap h) end))
    (p + 1) (slots h) (send h)
    (match ctx with None => Some p | Some _ => outermost h end) (unst h).

Lemma ctx_ok_facts H a c ctx : wfa H a → ctx_ok ch H a c ctx →
  alive_opt ch a ctx ∧ parent ch c = fst <$> ctx ∧ (∀ q, ctx = Some q → q ∈ H).
Proof.
  intros Hw. unfold ctx_ok. destruct (parent ch c) as [q|], ctx as [x|]; simpl; try done.
  - intros (<- & ? & ?). split; [done|]. split; [done|]. intros q [= <-]. done.
Qed.

Lemma fresh_ne H h a x : R H h a → alive a x → x.2 ≠ anxt a.
Proof. intros HR Hx. pose proof (wa_fresh _ _ _ (R_wf _ _ _ _ HR) x Hx). lia. Qed.

Lemma fresh_none H h a : R H h a → heap h !! anxt a = None.
Proof.
  intros HR. destruct (heap h !! anxt a) as [o|] eqn:E; [|done].
  apply (R_dom _ _ _ _ HR) in E. by apply (fresh_ne _ _ _ _ HR) in E.
Qed.

Lemma store_eq p f (s : S) o : heap (core s) !! p = Some o →
  store p f s = (Ret tt, MSt (set_heap (<[p := f o]> (heap (core s))) (core s)) (en s)).
Proof. intros Ho. unfold store. by rewrite (bind_eq _ _ _ _ _ (deref_eq _ _ _ Ho)). Qed.
Lemma add_ref_eq p (s : S) o : heap (core s) !! p = Some o →
  add_ref p s = (Ret tt, MSt (set_heap (<[p := set_rc (o_rc o + 1) o]> (heap (core s))) (core s)) (en s)).
Proof. intros Ho. unfold add_ref. by rewrite (bind_eq _ _ _ _ _ (deref_eq _ _ _ Ho)). Qed.
Lemma add_inner_eq q k p (s : S) o : heap (core s) !! q = Some o → o_inner o !! k = Some None →
  add_inner (Some q) k p s =
  (Ret tt, MSt (set_heap (<[q := set_inner (<[k := Some p]> (o_inner o)) o]> (heap (core s))) (core s)) (en s)).
Proof.
  intros Ho Hk. unfold add_inner. rewrite (bind_eq _ _ _ _ _ (deref_eq _ _ _ Ho)).
  unfold check. rewrite (bool_decide_true _ Hk). done.
Qed.
Lemma remove_inner_eq q k (s : S) o : heap (core s) !! q = Some o → k < length (o_inner o) →
  remove_inner (Some q) k s =
  (Ret tt, MSt (set_heap (<[q := set_inner (<[k := None]> (o_inner o)) o]> (heap (core s))) (core s)) (en s)).
Proof.
  intros Ho Hk. unfold remove_inner. rewrite (bind_eq _ _ _ _ _ (deref_eq _ _ _ Ho)).
  unfold check. rewrite (bool_decide_true _ Hk). done.
Qed.

Lemma set_context_linked H h a c ctx r v :
  R H h a → occ a !! region ch c = None → ctx_ok ch H a c ctx →
  set_context (W:=W) ch (anxt a) c (snd <$> ctx) (MSt (unlinked_h c (anxt a) r h) v)
  = (Ret tt, MSt (linked_h c (anxt a) r ctx h) v).
Proof.
  intros HR Ho Hc. destruct (ctx_ok_facts _ _ _ _ (R_wf _ _ _ _ HR) Hc) as (Hal & Hpar & _).
  destruct ctx as [q|]; simpl in *.
  - pose proof (fresh_ne _ _ _ _ HR Hal) as Hne.
    destruct (R_lookup _ _ _ _ _ HR Hal) as (oq & Hoq & Hqc & _ & _ & Hqi & _).
    assert (o_inner oq !! pos ch c = Some None) as Hin.
    { rewrite Hqi. unfold inner_of. rewrite list_lookup_fmap, lookup_seq_lt by (by apply (pos_lt _ Hwf)).
      simpl. f_equal. unfold region in Ho. rewrite Hpar in Ho. by rewrite Ho. }
    unfold set_context.
    erewrite bind_eq by (eapply add_ref_eq; simpl; rewrite lookup_insert_ne by done; exact Hoq).
    erewrite bind_eq by (eapply store_eq; simpl; rewrite lookup_insert_ne, lookup_insert by done; reflexivity).
    erewrite add_inner_eq; [|simpl; rewrite lookup_insert_ne, lookup_insert by done; reflexivity|exact Hin].
    f_equal. f_equal. unfold linked_h, set_heap. simpl. f_equal.
    rewrite (alter_Some_insert _ _ oq) by done.
    rewrite (insert_commute _ (anxt a) q.2), insert_insert by done.
    rewrite (insert_commute _ (anxt a) q.2), insert_insert by done. done.
  - unfold set_context, add_inner, check. rewrite (pos_top _ Hwf _ Hpar). simpl.
    unfold bind at 1. simpl.
    erewrite bind_eq by (eapply store_eq; simpl; rewrite lookup_insert; reflexivity).
    unfold bind. simpl. unfold linked_h, set_outermost, set_heap. simpl.
    do 3 f_equal. by rewrite insert_insert.
Qed.

Lemma R_linked H h a c ctx :
  R H h a → occ a !! region ch c = None → ctx_ok ch H a c ctx →
  R ((c, anxt a) :: H) (linked_h c (anxt a) 1 ctx h) (created ch (c, anxt a) a).
Proof.
  intros HR Ho Hc. unfold linked_h.
  replace (anxt a + 1) with (nxt h + 1) by by rewrite (R_nxt _ _ _ _ HR).
  apply (R_created ch Hwf H h a c ctx); try done.
  - by rewrite lookup_insert.
  - intros p Hp. rewrite lookup_insert_ne by done. destruct ctx as [q|]; [|done].
    destruct (decide (p = q.2)) as [->|Hne].
    + by rewrite lookup_alter.
    + by rewrite lookup_alter_ne.
Qed.

Lemma linked_add_ref h p c ctx v :
  add_ref (W:=W) p (MSt (linked_h c p 0 ctx h) v)
  = (Ret tt, MSt (linked_h c p 1 ctx h) v).
Proof.
  erewrite add_ref_eq by (simpl; by rewrite lookup_insert).
  unfold linked_h, set_heap. simpl. do 3 f_equal. by rewrite insert_insert.
Qed.
Lemma unlinked_add_ref h c p v :
  add_ref (W:=W) p (MSt (unlinked_h c p 0 h) v) = (Ret tt, MSt (unlinked_h c p 1 h) v).
Proof.
  erewrite add_ref_eq by (simpl; by rewrite lookup_insert).
  unfold unlinked_h, set_heap. simpl. do 3 f_equal. by rewrite insert_insert.
Qed.

Lemma wfa_bump H a : wfa H a → wfa H (set_anxt (anxt a + 1) a).
Proof.
  intros [? ? ? Hf ? ? ? ? Hd]. constructor; try assumption; simpl.
  - intros x Hx. specialize (Hf x Hx). lia.
  - intros p Hp. specialize (Hd p Hp). lia.
Qed.
Lemma linked_readable H h a c r ctx : R H h a → readable ch (set_anxt (anxt a + 1) a) (linked_h c (anxt a) r ctx h).
Proof.
  intros HR. destruct (R_readable _ _ _ _ HR) as [_ H2 H3 H4].
  constructor; [exists H; apply (wfa_bump _ _ (R_wf _ _ _ _ HR))|done|done|]. intros x Hx.
  destruct (H4 x Hx) as (o & Ho & Hcl & Hco). simpl.
  pose proof (fresh_ne _ _ _ _ HR Hx) as Hne. rewrite lookup_insert_ne by done.
  destruct ctx as [q|]; [|eauto].
  destruct (decide (x.2 = q.2)) as [Heq|Hne'].
  - rewrite <-Heq, lookup_alter, Ho. eauto.
  - rewrite lookup_alter_ne, Ho by done. eauto.
Qed.
Lemma linked_anchored H h a c r ctx : R H h a → ctx_ok ch H a c ctx →
  anchored ch (set_anxt (anxt a + 1) a) (Some c) (Some (anxt a)) (linked_h c (anxt a) r ctx h).
Proof.
  intros HR Hc. eexists _, ctx. simpl. rewrite lookup_insert. split_and!; [done..|].
  unfold ctx_ok in Hc. destruct (parent ch c), ctx; try done. by destruct Hc as (? & ? & _).
Qed.
Lemma unlinked_readable H h a c r : R H h a → readable ch (set_anxt (anxt a + 1) a) (unlinked_h c (anxt a) r h).
Proof.
  intros HR. destruct (R_readable _ _ _ _ HR) as [_ H2 H3 H4].
  constructor; [exists H; apply (wfa_bump _ _ (R_wf _ _ _ _ HR))|done|done|]. intros x Hx.
  destruct (H4 x Hx) as (o & Ho & Hcl & Hco). simpl.
  pose proof (fresh_ne _ _ _ _ HR Hx) as Hne. rewrite lookup_insert_ne by done. eauto.
Qed.

(** The clean-up when a constructor throws. *)
Lemma linked_cleanup H h a c ctx v :
  R H h a → occ a !! region ch c = None → ctx_ok ch H a c ctx →
  ∃ h', (unlink ch (anxt a) ;! rel_ctx ch U (snd <$> ctx)) (MSt (linked_h c (anxt a) 0 ctx h) v)
        = (Ret tt, MSt h' v) ∧ R H h' (set_anxt (anxt a + 1) a).
Proof.
  intros HR Ho Hc. pose proof (R_wf _ _ _ _ HR) as Hw.
  destruct (ctx_ok_facts _ _ _ _ Hw Hc) as (Hal & Hpar & HH).
  pose proof (fresh_none _ _ _ HR) as Hfr.
  destruct ctx as [q|]; simpl in *.
  - pose proof (fresh_ne _ _ _ _ HR Hal) as Hne.
    destruct (R_lookup _ _ _ _ _ HR Hal) as (oq & Hoq & Hqc & Hqr & _ & Hqi & _).
    assert (pos ch c < length (o_inner oq)) as Hlen.
    { rewrite Hqi. unfold inner_of. rewrite fmap_length, seq_length. by apply (pos_lt _ Hwf). }
    assert (unlink ch (anxt a) (MSt (linked_h c (anxt a) 0 (Some q) h) v) =
      (Ret tt, MSt (HeapSt (<[q.2 := set_rc (o_rc oq + 1) oq]> (heap h)) (anxt a + 1) (slots h) (send h) (outermost h) (unst h)) v)) as Hun.
    { unfold unlink.
      erewrite bind_eq by (eapply deref_eq; simpl; by rewrite lookup_insert). simpl.
      unfold bind at 1. simpl.
      erewrite bind_eq.
      2:{ eapply remove_inner_eq.
          - simpl. rewrite lookup_insert_ne by done. rewrite lookup_alter, Hoq. done.
          - simpl. rewrite insert_length. done. }
      unfold on_heap, on_core, modify. unfold set_heap, linked_h. simpl. do 3 f_equal.
      rewrite (alter_Some_insert _ _ oq) by done.
      rewrite (insert_commute _ (anxt a) q.2), insert_insert by done.
      rewrite delete_insert_ne by done. rewrite delete_insert by done. f_equal.
      unfold upd_ctx, set_inner, set_rc. simpl. f_equal. rewrite list_insert_insert.
      apply list_insert_id. rewrite Hqi. unfold inner_of.
      rewrite list_lookup_fmap, lookup_seq_lt by (by apply (pos_lt _ Hwf)). simpl. f_equal.
      unfold region in Ho. rewrite Hpar in Ho. by rewrite Ho. }
    rewrite (bind_eq _ _ _ _ _ Hun). unfold rel, depth_fuel.
    replace (2 * ncls ch + 2) with (Datatypes.S (2 * ncls ch + 1)) by lia.
    destruct (crun_release ch U Hwf (2 * ncls ch + 1) q H (set_anxt (anxt a + 1) a)) with
      (MSt (HeapSt (<[q.2 := set_rc (o_rc oq + 1) oq]> (heap h)) (anxt a + 1) (slots h) (send h) (outermost h) (unst h)) v)
      as (u & [h' v'] & Heq & He & HR').
    + done.
    + unfold busy. rewrite (bool_decide_true (q ∈ H)) by auto. by rewrite orb_true_r.
    + simpl. pose proof (R_bump _ _ _ HR) as HRb.
      replace (o_rc oq + 1) with (refs (q :: H) (set_anxt (anxt a + 1) a) q).
      * eapply (R_setH _ H (q :: H) _ _ q oq HRb); [done|done| |].
        -- intros y Hy. rewrite count_in_cons, bool_decide_false by done. done.
        -- intros y [->|Hy]%elem_of_cons; [done|]. by apply (wa_H _ _ _ Hw).
      * rewrite Hqr. unfold RefineBase.refs. rewrite count_in_cons, (bool_decide_true (q = q)) by done.
        unfold Abs.kids. simpl. lia.
    + simpl in He, HR'. subst v'. destruct u. exists h'. done.
  - assert (outermost h = None) as Htop.
    { rewrite (R_top _ _ _ _ HR). unfold region in Ho. rewrite Hpar, (pos_top _ Hwf _ Hpar) in Ho.
      by rewrite Ho. }
    eexists. split.
    + unfold unlink. unfold bind at 1.
      erewrite bind_eq by (eapply deref_eq; simpl; by rewrite lookup_insert). simpl.
      unfold bind at 1. simpl. unfold bind at 1. rewrite (pos_top _ Hwf _ Hpar). simpl. done.
    + simpl. pose proof (R_bump _ _ _ HR) as HRb. rewrite Htop in HRb.
      unfold set_heap. simpl. rewrite delete_insert by done. done.
Qed.
Lemma unlinked_cleanup H h a c (v : env W) :
  R H h a →
  ∃ h', unlink ch (anxt a) (MSt (unlinked_h c (anxt a) 0 h) v)
        = (Ret tt, MSt h' v) ∧ R H h' (set_anxt (anxt a + 1) a).
Proof.
  intros HR. pose proof (fresh_none _ _ _ HR) as Hfr. eexists. split.
  - unfold unlink.
    erewrite bind_eq by (eapply deref_eq; simpl; by rewrite lookup_insert). simpl. done.
  - simpl. pose proof (R_bump _ _ _ HR) as HRb.
    unfold set_heap. simpl. rewrite delete_insert by done. done.
Qed.

Lemma sim_state {A B} (P : S → T → Prop) (k : S → M S A) (k' : T → M T B) Q E :
  (∀ s t, P s t → sim (λ s' t', s' = s ∧ t' = t) (k s) (k' t) Q E) →
  sim P (bind (gets id) k) (bind (gets id) k') Q E.
Proof. intros Hs s t Hst. by apply (Hs s t Hst s t). Qed.

Lemma sim_at {A B} (P : S → T → Prop) (m : M S A) (m' : M T B) Q E s t :
  P s t → sim P m m' Q E → sim (λ s' t', s' = s ∧ t' = t) m m' Q E.
Proof. intros Hst Hs s' t' [-> ->]. by apply (Hs s t). Qed.

Lemma sim_seq_unit {P : S → T → Prop} (m : M S unit) (m' : M T unit) (Q : S → T → Prop) E :
  sim P (m ;! ret tt) (m' ;! ret tt) (λ _ _, Q) E → sim P m m' (λ _ _, Q) E.
Proof.
  intros Hs s t Hst. specialize (Hs s t Hst). revert Hs. unfold bind.
  destruct (m' t) as [[b|y|f|] t'].
  - destruct (m s) as [[[]|y|f|] s']; simpl; intros (v & s'' & Heq & HR'); try done.
    injection Heq as <- <-. destruct b. exists tt, s'. done.
  - destruct (m s) as [[[]|z|f|] s']; simpl; intros (s'' & Heq & HR'); try done.
    injection Heq as <- <-. eauto.
  - done.
  - destruct (m s) as [[[]|z|f|] s']; simpl; intros (s'' & Heq & HR'); try done.
    injection Heq as <-. eauto.
Qed.

(** The user's constructor, run on a heap that is not [R]-related. *)
Lemma sim_user_ctor (P : heapst → Prop) a p c :
  (∀ h, P h → readable ch a h ∧ (cd_state (cd ch c) = true → anchored ch a (Some c) (Some p) h)) →
  sim (RP P a) (user_ctor ch U p c) (a_user_ctor ch U p c) (λ _ _, RP P a) (RP P a).
Proof.
  intros HP. unfold user_ctor, a_user_ctor.
  assert (∀ (m : M S unit) (m' : M T unit) Q E, sim (RP P a) m m' Q E →
    sim (RP P a) (when (cd_state (cd ch c)) (look_around ch (Some c) (Some p)) ;! m) m' Q E) as Hlook.
  { intros m m' Q E Hs. destruct (cd_state (cd ch c)); [|by apply sim_unit_l].
    apply (sim_look ch Hwf); [|done]. intros h Hh. destruct (HP h Hh). auto. }
  apply Hlook. clear Hlook.
  eapply (sim_bind _ _ _ _ _ (λ r r' s t, r = r' ∧ RP P a s t)).
  - eapply sim_weaken; [apply sim_ucall|done|done|intros ? ? []].
    intros h Hh. apply (readable_leaves ch). by apply HP.
  - intros r r'. apply (sim_pure_l _ _ (r = r')); [by intros s t [? _]|]. intros <-.
    eapply (sim_weaken _ (RP P a)); [|by intros s t [_ ?]|by intros ? ? ? ? Hq; exact Hq|by intros ? ? Hq; exact Hq].
    destruct r as [x|].
    + apply sim_on_env, sim_on_env. by apply sim_throw.
    + by apply sim_on_env'.
Qed.
Lemma sim_simple_ctor (P : heapst → Prop) a p c : cd_state (cd ch c) = false →
  (∀ h, P h → readable ch a h) →
  sim (RP P a) (simple_ctor ch U p c) (a_simple_ctor ch U p c) (λ _ _, RP P a) (RP P a).
Proof.
  intros Hst' HP. unfold simple_ctor, a_simple_ctor. apply sim_state. intros s t Hst.
  eapply sim_at; [exact Hst|]. destruct Hst as (Hh & Ha & He). subst a.
  rewrite (readable_leaves ch _ _ (HP _ Hh)), He. unfold check. destruct (_.1.2); [|apply sim_faulty].
  apply sim_unit_l, sim_unit_r. apply sim_user_ctor. intros h Hh'. split; [by apply HP|]. by rewrite Hst'.
Qed.

Lemma R_created_bump H h a c ctx :
  R H h a → occ a !! region ch c = None → ctx_ok ch H a c ctx →
  R ((c, anxt a) :: H) (linked_h c (anxt a) 1 ctx h)
    (set_occ (<[region ch c := (c, anxt a)]> (occ (set_anxt (anxt a + 1) a))) (set_anxt (anxt a + 1) a)).
Proof. intros HR Ho Hc. exact (R_linked _ _ _ _ _ HR Ho Hc). Qed.

Lemma sim_new H a c ctx :
  sim (RA H a) (new_state ch U c (snd <$> ctx)) (a_new ch U H c ctx)
    (λ p x s t, p = anxt a ∧ x = (c, anxt a) ∧ ctx_ok ch H a c ctx ∧ occ a !! region ch c = None ∧
                RA (x :: H) (created ch x a) s t)
    (RR H).
Proof.
  unfold a_new, new_state. eapply (sim_bind _ _ _ _ _ (λ _ _, RA H a)).
  { eapply sim_weaken; [apply sim_alloc|done|done|]. intros ? ? ?. by eapply RA_RR. }
  intros _ _. apply sim_core_r. cbv zeta. apply sim_assert_r. intros Hc.
  apply sim_assert_r. intros Ho. apply sim_on_core_r.
  set (p := anxt a). set (a1 := set_anxt (p + 1) a).
  assert (∀ v w, abs_leaves a = v → abs_leaves a1 = w → v = w) as Hla by (intros; subst; done).
  eapply (sim_bind_l _ _ _ _ (λ v s t, v = p ∧ RP (λ h, R H h a) a1 s t)).
  { intros s t (HR & Ht & He). eexists _, s. split; [done|]. split; [|done].
    by rewrite (R_nxt _ _ _ _ HR). }
  intros p'. apply (sim_pure_l _ _ (p' = p)); [by intros ? ? [? _]|]. intros ->.
  eapply (sim_bind_l _ _ _ _ (λ _, RP (λ h, ∃ h0, R H h0 a ∧ h = unlinked_h c p 0 h0) a1)).
  { intros s t (_ & HR & Ht & He). eexists tt, _. split; [done|]. split; [|done]. simpl. eauto. }
  intros _. destruct (cd_state (cd ch c)) eqn:Hst'.
  - (* state<> *)
    apply sim_assoc_l.
    eapply (sim_bind_l _ _ _ _ (λ _, RP (λ h, ∃ h0, R H h0 a ∧ h = linked_h c p 0 ctx h0) a1)).
    { intros [h v] t ((h0 & HR & Hh) & Ht & He). simpl in Hh. subst h.
      eexists tt, _. split; [by apply (set_context_linked H)|]. split; [|done]. simpl. eauto. }
    intros _.
    eapply (sim_bind _ _ _ _ _ (λ _ _, RP (λ h, ∃ h0, R H h0 a ∧ h = linked_h c p 0 ctx h0) a1)).
    + intros s t Hst. unfold on_exn.
      pose proof (sim_user_ctor (λ h, ∃ h0, R H h0 a ∧ h = linked_h c p 0 ctx h0) a1 p c) as Hs.
      specialize (Hs ltac:(intros h (h0 & HR & ->); split;
        [exact (linked_readable H h0 a c 0 ctx HR)|intros _; exact (linked_anchored H h0 a c 0 ctx HR Hc)]) s t Hst).
      pose proof (nodiv_user_ctor ch U p c t) as Hnd.
      destruct (a_user_ctor ch U p c t) as [[b|x|f|] t'].
      * destruct Hs as (v & s' & -> & HP). eauto.
      * destruct Hs as ([h v] & -> & ((h0 & HR & Hh) & Ht & He)). simpl in Hh. subst h.
        destruct (linked_cleanup H h0 a c ctx v HR Ho Hc) as (h' & Hcl & HR').
        fold p in Hcl. rewrite Hcl. eexists. split; [done|]. split; [|done]. simpl. by rewrite Ht.
      * done.
      * done.
    + intros _ _. apply sim_on_core_r.
      eapply (sim_bind_l _ _ _ _ (λ _, RA ((c, p) :: H) (created ch (c, p) a))).
      { intros [h v] t ((h0 & HR & Hh) & Ht & He). simpl in Hh. subst h.
        eexists tt, _. split; [by apply linked_add_ref|]. split; [|done]. simpl.
        by apply R_linked. }
      intros _. apply sim_unit_l. apply sim_ret. intros s t Hst. done.
  - (* simple_state<> *)
    eapply (sim_bind _ _ _ _ _ (λ _ _, RP (λ h, ∃ h0, R H h0 a ∧ h = unlinked_h c p 0 h0) a1)).
    + intros s t Hst. unfold on_exn.
      pose proof (sim_simple_ctor (λ h, ∃ h0, R H h0 a ∧ h = unlinked_h c p 0 h0) a1 p c Hst') as Hs.
      specialize (Hs ltac:(intros h (h0 & HR & ->); exact (unlinked_readable H h0 a c 0 HR)) s t Hst).
      pose proof (nodiv_simple_ctor ch U p c t) as Hnd.
      destruct (a_simple_ctor ch U p c t) as [[b|x|f|] t'].
      * destruct Hs as (v & s' & -> & HP). eauto.
      * destruct Hs as ([h v] & -> & ((h0 & HR & Hh) & Ht & He)). simpl in Hh. subst h.
        destruct (unlinked_cleanup H h0 a c v HR) as (h' & Hcl & HR').
        fold p in Hcl. rewrite Hcl. eexists. split; [done|]. split; [|done]. simpl. by rewrite Ht.
      * done.
      * done.
    + intros _ _. apply sim_on_core_r.
      eapply (sim_bind_l _ _ _ _ (λ _, RP (λ h, ∃ h0, R H h0 a ∧ h = unlinked_h c p 1 h0) (created ch (c, p) a))).
      { intros [h v] t ((h0 & HR & Hh) & Ht & He). simpl in Hh. subst h.
        eexists tt, _. split; [by apply unlinked_add_ref|]. split; [|done]. simpl. eauto. }
      intros _.
      eapply (sim_bind_l _ _ _ _ (λ _, RA ((c, p) :: H) (created ch (c, p) a))).
      { intros [h v] t ((h0 & HR & Hh) & Ht & He). simpl in Hh. subst h.
        eexists tt, _. split; [by apply (set_context_linked H)|]. split; [|done]. simpl.
        by apply R_linked. }
      intros _. apply sim_ret. intros s t Hst. done.
Qed.

Lemma sim_add H a x ctx :
  alive a x → x ∈ H → (is_leaf ch x.1 = true → x ∉ ord a) → ctx = ctx_of ch a x.1 →
  sim (RA H a) (add_state (W:=W) ch x.2 x.1) (a_add (W:=W) ch H x ctx) (λ _ _, RR H) bot.
Proof.
  intros Hx HxH Hn Hctx. unfold add_state, a_add.
  set (a1 := if is_leaf ch x.1 then set_ord (ord a ++ [x]) a else a).
  assert (∀ (KC : M S unit) (KA : M T unit) Q E,
    sim (RA H a1) KC KA Q E →
    sim (RA H a) (bind (if is_leaf ch x.1 then add_leaf x.2 else ret tt) (λ _, KC))
      (bind (if is_leaf ch x.1 then on_core (λ a, set_ord (ord a ++ [x]) a) else ret tt) (λ _, KA)) Q E) as H1.
  { intros KC KA Q E HK. unfold a1 in HK. destruct (is_leaf ch x.1) eqn:Hl.
    - apply sim_on_core_r. eapply (sim_bind_l _ _ _ _ (λ _, RA H (set_ord (ord a ++ [x]) a))).
      + intros s t (HR & Ht & He).
        destruct (crun_add_leaf (W:=W) ch x H a Hx Hl (Hn eq_refl) s HR) as (v & s' & Heq & He' & HR').
        exists v, s'. split; [done|]. split; [done|]. split; [done|congruence].
      + intros _. exact HK.
    - apply sim_unit_l, sim_unit_r. exact HK. }
  apply H1. clear H1.
  assert (alive a1 x) as Hx1 by (unfold a1; by destruct (is_leaf ch x.1)).
  assert (ctx_of ch a1 x.1 = ctx) as Hctx1 by (unfold a1; by destruct (is_leaf ch x.1)).
  clearbody a1. clear Hn Hctx.
  eapply (sim_crun _ _ _ _ _ _ _ _ (crun_deref ch x H a1 Hx1)). intros o.
  apply sim_state. intros s t ((HR & Ho) & Ht & He).
  destruct (R_lookup _ _ _ _ _ HR Hx1) as (o' & Ho' & _ & _ & Hoc & _).
  assert (o' = o) as -> by congruence.
  rewrite He, Hoc. simpl mjoin.
  assert (bool_decide (unst (core s) = snd <$> ctx_of ch a1 x.1) = bool_decide (aunst (core t) = ctx)) as Hbd.
  { apply bool_decide_ext. rewrite (R_unst _ _ _ _ HR), Hctx1, Ht.
    split; [|by intros ->]. intros Heq. pose proof (R_wf _ _ _ _ HR) as Hw.
    destruct (aunst a1) as [u|] eqn:Eu, ctx as [q|]; simpl in Heq; try done.
    injection Heq as Heq. f_equal. destruct x as [c p].
    destruct (ctx_of_alive _ _ _ _ _ _ Hw Hx1 Hctx1) as [Hq _].
    apply (wfa_alive_inj _ _ _ _ _ Hw); [by apply (wa_unst _ _ _ Hw)|done|done]. }
  rewrite Hbd. eapply (sim_at (RA H a1)); [done|].
  destruct (ico (en t) || _).
  - apply sim_on_env.
    replace (if is_leaf ch x.1 then None else Some x.2) with
      (snd <$> (if is_leaf ch x.1 then None else Some x)) by by destruct (is_leaf ch x.1).
    apply sim_seq_unit. apply sim_assign_unst. intros ?. apply sim_ret. intros ? ? ?. by eapply RA_RR.
  - apply sim_ret. intros ? ? ?. by eapply RA_RR.
Qed.

(** Destroying a new innermost state destroys nothing else. *)
Lemma ucall_core {X A} (lv : X → list cls) (f : view → W → W * list cmd * A) (s : mst W X) :
  core (ucall ch lv f s).2 = core s.
Proof.
  unfold ucall, bind, gets, on_env, modify. destruct (f _ _) as [[w cs] r].
  assert (∀ l (s0 : mst W X), core (iter (do_cmd ch) l s0).2 = core s0) as Hl.
  { induction l as [|y l IH]; intros s0; [done|]. simpl. unfold bind.
    assert (core (do_cmd ch y s0).2 = core s0) as Hy.
    { destruct y; simpl; [done|by destruct (clear_ok _ _ _ _)..]. }
    destruct (do_cmd ch y s0) as [[] s1]; simpl in *; try done. by rewrite IH. }
  match goal with |- context [iter _ cs ?s0] => specialize (Hl cs s0); destruct (iter (do_cmd ch) cs s0) as [[] s1] end; done.
Qed.
Lemma destroy_core x (t t' : T) u : a_destroy ch U x t = (Ret u, t') → core t' = destroyed ch x (core t).
Proof.
  unfold a_destroy, emit, on_env, on_core, modify, gets, a_user_dtor. unfold bind at 1. unfold bind at 1.
  match goal with |- context [ucall ch abs_leaves ?f ?s0] =>
    pose proof (ucall_core abs_leaves f s0) as Hc; destruct (ucall ch abs_leaves f s0) as [[] t1] end; try done.
  simpl in Hc. unfold bind. case_bool_decide; simpl; intros [= _ <-]; simpl; by rewrite Hc.
Qed.
Lemma drop_new H a c ctx (t : T) : let x := (c, anxt a) in
  wfa H a → occ a !! region ch c = None → ctx_ok ch H a c ctx → is_leaf ch c = true → core t = created ch x a →
  drop_ ch U H x t = a_destroy ch U x t.
Proof.
  intros x Hw Ho Hc Hl Ht. pose proof (λ y, created_alive ch H a x y Hw Ho) as Hal.
  assert (∀ z, alive a z → z ≠ x) as Hold.
  { intros z Hz ->. apply (wa_fresh _ _ _ Hw) in Hz. simpl in Hz. lia. }
  assert (alive (core t) x) as Hx by (rewrite Ht; apply Hal; by right).
  assert (busy ch H (core t) x = false) as Hb.
  { unfold busy. rewrite Ht. apply not_true_is_false. intros Hb.
    repeat (apply orb_true_iff in Hb as [Hb|Hb]); apply bool_decide_eq_true in Hb.
    - apply Hb. apply kids_nil. intros k Hk. unfold is_leaf in Hl. apply bool_decide_eq_true in Hl. simpl in Hk. lia.
    - simpl in Hb. apply (wa_ord _ _ _ Hw) in Hb as [Hb _]. by apply Hold in Hb.
    - simpl in Hb. apply (wa_unst _ _ _ Hw) in Hb. by apply Hold in Hb.
    - apply (wa_H _ _ _ Hw) in Hb. by apply Hold in Hb. }
  unfold drop_. replace (depth_fuel ch) with (Datatypes.S (Datatypes.S (2 * ncls ch))) by (unfold depth_fuel; lia).
  cbn [a_drop]. unfold bind at 1, gets. unfold bind at 1, assert, check. rewrite bool_decide_true by done.
  unfold ret at 1. rewrite Hb. unfold bind at 1. destruct (a_destroy ch U x t) as [[[]| | |] t1] eqn:E; try done.
  assert (ctx_of ch (core t) x.1 = ctx) as ->.
  { rewrite Ht. unfold ctx_of, created. simpl. unfold ctx_ok in Hc.
    destruct (parent ch c) as [q|] eqn:Hp, ctx as [z|]; try done. destruct Hc as (<- & Hz & _).
    rewrite lookup_insert_ne; [done|]. intros Heq. unfold Abs.alive in Hz. rewrite <-Heq in Hz. congruence. }
  destruct ctx as [q|]; [|done]. unfold ctx_ok in Hc. destruct (parent ch c) eqn:Hp; [|done]. destruct Hc as (_ & Hq & HqH).
  apply destroy_core in E. unfold bind at 1. unfold bind at 1. rewrite bool_decide_true.
  - unfold ret at 1. replace (busy ch H (core t1) q) with true; [done|]. symmetry. unfold busy.
    rewrite (bool_decide_true (q ∈ H)) by done. apply orb_true_r.
  - rewrite E, Ht. unfold Abs.alive, destroyed, created. simpl.
    assert (region ch c ≠ region ch q.1). { intros Heq. unfold Abs.alive in Hq. rewrite <-Heq in Hq. congruence. }
    rewrite lookup_delete_ne, lookup_insert_ne by done. done.
Qed.

Lemma sim_shallow H c ctx :
  sim (RR H) (shallow_construct ch U c (snd <$> ctx)) (a_shallow ch U H c ctx)
    (λ p x s t, p = x.2 ∧ RR (x :: H) s t) (RR H).
Proof.
  apply sim_fix. intros a.
  apply (sim_pure_l _ _ (wfa H a)); [intros s t (HR & _); apply (R_wf _ _ _ _ HR)|]. intros Hw.
  unfold shallow_construct, a_shallow. eapply sim_bind; [apply sim_new|].
  intros p x. simpl.
  apply (sim_pure_l _ _ (p = anxt a ∧ x = (c, anxt a) ∧ ctx_ok ch H a c ctx ∧ occ a !! region ch c = None));
    [intros s t (? & ? & ? & ? & _); done|].
  intros (-> & -> & Hc & Ho). set (x := (c, anxt a)).
  eapply (sim_bind _ _ _ _ _ (λ _ _, RA (x :: H) (created ch x a))).
  { eapply (sim_weaken _ (RA (x :: H) (created ch x a))); [|by intros s t (_ & _ & _ & _ & Hst)|by intros ? ? ? ? HQ; exact HQ|by intros ? ? HQ; exact HQ].
    unfold new_entry, a_entry. simpl. destruct (is_leaf ch c) eqn:Hl; [|by apply sim_ret]. simpl.
    eapply sim_on_exn; [apply sim_alloc| |].
    - intros s t Hst. pose proof Hst as (_ & Ht & _).
      pose proof (sim_rel ch U Hwf H x s t (RA_RR ch _ _ _ _ Hst)) as Hs.
      pose proof (drop_new H a c ctx t Hw Ho Hc Hl Ht) as Hd. cbv zeta in Hd. fold x in Hd. rewrite Hd in Hs. clear Hd.
      destruct (a_destroy ch U x t) as [[] ?]; try exact Hs; by destruct Hs as (? & _ & []).
    - intros s t _. assert (nodiv (alloc (X:=acore) U (AEntry c))) as Hnd by nodiv. specialize (Hnd t). by destruct (alloc _ _ t) as [[]]. }
  intros _ _.
  eapply (sim_bind _ _ _ _ _ (λ _ _, RR (x :: H))).
  - eapply sim_weaken; [apply (sim_add (x :: H) (created ch x a) x ctx)|done|done|intros ? ? []].
    + apply (created_alive ch H a x x Hw Ho). by right.
    + left.
    + intros _ Hin. apply (wa_ord _ _ _ Hw) in Hin as [Hin _].
      apply (wa_fresh _ _ _ Hw) in Hin. simpl in Hin. lia.
    + destruct (ctx_ok_facts _ _ _ _ Hw Hc) as (Hal & Hpar & _).
      unfold ctx_of. simpl. rewrite Hpar. destruct ctx as [q|]; [|done]. simpl.
      rewrite lookup_insert_ne; [by rewrite Hal|]. intros Heq. simpl in Hal. unfold Abs.alive in Hal. congruence.
  - intros ? ?. by apply sim_ret.
Qed.

Lemma sim_construct n H path d ctx :
  sim (RR H) (construct ch U n path d (snd <$> ctx)) (a_construct ch U n H path d ctx)
    (λ _ _, RR H) (RR H).
Proof.
  revert H path d ctx. induction n as [|n IH]; intros H path d ctx; [apply sim_faulty|]. simpl.
  assert (∀ l x, sim (RR (x :: H))
    (construct_inner (λ i, construct ch U n [] i (Some x.2)) l)
    (iter (λ i, a_construct ch U n (x :: H) [] i (Some x)) l) (λ _ _, RR (x :: H)) (RR (x :: H))) as Hin.
  { intros l x. apply sim_iter. apply Forall2_same_length_lookup_2; [done|].
    intros i u v Hu Hv. assert (u = v) as -> by congruence. apply (IH (x :: H) [] v (Some x)). }
  assert (∀ (KC : M S unit) (KA : M T unit) x, nodiv KA →
    sim (RR (x :: H)) KC KA (λ _ _, RR (x :: H)) (RR (x :: H)) →
    sim (RR (x :: H)) (finally KC (rel ch U x.2)) (finally KA (drop_ ch U H x)) (λ _ _, RR H) (RR H)) as Hfin.
  { intros KC KA x Hnd HK. eapply sim_finally; [exact HK| | |].
    - intros ? ?. eapply sim_weaken; [by apply sim_rel|done|done|intros ? ? []].
    - eapply sim_weaken; [by apply sim_rel|done|done|intros ? ? []].
    - intros s t _. specialize (Hnd t). by destruct (KA t) as [[]]. }
  destruct path as [|c path].
  - destruct d as [c|c|c].
    + eapply sim_bind; [apply sim_shallow|]. intros p x. simpl.
      apply (sim_pure_l _ _ (p = x.2)); [by intros ? ? [? _]|]. intros ->.
      eapply sim_weaken; [apply Hfin|by intros ? ? [_ ?]|done|done]; [nodiv|]. apply Hin.
    + eapply (sim_bind _ _ _ _ _ (λ v w s t, v = w ∧ RR H s t)).
      { intros s t Hst. eexists _, s. split; [done|]. split; [|done]. destruct Hst as [_ ->]. done. }
      intros m m'. apply (sim_pure_l _ _ (m = m')); [by intros ? ? [? _]|]. intros <-.
      eapply (sim_weaken _ (RR H)); [|by intros ? ? [_ ?]|by intros ? ? ? ? HQ; exact HQ|by intros ? ? HQ; exact HQ].
      destruct (m !! region ch c) as [[h|]|];
        (eapply (sim_bind _ _ _ _ _ (λ _ _, RR H));
          [apply sim_fix; intros a; apply sim_on_env'; intros ? ?; by apply RA_RR|intros ? ?; apply IH]).
    + eapply (sim_bind _ _ _ _ _ (λ v w s t, v = w ∧ RR H s t)).
      { intros s t Hst. eexists _, s. split; [done|]. split; [|done]. destruct Hst as [_ ->]. done. }
      intros m m'. apply (sim_pure_l _ _ (m = m')); [by intros ? ? [? _]|]. intros <-.
      eapply (sim_weaken _ (RR H)); [|by intros ? ? [_ ?]|by intros ? ? ? ? HQ; exact HQ|by intros ? ? HQ; exact HQ].
      destruct (m !! region ch c) as [[h|]|];
        (eapply (sim_bind _ _ _ _ _ (λ _ _, RR H));
          [apply sim_fix; intros a; apply sim_on_env'; intros ? ?; by apply RA_RR|intros ? ?; apply IH]).
  - eapply sim_bind; [apply sim_shallow|]. intros p x. simpl.
    apply (sim_pure_l _ _ (p = x.2)); [by intros ? ? [? _]|]. intros ->.
    eapply sim_weaken; [apply Hfin|by intros ? ? [_ ?]|done|done]; [nodiv|].
    eapply sim_bind; [apply Hin|]. intros ? ?. eapply sim_bind; [apply (IH (x :: H) path d (Some x))|].
    intros ? ?. apply Hin.
Qed.

Lemma sim_constructs H path d ctx :
  sim (RR H) (constructs ch U path d (snd <$> ctx)) (a_constructs ch U H path d ctx)
    (λ _ _, RR H) (RR H).
Proof. apply sim_construct. Qed.

End build.
