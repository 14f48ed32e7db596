(** * Invariant of the event objects and their pointers *)
From Verif Require Export EventRef.

Section inv.
Implicit Types (s : est) (a b : addr) (l : list eev).

Definition nrefs a (rs : list ref) : nat := length (filter (λ r, raddr r = a) rs).

Definition origin (h : gmap addr obj) l n b : Prop :=
  ∃ l1 l2 a, l = l1 ++ TPost n a :: l2 ∧
    ((made_as a Own l1 ∧ ∃ x, h !! b = Some x ∧ okind x = Cloned ∧ contents a l1 = Some (oval x)) ∨
     (¬ made_as a Own l1 ∧ b = a)).

Definition seen_ok l : Prop := ∀ l1 l2 n v, l = l1 ++ TSeen n v :: l2 →
  ∃ l0 l0' a, l1 = l0 ++ TPost n a :: l0' ∧
    ((made_as a Own l0 ∧ contents a l0 = Some v) ∨ (¬ made_as a Own l0 ∧ contents a l1 = Some v)).

Record EInv s : Prop := {
  v_new a x : eheap s !! a = Some x → a < enext s;
  v_made a k : made_as a k (etr s) ↔ ∃ x, eheap s !! a = Some x ∧ okind x = k;
  v_val a x : eheap s !! a = Some x → contents a (etr s) = Some (oval x);
  v_live a x : eheap s !! a = Some x → (olive x = true ↔ a ∉ ended (etr s));
  v_ended a : a ∈ ended (etr s) → a < enext s;
  v_once : NoDup (ended (etr s));
  v_own a x : eheap s !! a = Some x → okind x = Own → ocnt x = 0 ∧ TDel a ∉ etr s;
  v_cnt a x : eheap s !! a = Some x → okind x ≠ Own →
    ocnt x = nrefs a (erefs s) ∧ (olive x = true ↔ ocnt x ≠ 0) ∧ TEnd a ∉ etr s;
  v_refs r : r ∈ erefs s → ∃ x, eheap s !! raddr r = Some x ∧ okind x ≠ Own;
  v_posts n a : TPost n a ∈ etr s → n < eposts s;
  v_post1 l1 l2 n a : etr s = l1 ++ TPost n a :: l2 → ∀ b, TPost n b ∉ l2;
  v_orig r n : r ∈ erefs s → rpost r = Some n → origin (eheap s) (etr s) n (raddr r);
  v_seen : seen_ok (etr s)
}.

(** ** Traces *)
Lemma contents_app a l1 l2 : contents a (l1 ++ l2) = foldl (contents_step a) (contents a l1) l2.
Proof. unfold contents. by rewrite foldl_app. Qed.
Lemma contents_snoc a l e : contents a (l ++ [e]) = contents_step a (contents a l) e.
Proof. by rewrite contents_app. Qed.
Lemma ended_app l1 l2 : ended (l1 ++ l2) = ended l1 ++ ended l2.
Proof. induction l1 as [|e l1 IH]; [done|]. destruct e; simpl; by rewrite ?IH. Qed.
Lemma made_snoc a k l e : made_as a k (l ++ [e]) ↔ made_as a k l ∨ ∃ v, e = TNew a k v.
Proof.
  unfold made_as. setoid_rewrite elem_of_app. setoid_rewrite elem_of_list_singleton. naive_solver.
Qed.
Lemma made_app a k l1 l2 : made_as a k l1 → made_as a k (l1 ++ l2).
Proof. intros [v Hv]. exists v. apply elem_of_app. auto. Qed.
Lemma snoc_split {A} (l l1 l2 : list A) e x : l ++ [e] = l1 ++ x :: l2 →
  (l2 = [] ∧ e = x ∧ l = l1) ∨ (∃ l2' : list A, l2 = l2' ++ [e] ∧ l = l1 ++ x :: l2').
Proof.
  induction l2 as [|y l2' _] using rev_ind; intros H.
  - left. by apply app_inj_tail in H as [-> ->].
  - right. exists l2'. rewrite app_comm_cons, app_assoc in H. by apply app_inj_tail in H as [-> ->].
Qed.
Lemma seen_snoc l e : seen_ok l → (∀ n v, e ≠ TSeen n v) → seen_ok (l ++ [e]).
Proof.
  intros H He l1 l2 n v [(-> & -> & _)|(l2' & -> & ->)]%snoc_split; [by destruct (He n v)|]. by eapply H.
Qed.
Lemma origin_snoc h l e n b : origin h l n b → origin h (l ++ [e]) n b.
Proof.
  intros (l1 & l2 & a & -> & H). exists l1, (l2 ++ [e]), a. split; [by rewrite <- app_assoc|done].
Qed.
Lemma origin_heap h h' l n b : origin h l n b →
  (∀ x, h !! b = Some x → okind x = Cloned → ∃ x', h' !! b = Some x' ∧ okind x' = Cloned ∧ oval x' = oval x) →
  origin h' l n b.
Proof.
  intros (l1 & l2 & a & -> & H) Hh. exists l1, l2, a. split; [done|].
  destruct H as [(Ho & x & Hx & Hk & Hc)|?]; [left|by right]. split; [done|].
  destruct (Hh x Hx Hk) as (x' & ? & ? & Hv). exists x'. by rewrite Hv.
Qed.

(** ** Pointers *)
Lemma nrefs_app a (l1 l2 : list ref) : nrefs a (l1 ++ l2) = nrefs a l1 + nrefs a l2.
Proof. unfold nrefs. by rewrite filter_app, app_length. Qed.
Lemma nrefs_one a r : nrefs a [r] = if decide (raddr r = a) then 1 else 0.
Proof. unfold nrefs. rewrite filter_cons, filter_nil. by case_decide. Qed.
Lemma nrefs_delete a rs k r : rs !! k = Some r →
  nrefs a rs = nrefs a (delete k rs) + if decide (raddr r = a) then 1 else 0.
Proof.
  intros Hk. rewrite <- (take_drop_middle rs k r Hk) at 1. rewrite delete_take_drop.
  rewrite !nrefs_app. change (r :: drop (S k) rs) with ([r] ++ drop (S k) rs).
  rewrite nrefs_app, nrefs_one. lia.
Qed.
Lemma nrefs_pos a rs : nrefs a rs ≠ 0 ↔ ∃ r, r ∈ rs ∧ raddr r = a.
Proof.
  unfold nrefs. split.
  - intros H. destruct (filter _ rs) as [|r rs'] eqn:E; [done|]. exists r.
    assert (r ∈ filter (λ r, raddr r = a) rs) as Hr by (rewrite E; by left).
    apply elem_of_list_filter in Hr as [? ?]. done.
  - intros (r & Hr & Ha) H0. apply nil_length_inv in H0.
    assert (r ∈ filter (λ r, raddr r = a) rs) as Hf by (apply elem_of_list_filter; done).
    rewrite H0 in Hf. by apply elem_of_nil in Hf.
Qed.
Lemma nrefs_perm a (rs rs' : list ref) : raddr <$> rs ≡ₚ raddr <$> rs' → nrefs a rs = nrefs a rs'.
Proof.
  assert (∀ rs, nrefs a rs = length (filter (λ b, b = a) (raddr <$> rs))) as Hn.
  { clear. intros rs. unfold nrefs. induction rs as [|r rs IH]; [done|]. rewrite fmap_cons, !filter_cons.
    case_decide; simpl; by rewrite ?IH. }
  intros H. rewrite !Hn. by rewrite H.
Qed.

Lemma EInv_init : EInv est_init.
Proof.
  assert (∀ a (x : obj), (∅ : gmap addr obj) !! a = Some x → False) as He by (intros a x Hx; by rewrite lookup_empty in Hx).
  split; simpl.
  - intros a x []%He.
  - intros a k. split; [by intros [v Hv%elem_of_nil]|intros (x & []%He & _)].
  - intros a x []%He.
  - intros a x []%He.
  - by intros a Ha%elem_of_nil.
  - constructor.
  - intros a x []%He.
  - intros a x []%He.
  - by intros r Hr%elem_of_nil.
  - by intros n a Ha%elem_of_nil.
  - intros l1 l2 n a H. by destruct l1.
  - by intros r n Hr%elem_of_nil.
  - intros l1 l2 n v H. by destruct l1.
Qed.

(** a live object whose contents stay (count, places may change) *)
Lemma live_at s a x : EInv s → eheap s !! a = Some x → olive x = true → at_ a s = Some (x, s).
Proof. intros _ Hx Hl. unfold at_. by rewrite Hx, Hl. Qed.
Lemma ref_live s r : EInv s → r ∈ erefs s → ∃ x, eheap s !! raddr r = Some x ∧ okind x ≠ Own ∧ olive x = true ∧
  ocnt x = nrefs (raddr r) (erefs s) ∧ ocnt x ≠ 0.
Proof.
  intros I Hr. destruct (v_refs _ I r Hr) as (x & Hx & Hk). exists x. 
  destruct (v_cnt _ I _ _ Hx Hk) as (Hc & Hl & _).
  assert (ocnt x ≠ 0) by (rewrite Hc; apply nrefs_pos; eauto). tauto.
Qed.
Lemma nameable_live s a : EInv s → nameable s a → ∃ x, eheap s !! a = Some x ∧ olive x = true.
Proof.
  intros I [(x & Hx & _ & Hl)|(r & Hr & <- & _)]; [eauto|].
  destruct (ref_live _ _ I Hr) as (x & ? & _ & ? & _). eauto.
Qed.

(** ** The primitives keep the invariant *)

(** a new object *)
Lemma fresh s : EInv s → eheap s !! enext s = None ∧ enext s ∉ ended (etr s) ∧ nrefs (enext s) (erefs s) = 0 ∧
  (∀ k, ¬ made_as (enext s) k (etr s)) .
Proof.
  intros I. assert (eheap s !! enext s = None) as Hn.
  { destruct (eheap s !! enext s) eqn:E; [|done]. apply (v_new _ I) in E. lia. }
  split; [done|]. split; [intros H%(v_ended _ I); lia|]. split.
  - destruct (decide (nrefs (enext s) (erefs s) = 0)) as [|Hp]; [done|].
    apply nrefs_pos in Hp as (r & Hr & Ha). destruct (v_refs _ I r Hr) as (x & Hx & _). congruence.
  - intros k Hm. apply (v_made _ I) in Hm as (x & Hx & _). congruence.
Qed.
Lemma TEnd_ended a l : TEnd a ∈ l → a ∈ ended l.
Proof. intros (l1 & l2 & ->)%elem_of_list_split. rewrite ended_app. set_solver. Qed.
Lemma TDel_ended a l : TDel a ∈ l → a ∈ ended l.
Proof. intros (l1 & l2 & ->)%elem_of_list_split. rewrite ended_app. set_solver. Qed.

(** [s'] differs from [s] in that the object at [a] begins, with the pointers [rs] to it *)
Lemma EInv_new s k v (rs : list ref) :
  EInv s → (k = Own → rs = []) → (k ≠ Own → rs ≠ []) → Forall (λ r, raddr r = enext s) rs →
  (∀ r n, r ∈ rs → rpost r = Some n → k = Cloned ∧
    ∃ l1 l2 b, etr s = l1 ++ TPost n b :: l2 ∧ made_as b Own l1 ∧ contents b l1 = Some v) →
  EInv (Est (<[enext s := Obj k v (length rs) true]> (eheap s)) (erefs s ++ rs) (eposts s) (S (enext s))
            (etr s ++ [TNew (enext s) k v])).
Proof.
  intros I Hown Hnown Hrs Hpost. destruct (fresh _ I) as (Hf1 & Hf2 & Hf3 & Hf4).
  assert (nrefs (enext s) rs = length rs) as Hn1.
  { clear -Hrs. unfold nrefs. induction Hrs as [|r rs Hr _ IH]; [done|]. rewrite filter_cons_True by done.
    simpl. by rewrite IH. }
  assert (∀ b, b ≠ enext s → nrefs b rs = 0) as Hn2.
  { intros b Hb. destruct (decide (nrefs b rs = 0)) as [|Hp]; [done|]. apply nrefs_pos in Hp as (r & Hr & Ha).
    rewrite Forall_forall in Hrs. specialize (Hrs r Hr). congruence. }
  split; simpl.
  - intros a x. rewrite lookup_insert_Some. intros [[<- _]|[_ Hx%(v_new _ I)]]; lia.
  - intros a k'. rewrite made_snoc, (v_made _ I). setoid_rewrite lookup_insert_Some. split.
    + intros [(x & Hx & Hk)|[v' [= <- <- <-]]].
      * exists x. split; [|done]. right. split; [congruence|done].
      * eexists. split; [by left|done].
    + intros (x & [[<- <-]|[Ha Hx]] & Hk); [|eauto]. right. simpl in Hk. subst. eauto.
  - intros a x. rewrite contents_snoc. rewrite lookup_insert_Some. simpl.
    intros [[<- <-]|[Ha Hx]]; case_decide; [done|congruence|congruence|]. by apply (v_val _ I).
  - intros a x. rewrite ended_app, app_nil_r. rewrite lookup_insert_Some.
    intros [[<- <-]|[Ha Hx]]; [done|]. by apply (v_live _ I).
  - intros a. rewrite ended_app, app_nil_r. intros H%(v_ended _ I). lia.
  - rewrite ended_app, app_nil_r. apply (v_once _ I).
  - intros a x. rewrite lookup_insert_Some. intros [[<- <-]|[Ha Hx]] Hk; simpl in *.
    + rewrite Hown by done. split; [done|]. rewrite elem_of_app, elem_of_list_singleton.
      intros [H%TDel_ended|H]; [done|congruence].
    + destruct (v_own _ I _ _ Hx Hk) as [? ?]. split; [done|]. rewrite elem_of_app, elem_of_list_singleton.
      intros [?|He]; [done|congruence].
  - intros a x. rewrite lookup_insert_Some, nrefs_app. intros [[<- <-]|[Ha Hx]] Hk; simpl in *.
    + rewrite Hf3, Hn1. split; [done|]. split.
      * split; [|done]. intros _ H0. apply nil_length_inv in H0. by apply Hnown.
      * rewrite elem_of_app, elem_of_list_singleton. intros [H%TEnd_ended|H]; [done|congruence].
    + destruct (v_cnt _ I _ _ Hx Hk) as (? & ? & ?). rewrite Hn2 by done. rewrite Nat.add_0_r. split; [done|].
      split; [done|]. rewrite elem_of_app, elem_of_list_singleton. intros [?|He]; [done|congruence].
  - intros r [Hr|Hr]%elem_of_app.
    + destruct (v_refs _ I r Hr) as (x & Hx & Hk). exists x. split; [|done]. rewrite lookup_insert_ne; [done|congruence].
    + rewrite Forall_forall in Hrs. rewrite (Hrs r Hr). rewrite lookup_insert. eexists. split; [done|]. simpl.
      intros Hk. rewrite Hown in Hr by done. by apply elem_of_nil in Hr.
  - intros n a. rewrite elem_of_app, elem_of_list_singleton. intros [H|?]; [|done]. by eapply (v_posts _ I).
  - intros l1 l2 n a [(-> & ? & _)|(l2' & -> & Hl)]%snoc_split; [done|]. intros b.
    rewrite elem_of_app, elem_of_list_singleton. intros [H|?]; [|done]. by eapply (v_post1 _ I).
  - intros r n [Hr|Hr]%elem_of_app Hn.
    + apply origin_snoc. eapply origin_heap; [by apply (v_orig _ I)|]. intros x Hx Hk. exists x. split; [|done].
      rewrite lookup_insert_ne; [done|congruence].
    + destruct (Hpost r n Hr Hn) as (-> & l1 & l2 & b & Hl & Hb & Hc). apply origin_snoc. exists l1, l2, b.
      split; [done|]. left. split; [done|]. rewrite Forall_forall in Hrs. rewrite (Hrs r Hr), lookup_insert. eauto.
  - apply seen_snoc; [apply (v_seen _ I)|done].
Qed.

(** pointers to live objects begin and end; [n'] is how many there are to [a] then *)
Lemma EInv_refs s (rs : list ref) a x :
  EInv s → eheap s !! a = Some x → okind x ≠ Own → olive x = true → nrefs a rs ≠ 0 →
  (∀ b, b ≠ a → nrefs b rs = nrefs b (erefs s)) →
  (∀ r n, r ∈ rs → rpost r = Some n → origin (eheap s) (etr s) n (raddr r)) →
  EInv (Est (<[a := Obj (okind x) (oval x) (nrefs a rs) true]> (eheap s)) rs (eposts s) (enext s) (etr s)).
Proof.
  intros I Hx Hk Hl Hpos Hn Ho. split; simpl.
  - intros b y. rewrite lookup_insert_Some. intros [[<- _]|[_ Hy]]; by eapply (v_new _ I).
  - intros b k. rewrite (v_made _ I). setoid_rewrite lookup_insert_Some. split.
    + intros (y & Hy & Hky). destruct (decide (a = b)) as [<-|Hb]; [|by eauto 10].
      eexists. split; [by left|]. simpl. congruence.
    + intros (y & [[<- <-]|[Hb Hy]] & Hky); eauto.
  - intros b y. rewrite lookup_insert_Some. intros [[<- <-]|[Hb Hy]]; simpl; by apply (v_val _ I).
  - intros b y. rewrite lookup_insert_Some. intros [[<- <-]|[Hb Hy]]; simpl.
    + pose proof (v_live _ I _ _ Hx). tauto.
    + by apply (v_live _ I).
  - apply (v_ended _ I).
  - apply (v_once _ I).
  - intros b y. rewrite lookup_insert_Some. intros [[<- <-]|[Hb Hy]] Hky; simpl in *; [done|]. by eapply (v_own _ I).
  - intros b y. rewrite lookup_insert_Some. intros [[<- <-]|[Hb Hy]] Hky; simpl in *.
    + split; [done|]. split; [done|]. by eapply (v_cnt _ I).
    + rewrite Hn by congruence. by eapply (v_cnt _ I).
  - intros r Hr. destruct (decide (raddr r = a)) as [<-|Hra].
    + rewrite lookup_insert. eauto.
    + rewrite lookup_insert_ne by congruence.
      assert (nrefs (raddr r) (erefs s) ≠ 0) as (r' & Hr' & E)%nrefs_pos by (rewrite <- Hn by done; apply nrefs_pos; eauto).
      rewrite <- E. by apply (v_refs _ I).
  - apply (v_posts _ I).
  - apply (v_post1 _ I).
  - intros r n Hr Hrn. eapply origin_heap; [by apply Ho|]. intros y Hy Hky.
    destruct (decide (raddr r = a)) as [Ha|Hra].
    + rewrite Ha, lookup_insert. eexists. split; [done|]. simpl. split; congruence.
    + rewrite lookup_insert_ne by congruence. eauto.
  - apply (v_seen _ I).
Qed.

(** the last pointer to an object ends *)
Lemma EInv_last s (rs : list ref) a x :
  EInv s → eheap s !! a = Some x → okind x ≠ Own → olive x = true → nrefs a rs = 0 →
  (∀ b, b ≠ a → nrefs b rs = nrefs b (erefs s)) → (∀ r, r ∈ rs → r ∈ erefs s) →
  EInv (Est (<[a := Obj (okind x) (oval x) 0 false]> (eheap s)) rs (eposts s) (enext s) (etr s ++ [TDel a])).
Proof.
  intros I Hx Hk Hl Hpos Hn Hsub. 
  assert (a ∉ ended (etr s)) as Hne by (by apply (v_live _ I _ _ Hx)).
  split; simpl.
  - intros b y. rewrite lookup_insert_Some. intros [[<- _]|[_ Hy]]; by eapply (v_new _ I).
  - intros b k. rewrite made_snoc, (v_made _ I). setoid_rewrite lookup_insert_Some. split.
    + intros [(y & Hy & Hky)|[? ?]]; [|done]. destruct (decide (a = b)) as [<-|Hb]; [|by eauto 10].
      eexists. split; [by left|]. simpl. congruence.
    + intros (y & [[<- <-]|[Hb Hy]] & Hky); eauto.
  - intros b y. rewrite contents_snoc, lookup_insert_Some. intros [[<- <-]|[Hb Hy]]; simpl; by apply (v_val _ I).
  - intros b y. rewrite ended_app, elem_of_app, lookup_insert_Some. simpl. rewrite elem_of_list_singleton.
    intros [[<- <-]|[Hb Hy]]; simpl.
    + split; [done|]. tauto.
    + rewrite (v_live _ I _ _ Hy). intuition congruence.
  - intros b. rewrite ended_app, elem_of_app. simpl. rewrite elem_of_list_singleton. intros [H| ->]; [by apply (v_ended _ I)|].
    by eapply (v_new _ I).
  - rewrite ended_app. apply NoDup_app. split; [apply (v_once _ I)|]. split; [|apply NoDup_singleton].
    intros b Hb ->%elem_of_list_singleton. done.
  - intros b y. rewrite elem_of_app, elem_of_list_singleton, lookup_insert_Some.
    intros [[<- <-]|[Hb Hy]] Hky; simpl in *; [done|]. destruct (v_own _ I _ _ Hy Hky). split; [done|].
    intuition congruence.
  - intros b y. rewrite elem_of_app, elem_of_list_singleton, lookup_insert_Some.
    intros [[<- <-]|[Hb Hy]] Hky; simpl in *.
    + split; [done|]. split; [done|]. destruct (v_cnt _ I _ _ Hx Hk) as (_ & _ & ?). intuition congruence.
    + rewrite Hn by congruence. destruct (v_cnt _ I _ _ Hy Hky) as (? & ? & ?). intuition congruence.
  - intros r Hr. destruct (v_refs _ I r (Hsub _ Hr)) as (y & Hy & Hky).
    destruct (decide (raddr r = a)) as [<-|Hra].
    + rewrite lookup_insert. eauto.
    + rewrite lookup_insert_ne by congruence. eauto.
  - intros n b. rewrite elem_of_app, elem_of_list_singleton. intros [H|?]; [|done]. by eapply (v_posts _ I).
  - intros l1 l2 n b [(-> & ? & _)|(l2' & -> & Hl')]%snoc_split; [done|]. intros c.
    rewrite elem_of_app, elem_of_list_singleton. intros [H|?]; [|done]. by eapply (v_post1 _ I).
  - intros r n Hr Hrn. apply origin_snoc. eapply origin_heap; [by apply (v_orig _ I); auto|]. intros y Hy Hky.
    destruct (decide (raddr r = a)) as [Ha|Hra].
    + rewrite Ha, lookup_insert. eexists. split; [done|]. simpl. split; congruence.
    + rewrite lookup_insert_ne by congruence. eauto.
  - apply seen_snoc; [apply (v_seen _ I)|done].
Qed.

(** pointers move *)
Lemma EInv_move s (rs : list ref) :
  EInv s → (∀ b, nrefs b rs = nrefs b (erefs s)) →
  (∀ r, r ∈ rs → ∃ r', r' ∈ erefs s ∧ raddr r' = raddr r ∧ rpost r' = rpost r) →
  EInv (Est (eheap s) rs (eposts s) (enext s) (etr s)).
Proof.
  intros I Hn Hr. destruct I. split; simpl; try done.
  - intros a x Hx Hk. rewrite Hn. by eapply v_cnt0.
  - intros r (r' & Hr' & <- & _)%Hr. eauto.
  - intros r n Hrr Hrn. destruct (Hr r Hrr) as (r' & Hr' & <- & E). apply v_orig0; congruence.
Qed.

(** the owner changes or ends an object, or something is said that changes no object *)
Lemma EInv_write s a x v :
  EInv s → eheap s !! a = Some x → okind x ≠ Cloned → olive x = true →
  EInv (Est (<[a := Obj (okind x) v (ocnt x) true]> (eheap s)) (erefs s) (eposts s) (enext s) (etr s ++ [TWrite a v])).
Proof.
  intros I Hx Hk Hl. split; simpl.
  - intros b y. rewrite lookup_insert_Some. intros [[<- _]|[_ Hy]]; by eapply (v_new _ I).
  - intros b k. rewrite made_snoc, (v_made _ I). setoid_rewrite lookup_insert_Some. split.
    + intros [(y & Hy & Hky)|[? ?]]; [|done]. destruct (decide (a = b)) as [<-|Hb]; [|by eauto 10].
      eexists. split; [by left|]. simpl. congruence.
    + intros (y & [[<- <-]|[Hb Hy]] & Hky); eauto.
  - intros b y. rewrite contents_snoc, lookup_insert_Some. simpl.
    intros [[<- <-]|[Hb Hy]]; case_decide; [done|congruence|congruence|]. by apply (v_val _ I).
  - intros b y. rewrite ended_app, app_nil_r, lookup_insert_Some. intros [[<- <-]|[Hb Hy]]; simpl.
    + pose proof (v_live _ I _ _ Hx). tauto.
    + by apply (v_live _ I).
  - rewrite ended_app, app_nil_r. apply (v_ended _ I).
  - rewrite ended_app, app_nil_r. apply (v_once _ I).
  - intros b y. rewrite elem_of_app, elem_of_list_singleton, lookup_insert_Some. 
    intros [[<- <-]|[Hb Hy]] Hky; simpl in *.
    + destruct (v_own _ I _ _ Hx Hky). intuition congruence.
    + destruct (v_own _ I _ _ Hy Hky). intuition congruence.
  - intros b y. rewrite elem_of_app, elem_of_list_singleton, lookup_insert_Some. 
    intros [[<- <-]|[Hb Hy]] Hky; simpl in *.
    + destruct (v_cnt _ I _ _ Hx Hky) as (? & ? & ?). intuition congruence.
    + destruct (v_cnt _ I _ _ Hy Hky) as (? & ? & ?). intuition congruence.
  - intros r Hr. destruct (v_refs _ I r Hr) as (y & Hy & Hky).
    destruct (decide (raddr r = a)) as [<-|Hra].
    + rewrite lookup_insert. eexists. split; [done|]. simpl. congruence.
    + rewrite lookup_insert_ne by congruence. eauto.
  - intros n b. rewrite elem_of_app, elem_of_list_singleton. intros [H|?]; [|done]. by eapply (v_posts _ I).
  - intros l1 l2 n b [(-> & ? & _)|(l2' & -> & Hl')]%snoc_split; [done|]. intros c.
    rewrite elem_of_app, elem_of_list_singleton. intros [H|?]; [|done]. by eapply (v_post1 _ I).
  - intros r n Hr Hrn. apply origin_snoc. eapply origin_heap; [by apply (v_orig _ I); auto|]. intros y Hy Hky.
    rewrite lookup_insert_ne by congruence. eauto.
  - apply seen_snoc; [apply (v_seen _ I)|done].
Qed.

Lemma EInv_end s a x :
  EInv s → eheap s !! a = Some x → okind x = Own → olive x = true →
  EInv (Est (<[a := Obj (okind x) (oval x) (ocnt x) false]> (eheap s)) (erefs s) (eposts s) (enext s) (etr s ++ [TEnd a])).
Proof.
  intros I Hx Hk Hl.
  assert (a ∉ ended (etr s)) as Hne by (by apply (v_live _ I _ _ Hx)).
  split; simpl.
  - intros b y. rewrite lookup_insert_Some. intros [[<- _]|[_ Hy]]; by eapply (v_new _ I).
  - intros b k. rewrite made_snoc, (v_made _ I). setoid_rewrite lookup_insert_Some. split.
    + intros [(y & Hy & Hky)|[? ?]]; [|done]. destruct (decide (a = b)) as [<-|Hb]; [|by eauto 10].
      eexists. split; [by left|]. simpl. congruence.
    + intros (y & [[<- <-]|[Hb Hy]] & Hky); eauto.
  - intros b y. rewrite contents_snoc, lookup_insert_Some. intros [[<- <-]|[Hb Hy]]; simpl; by apply (v_val _ I).
  - intros b y. rewrite ended_app, elem_of_app, lookup_insert_Some. simpl. rewrite elem_of_list_singleton.
    intros [[<- <-]|[Hb Hy]]; simpl.
    + split; [done|]. tauto.
    + rewrite (v_live _ I _ _ Hy). intuition congruence.
  - intros b. rewrite ended_app, elem_of_app. simpl. rewrite elem_of_list_singleton. intros [H| ->]; [by apply (v_ended _ I)|].
    by eapply (v_new _ I).
  - rewrite ended_app. apply NoDup_app. split; [apply (v_once _ I)|]. split; [|apply NoDup_singleton].
    intros b Hb ->%elem_of_list_singleton. done.
  - intros b y. rewrite elem_of_app, elem_of_list_singleton, lookup_insert_Some.
    intros [[<- <-]|[Hb Hy]] Hky; simpl in *.
    + destruct (v_own _ I _ _ Hx Hk). intuition congruence.
    + destruct (v_own _ I _ _ Hy Hky). intuition congruence.
  - intros b y. rewrite elem_of_app, elem_of_list_singleton, lookup_insert_Some.
    intros [[<- <-]|[Hb Hy]] Hky; simpl in *; [done|].
    destruct (v_cnt _ I _ _ Hy Hky) as (? & ? & ?). intuition congruence.
  - intros r Hr. destruct (v_refs _ I r Hr) as (y & Hy & Hky). rewrite lookup_insert_ne by congruence. eauto.
  - intros n b. rewrite elem_of_app, elem_of_list_singleton. intros [H|?]; [|done]. by eapply (v_posts _ I).
  - intros l1 l2 n b [(-> & ? & _)|(l2' & -> & Hl')]%snoc_split; [done|]. intros c.
    rewrite elem_of_app, elem_of_list_singleton. intros [H|?]; [|done]. by eapply (v_post1 _ I).
  - intros r n Hr Hrn. apply origin_snoc. eapply origin_heap; [by apply (v_orig _ I); auto|]. intros y Hy Hky.
    rewrite lookup_insert_ne by congruence. eauto.
  - apply seen_snoc; [apply (v_seen _ I)|done].
Qed.

Lemma EInv_given s a :
  EInv s → EInv (Est (eheap s) (erefs s) (S (eposts s)) (enext s) (etr s ++ [TPost (eposts s) a])).
Proof.
  intros I. split; simpl.
  - apply (v_new _ I).
  - intros b k. rewrite made_snoc, (v_made _ I). naive_solver.
  - intros b y. rewrite contents_snoc. apply (v_val _ I).
  - rewrite ended_app, app_nil_r. apply (v_live _ I).
  - rewrite ended_app, app_nil_r. apply (v_ended _ I).
  - rewrite ended_app, app_nil_r. apply (v_once _ I).
  - intros b y Hy Hk. rewrite elem_of_app, elem_of_list_singleton. destruct (v_own _ I _ _ Hy Hk). intuition congruence.
  - intros b y Hy Hk. rewrite elem_of_app, elem_of_list_singleton. destruct (v_cnt _ I _ _ Hy Hk) as (? & ? & ?).
    intuition congruence.
  - apply (v_refs _ I).
  - intros n b. rewrite elem_of_app, elem_of_list_singleton. intros [H%(v_posts _ I)|[= -> _]]; lia.
  - intros l1 l2 n b [(-> & ? & _)|(l2' & -> & Hl')]%snoc_split c; [by apply not_elem_of_nil|].
    rewrite elem_of_app, elem_of_list_singleton. intros [H|[= ->]]; [by eapply (v_post1 _ I)|].
    assert (eposts s < eposts s); [|lia]. apply (v_posts _ I _ b). rewrite Hl'. set_solver.
  - intros r n Hr Hrn. apply origin_snoc. by apply (v_orig _ I).
  - apply seen_snoc; [apply (v_seen _ I)|done].
Qed.

Lemma EInv_see s n v r x :
  EInv s → r ∈ erefs s → rpost r = Some n → eheap s !! raddr r = Some x → oval x = v →
  EInv (Est (eheap s) (erefs s) (eposts s) (enext s) (etr s ++ [TSeen n v])).
Proof.
  intros I Hr Hn Hx Hv. split; simpl.
  - apply (v_new _ I).
  - intros b k. rewrite made_snoc, (v_made _ I). naive_solver.
  - intros b y. rewrite contents_snoc. apply (v_val _ I).
  - rewrite ended_app, app_nil_r. apply (v_live _ I).
  - rewrite ended_app, app_nil_r. apply (v_ended _ I).
  - rewrite ended_app, app_nil_r. apply (v_once _ I).
  - intros b y Hy Hk. rewrite elem_of_app, elem_of_list_singleton. destruct (v_own _ I _ _ Hy Hk). intuition congruence.
  - intros b y Hy Hk. rewrite elem_of_app, elem_of_list_singleton. destruct (v_cnt _ I _ _ Hy Hk) as (? & ? & ?).
    intuition congruence.
  - apply (v_refs _ I).
  - intros m b. rewrite elem_of_app, elem_of_list_singleton. intros [H|?]; [|done]. by eapply (v_posts _ I).
  - intros l1 l2 m b [(-> & ? & _)|(l2' & -> & Hl')]%snoc_split; [done|]. intros c.
    rewrite elem_of_app, elem_of_list_singleton. intros [H|?]; [|done]. by eapply (v_post1 _ I).
  - intros r' m Hr' Hm. apply origin_snoc. by apply (v_orig _ I).
  - intros l1 l2 m w [(-> & [= -> ->] & <-)|(l2' & -> & Hl')]%snoc_split; [|by eapply (v_seen _ I)].
    destruct (v_orig _ I _ _ Hr Hn) as (l0 & l0' & a & Hl & Ho). exists l0, l0', a. split; [done|].
    destruct Ho as [(Ho & y & Hy & _ & Hc)|(Ho & Ha)].
    + left. split; [done|]. congruence.
    + right. split; [done|]. rewrite <- Ha. rewrite (v_val _ I _ _ Hx). congruence.
Qed.

(** ** The operations keep the invariant and are never undefined *)

Lemma new_ref_ok s p n a x :
  EInv s → eheap s !! a = Some x → okind x ≠ Own → olive x = true →
  (∀ m, n = Some m → origin (eheap s) (etr s) m a) →
  ∃ s', new_ref p n a s = Some ((), s') ∧ EInv s' ∧ erefs s' = erefs s ++ [Ref p n a] ∧ etr s' = etr s.
Proof.
  intros I Hx Hk Hl Ho. destruct (v_cnt _ I _ _ Hx Hk) as (Hc & _).
  eexists. split.
  { unfold new_ref, add_ref, mbind, M_bind. rewrite (live_at _ _ _ I Hx Hl). simpl. done. }
  split; [|done]. simpl.
  assert (nrefs a (erefs s ++ [Ref p n a]) = S (ocnt x)) as Hn.
  { rewrite nrefs_app, nrefs_one. simpl. rewrite decide_True by done. lia. }
  rewrite <- Hn. apply EInv_refs; try done.
  - lia.
  - intros b Hb. rewrite nrefs_app, nrefs_one. simpl. rewrite decide_False by congruence. lia.
  - intros r m [Hr| ->%elem_of_list_singleton]%elem_of_app Hm; [by apply (v_orig _ I)|]. by apply Ho.
Qed.

Lemma drop_ref_ok s k : EInv s →
  ∃ s', drop_ref k s = Some ((), s') ∧ EInv s' ∧ erefs s' = delete k (erefs s).
Proof.
  intros I. unfold drop_ref, mbind at 1, M_bind at 1. simpl.
  destruct (erefs s !! k) as [r|] eqn:Hk.
  2:{ eexists. split; [done|]. split; [done|].
      apply lookup_ge_None in Hk. rewrite delete_take_drop, take_ge, drop_ge by lia. by rewrite app_nil_r. }
  assert (r ∈ erefs s) as Hr by by eapply elem_of_list_lookup_2.
  destruct (ref_live _ _ I Hr) as (x & Hx & Hown & Hl & Hc & Hpos).
  pose proof (nrefs_delete (raddr r) _ _ _ Hk) as Hd. rewrite decide_True in Hd by done.
  unfold release, mbind, M_bind, set_refs. simpl. unfold at_. simpl. rewrite Hx, Hl.
  destruct (ocnt x) as [|c] eqn:Ec; [done|]. 
  assert (∀ b, b ≠ raddr r → nrefs b (delete k (erefs s)) = nrefs b (erefs s)) as Hn.
  { intros b Hb. rewrite (nrefs_delete b _ _ _ Hk). rewrite decide_False by congruence. lia. }
  assert (∀ r', r' ∈ delete k (erefs s) → r' ∈ erefs s) as Hsub.
  { apply list_delete_subseteq. }
  case_decide as Hc0.
  - assert (nrefs (raddr r) (delete k (erefs s)) = 0) as H0 by lia. subst c.
    destruct (okind x) eqn:Ek; [done|..]; (eexists; split; [done|]; split; [|done]; simpl;
      rewrite <- Ek; apply EInv_last; try done; congruence).
  - eexists. split; [done|]. split; [|done]. simpl.
    assert (c = nrefs (raddr r) (delete k (erefs s))) as E by lia. rewrite E at 1. apply EInv_refs; try done; [lia|].
    intros r' n Hr' Hn'. apply (v_orig _ I); auto.
Qed.

Lemma from_this_ok s a p n x : EInv s → eheap s !! a = Some x → olive x = true →
  (∀ m, n = Some m → ∃ l, etr s = l ++ [TPost m a]) →
  ∃ b s', intrusive_from_this a p n s = Some (b, s') ∧ EInv s' ∧ erefs s' = erefs s ++ [Ref p n b] ∧
    (∀ m, n = Some m → origin (eheap s') (etr s') m b).
Proof.
  intros I Hx Hl Hn. unfold intrusive_from_this, mbind, M_bind.
  rewrite (live_at _ _ _ I Hx Hl).
  assert (made_as a Own (etr s) ↔ okind x = Own) as Hm.
  { rewrite (v_made _ I). split; [intros (y & Hy & ?)|eauto]. congruence. }
  assert (∀ m, n = Some m → ∃ l, etr s = l ++ [TPost m a] ∧ (made_as a Own l ↔ okind x = Own) ∧
    contents a l = Some (oval x)) as Hn'.
  { intros m Em. destruct (Hn m Em) as [l El]. exists l. split; [done|]. split.
    - rewrite <- Hm, El, made_snoc. naive_solver.
    - rewrite <- (v_val _ I _ _ Hx), El, contents_snoc. done. }
  case_decide as Hc.
  - assert (okind x ≠ Own) as Hk by (intros Hk; by destruct (v_own _ I _ _ Hx Hk)).
    assert (∀ m, n = Some m → origin (eheap s) (etr s) m a) as Ho.
    { intros m Em. destruct (Hn' m Em) as (l & El & Hml & Hcl). exists l, [], a. split; [done|]. right. tauto. }
    destruct (new_ref_ok s p n a x I Hx Hk Hl Ho) as (s' & Hs' & I' & Hr' & Ht').
    exists a, s'. rewrite Hs'. split; [done|]. split; [done|]. split; [done|].
    intros m Em. apply (v_orig _ I' (Ref p n a) m); [|done]. rewrite Hr'. set_solver.
  - assert (okind x = Own) as Hk.
    { destruct (decide (okind x = Own)) as [|Hk]; [done|]. destruct (v_cnt _ I _ _ Hx Hk) as (? & ? & ?). tauto. }
    exists (enext s). eexists. split.
    { simpl. unfold new_ref, add_ref, mbind, M_bind. simpl. unfold at_. simpl. rewrite lookup_insert. simpl.
      unfold mret, M_ret. done. }
    assert (EInv (Est (<[enext s := Obj Cloned (oval x) (length [Ref p n (enext s)]) true]> (eheap s))
      (erefs s ++ [Ref p n (enext s)]) (eposts s) (S (enext s)) (etr s ++ [TNew (enext s) Cloned (oval x)]))) as I'.
    { apply EInv_new; try done.
      - by repeat constructor.
      - intros r m ->%elem_of_list_singleton Em. simpl in Em. split; [done|].
        destruct (Hn' m Em) as (l & El & Hml & Hcl). exists l, [], a. tauto. }
    simpl in *. rewrite insert_insert. split; [done|]. split; [done|].
    intros m Em. apply (v_orig _ I' (Ref p n (enext s)) m); [|done]. simpl. set_solver.
Qed.

Lemma move_ref_ok s k p : EInv s → ∃ s', move_ref k p s = Some ((), s') ∧ EInv s'.
Proof.
  intros I. unfold move_ref, mbind, M_bind. simpl. destruct (erefs s !! k) as [r|] eqn:Hk; [|by eexists].
  eexists. split; [done|]. apply EInv_move; [done| |].
  - intros b. rewrite nrefs_app, nrefs_one, (nrefs_delete b _ _ _ Hk). simpl. lia.
  - intros r' [Hr'| ->%elem_of_list_singleton]%elem_of_app.
    + exists r'. split; [|done]. by eapply list_delete_subseteq.
    + exists r. split; [|done]. by eapply elem_of_list_lookup_2.
Qed.

Lemma clear_ok s q n : EInv s → ∃ s', clear q n s = Some ((), s') ∧ EInv s'.
Proof.
  revert s. induction n as [|n IH]; intros s I; [by eexists|].
  simpl. unfold mbind, M_bind. simpl. destruct (front q (erefs s)) as [k|]; [|by eexists].
  destruct (drop_ref_ok s k I) as (s1 & -> & I1 & _). by apply IH.
Qed.

Lemma EInv_own s v : EInv s →
  EInv (Est (<[enext s := Obj Own v 0 true]> (eheap s)) (erefs s) (eposts s) (S (enext s))
            (etr s ++ [TNew (enext s) Own v])).
Proof.
  intros I. pose proof (EInv_new s Own v [] I) as H. simpl in H. rewrite app_nil_r in H.
  apply H; try done. by intros r n Hr%elem_of_nil.
Qed.
Lemma with_ref_eq s k f r : erefs s !! k = Some r → with_ref k f s = f r s.
Proof. intros Hk. unfold with_ref, mbind, M_bind. simpl. by rewrite Hk. Qed.

Lemma exec_ok s o : EInv s → allowed s o → ∃ s', exec o s = Some ((), s') ∧ EInv s'.
Proof.
  intros I Ha. destruct o as [v|a|a|a v|a b|v|k|k|a|k q|a q|k|k q|q|q|k|k q|k|q q'|q]; simpl in *.
  - eexists. split; [done|]. by apply EInv_own.
  - destruct (nameable_live _ _ I Ha) as (x & Hx & Hl). unfold mbind, M_bind.
    rewrite (live_at _ _ _ I Hx Hl). eexists. split; [done|]. by apply EInv_own.
  - destruct Ha as [(y & Hy & Hk) Ha]. destruct (nameable_live _ _ I Ha) as (x & Hx & Hl).
    assert (y = x) as -> by congruence.
    unfold mbind, M_bind. rewrite (live_at _ _ _ I Hx Hl). eexists. split; [done|]. simpl. by apply EInv_end.
  - destruct Ha as [Ha Hk]. destruct (nameable_live _ _ I Ha) as (x & Hx & Hl).
    unfold mbind, M_bind. rewrite (live_at _ _ _ I Hx Hl). eexists. split; [done|]. simpl. apply EInv_write; try done.
    intros ?. apply Hk. by exists x.
  - destruct Ha as (Ha & Hk & Hb). destruct (nameable_live _ _ I Ha) as (x & Hx & Hl).
    destruct (nameable_live _ _ I Hb) as (y & Hy & Hl').
    unfold mbind, M_bind. rewrite (live_at _ _ _ I Hx Hl), (live_at _ _ _ I Hy Hl'). eexists. split; [done|]. simpl.
    apply EInv_write; try done. intros ?. apply Hk. by exists x.
  - unfold mbind, M_bind, new_obj, new_ref, add_ref, mbind, M_bind, at_. simpl. rewrite lookup_insert. simpl.
    eexists. split; [done|]. rewrite insert_insert. apply (EInv_new s Made v [Ref PClient None (enext s)]); try done.
    + by repeat constructor.
    + by intros r n ->%elem_of_list_singleton.
  - destruct Ha as (r & Hr & _). rewrite (with_ref_eq _ _ _ _ Hr). apply elem_of_list_lookup_2 in Hr.
    destruct (ref_live _ _ I Hr) as (x & Hx & Hk & Hl & _).
    destruct (new_ref_ok s PClient (rpost r) (raddr r) x) as (s' & ? & ? & _); try done; [|by exists s'].
    intros m Hm. by apply (v_orig _ I).
  - destruct (drop_ref_ok s k I) as (s' & ? & ? & _). eauto.
  - destruct (nameable_live _ _ I Ha) as (x & Hx & Hl).
    destruct (from_this_ok s a PClient None x) as (b & s' & E & I' & _); try done.
    unfold mbind, M_bind. rewrite E. by eexists.
  - destruct Ha as (r & Hr & _). rewrite (with_ref_eq _ _ _ _ Hr). apply elem_of_list_lookup_2 in Hr.
    destruct (ref_live _ _ I Hr) as (x & Hx & Hk & Hl & _).
    pose proof (EInv_given s (raddr r) I) as I1. unfold mbind, M_bind. cbn [given].
    edestruct (new_ref_ok _ (PQueue q) (Some (eposts s)) (raddr r) x I1) as (s' & Hs' & I' & _); try done; [|by exists s'].
    simpl. intros m [= <-]. exists (etr s), [], (raddr r). split; [done|]. right. split; [|done].
    rewrite (v_made _ I). intros (y & Hy & ?). congruence.
  - destruct (nameable_live _ _ I Ha) as (x & Hx & Hl). pose proof (EInv_given s a I) as I1.
    unfold mbind, M_bind. cbn [given].
    edestruct (from_this_ok _ a PLocal (Some (eposts s)) x I1) as (b & s1 & -> & I2 & Hr & Ho); try done.
    { simpl. intros m [= <-]. eauto. }
    simpl. assert (Ref PLocal (Some (eposts s)) b ∈ erefs s1) as Hin by (rewrite Hr; set_solver).
    destruct (ref_live _ _ I2 Hin) as (y & Hy & Hk & Hly & _). simpl in *.
    destruct (new_ref_ok s1 (PQueue q) (Some (eposts s)) b y) as (s2 & -> & I3 & _); try done.
    edestruct (drop_ref_ok s2 (Nat.pred (length (erefs s1))) I3) as (s3 & ? & ? & _). eauto.
  - destruct Ha as (r & Hr & _). rewrite (with_ref_eq _ _ _ _ Hr). apply elem_of_list_lookup_2 in Hr.
    destruct (ref_live _ _ I Hr) as (x & Hx & Hk & Hl & _).
    pose proof (EInv_given s (raddr r) I) as I1. unfold mbind, M_bind. cbn [given].
    edestruct (new_ref_ok _ PLocal (Some (eposts s)) (raddr r) x I1) as (s' & Hs' & I' & _); try done; [|by exists s'].
    simpl. intros m [= <-]. exists (etr s), [], (raddr r). split; [done|]. right. split; [|done].
    rewrite (v_made _ I). intros (y & Hy & ?). congruence.
  - by apply move_ref_ok.
  - unfold with_front, mbind, M_bind. simpl. destruct (front q (erefs s)); [by apply move_ref_ok|by eexists].
  - unfold with_front, mbind, M_bind. simpl. destruct (front q (erefs s)) as [k|]; [|by eexists].
    destruct (erefs s !! k) as [r|] eqn:Hr.
    2:{ unfold with_ref, mbind, M_bind. simpl. rewrite Hr. by eexists. }
    rewrite (with_ref_eq _ _ _ _ Hr). apply elem_of_list_lookup_2 in Hr.
    destruct (ref_live _ _ I Hr) as (x & Hx & Hk & Hl & _).
    destruct (new_ref_ok s PLocal (rpost r) (raddr r) x) as (s' & Hs' & I' & _); try done.
    { intros m Hm. by apply (v_orig _ I). }
    unfold mbind, M_bind. rewrite Hs'. destruct (drop_ref_ok s' k I') as (s2 & ? & ? & _). eauto.
  - destruct Ha as (r & Hr & _). rewrite (with_ref_eq _ _ _ _ Hr). apply elem_of_list_lookup_2 in Hr.
    destruct (ref_live _ _ I Hr) as (x & Hx & Hk & Hl & _). unfold mbind, M_bind.
    rewrite (live_at _ _ _ I Hx Hl). destruct (rpost r) as [n|] eqn:En; [|by eexists].
    eexists. split; [done|]. by eapply EInv_see.
  - destruct Ha as (r & Hr & _). rewrite (with_ref_eq _ _ _ _ Hr). apply elem_of_list_lookup_2 in Hr.
    destruct (ref_live _ _ I Hr) as (x & Hx & Hk & Hl & _).
    destruct (new_ref_ok s (PQueue q) (rpost r) (raddr r) x) as (s' & ? & ? & _); try done; [|by exists s'].
    intros m Hm. by apply (v_orig _ I).
  - destruct (drop_ref_ok s k I) as (s' & ? & ? & _). eauto.
  - eexists. split; [done|]. simpl. apply EInv_move; [done| |].
    + intros b. apply nrefs_perm. rewrite fmap_app, <- list_fmap_compose.
      change (raddr ∘ (λ r, Ref (PQueue q') (rpost r) (raddr r))) with raddr. rewrite <- fmap_app. f_equiv.
      induction (erefs s) as [|r rs IH]; [done|]. rewrite !filter_cons.
      destruct (decide (rplace r = PQueue q)).
      * rewrite decide_False by tauto. simpl. by rewrite IH.
      * rewrite decide_True by done. by rewrite <- Permutation_middle, IH.
    + intros r [Hr|Hr]%elem_of_app.
      * apply elem_of_list_fmap in Hr as (r' & -> & Hr'). apply elem_of_list_filter in Hr' as [_ ?]. by exists r'.
      * apply elem_of_list_filter in Hr as [_ ?]. by exists r.
  - by apply clear_ok.
Qed.

(** ** Which pointers there are after an operation *)
Definition kept (p : place) s : list (option nat * addr) :=
  map (λ r, (rpost r, raddr r)) (filter (λ r, rplace r = p) (erefs s)).

Definition refs_at (p : place) (rs : list ref) : list (option nat * addr) :=
  map (λ r, (rpost r, raddr r)) (filter (λ r, rplace r = p) rs).
Lemma refs_at_app p (l1 l2 : list ref) : refs_at p (l1 ++ l2) = refs_at p l1 ++ refs_at p l2.
Proof. unfold refs_at. by rewrite filter_app, map_app. Qed.
Lemma refs_at_one p r : refs_at p [r] = if decide (rplace r = p) then [(rpost r, raddr r)] else [].
Proof. unfold refs_at. rewrite filter_cons, filter_nil. by case_decide. Qed.

Lemma front_spec q (rs : list ref) : 
  match front q rs with
  | Some k => ∃ r, rs !! k = Some r ∧ rplace r = PQueue q ∧ refs_at (PQueue q) (take k rs) = []
  | None => refs_at (PQueue q) rs = []
  end.
Proof.
  unfold front. destruct (list_find _ rs) as [[k r]|] eqn:E; simpl.
  - apply list_find_Some in E as (Hk & Hr & Hb). exists r. split; [done|]. split; [done|].
    unfold refs_at.
    destruct (filter _ (take k rs)) as [|r' l] eqn:E'; [done|].
    assert (r' ∈ filter (λ r, rplace r = PQueue q) (take k rs)) as [Hp Hin]%elem_of_list_filter by (rewrite E'; by left).
    apply elem_of_take in Hin as (j & Hj & Hlt). by apply Hb in Hj.
  - apply list_find_None in E. unfold refs_at.
    destruct (filter _ rs) as [|r' l] eqn:E'; [done|].
    assert (r' ∈ filter (λ r, rplace r = PQueue q) rs) as [Hp Hin]%elem_of_list_filter by (rewrite E'; by left).
    rewrite Forall_forall in E. by apply E in Hin.
Qed.
Lemma refs_at_delete p (rs : list ref) k r : rs !! k = Some r →
  refs_at p (delete k rs) = refs_at p (take k rs) ++ refs_at p (drop (S k) rs) ∧
  refs_at p rs = refs_at p (take k rs) ++ (if decide (rplace r = p) then [(rpost r, raddr r)] else []) ++ refs_at p (drop (S k) rs).
Proof.
  intros Hk. rewrite delete_take_drop, refs_at_app. split; [done|].
  rewrite <- (take_drop_middle rs k r Hk) at 1. rewrite refs_at_app.
  change (r :: drop (S k) rs) with ([r] ++ drop (S k) rs). by rewrite refs_at_app, refs_at_one.
Qed.

Lemma clear_kept s s' q n : EInv s → clear q n s = Some ((), s') → length (erefs s) ≤ n →
  refs_at (PQueue q) (erefs s') = [] ∧ ∀ p, p ≠ PQueue q → refs_at p (erefs s') = refs_at p (erefs s).
Proof.
  revert s. induction n as [|n IH]; intros s I Hc Hlen.
  { simpl in Hc. unfold mret, M_ret in Hc. simplify_eq.
    destruct (erefs s'); [done|simpl in Hlen; lia]. }
  simpl in Hc. unfold mbind, M_bind in Hc. simpl in Hc. pose proof (front_spec q (erefs s)) as Hf.
  destruct (front q (erefs s)) as [k|].
  - destruct Hf as (r & Hk & Hr & _). destruct (drop_ref_ok s k I) as (s1 & E & I1 & Hrefs). rewrite E in Hc.
    destruct (IH s1 I1 Hc) as [H1 H2].
    { rewrite Hrefs. pose proof (lookup_lt_Some _ _ _ Hk). rewrite delete_take_drop, app_length, take_length, drop_length.
      lia. }
    split; [done|]. intros p Hp. rewrite H2 by done. rewrite Hrefs.
    destruct (refs_at_delete p _ _ _ Hk) as [-> ->]. rewrite decide_False by congruence. done.
  - unfold mret, M_ret in Hc. simplify_eq. done.
Qed.

Lemma ereach_inv s : ereach s → EInv s.
Proof.
  induction 1 as [|o s s' Hr IH Ha He]; [apply EInv_init|].
  destruct (exec_ok s o IH Ha) as (s2 & E & I). congruence.
Qed.
End inv.
