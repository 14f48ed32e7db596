(** Configurations in which every state object has a reason to be alive, and the two ways of removing
    state objects: giving up a reference, and leaving a state. *)
From Verif Require Export Wp RefineStep RefineHeap.

Section good.
Context (ch : chart) (Hwf : wf_chart ch = true).
Notation alive := (alive ch).
Notation kids := (kids ch).
Notation destroyed := (destroyed ch).

Record good (H : list aid) (a : acore) : Prop := {
  gd_wf : wfa ch H a;
  gd_busy x : alive a x → busy ch H a x = true;
  gd_unst x : aunst a = Some x → is_leaf ch x.1 = false;
  gd_decl x : alive a x → x.1 < ncls ch }.

Lemma busy_true H a x : busy ch H a x = true ↔
  kids a x.1 ≠ [] ∨ x ∈ ord a ∨ aunst a = Some x ∨ x ∈ H.
Proof. unfold busy. rewrite !orb_true_iff, !bool_decide_eq_true. tauto. Qed.

Lemma busy_false H a x : busy ch H a x = false ↔
  kids a x.1 = [] ∧ x ∉ ord a ∧ aunst a ≠ Some x ∧ x ∉ H.
Proof.
  unfold busy. rewrite !orb_false_iff, !bool_decide_eq_false. split.
  - intros [[[H1 H2] H3] H4]. split_and!; try done. destruct (kids a x.1); [done|].
    exfalso. by apply H1.
  - intros (-> & H2 & H3 & H4). split_and!; try done. by intros [].
Qed.

Lemma kids_leaf a c : is_leaf ch c = true → kids a c = [].
Proof.
  intros Hl. apply kids_nil. unfold is_leaf in Hl. apply bool_decide_eq_true in Hl. lia.
Qed.

Lemma good_leaf H a x : good H a → alive a x → is_leaf ch x.1 = true → x ∈ ord a ∨ x ∈ H.
Proof.
  intros Hg Hx Hl. pose proof (gd_busy _ _ Hg x Hx) as Hb. apply busy_true in Hb.
  destruct Hb as [Hb|[Hb|[Hb|Hb]]]; [|by left| |by right].
  - by rewrite kids_leaf in Hb.
  - apply (gd_unst _ _ Hg) in Hb. congruence.
Qed.

Lemma good_weaken H a x : good H a → alive a x → good (x :: H) a.
Proof.
  intros [Hw Hb Hu Hd] Hx. split; [|intros y Hy|done|done].
  - eapply wfa_setH; [done|]. intros y [->|Hy]%elem_of_cons; [done|]. by apply (wa_H _ _ _ Hw).
  - specialize (Hb y Hy). rewrite busy_true in *. rewrite elem_of_cons. tauto.
Qed.

Lemma good_tighten H a x : good (x :: H) a → busy ch H a x = true → good H a.
Proof.
  intros [Hw Hb Hu Hd] Hx. split; [|intros y Hy|done|done].
  - eapply wfa_setH; [done|]. intros y Hy. apply (wa_H _ _ _ Hw). by right.
  - destruct (decide (y = x)) as [->|Hne]; [done|]. specialize (Hb y Hy).
    rewrite busy_true in *. rewrite elem_of_cons in Hb. tauto.
Qed.

Lemma good_incl H H' a : good H a → (∀ x, x ∈ H → x ∈ H') → (∀ x, x ∈ H' → alive a x) → good H' a.
Proof.
  intros [Hw Hb Hu Hd] Hi Ha. split; [|intros y Hy|done|done].
  - by eapply wfa_setH.
  - specialize (Hb y Hy). rewrite busy_true in *. naive_solver.
Qed.

Lemma good_destroyed H a x :
  good (x :: H) a → alive a x → busy ch H a x = false →
  good (opt_list (ctx_of ch a x.1) ++ H) (destroyed x a).
Proof.
  intros [Hw Hb Hu Hd] Hx Hx0. split.
  - by apply wfa_destroyed.
  - intros y Hy. pose proof (proj1 (destroyed_alive ch _ _ x y Hw Hx) Hy) as [Hy' Hne].
    specialize (Hb y Hy'). apply busy_false in Hx0 as (Hk & _).
    apply busy_refs_pos. rewrite (refs_destroyed ch Hwf) by done. by apply busy_refs_pos.
  - done.
  - intros y Hy. apply (destroyed_alive ch _ _ x y Hw Hx) in Hy as [Hy _]. by apply Hd.
Qed.

Lemma kids_destroyed_other H a x (y : aid) :
  wfa ch H a → alive a x → parent ch x.1 ≠ Some y.1 → kids (destroyed x a) y.1 = kids a y.1.
Proof.
  intros Hw Hx Hp. apply kids_other. intros k. simpl. apply lookup_delete_ne.
  unfold region. intros Heq. injection Heq as Heq _. congruence.
Qed.

(** ** Leaving a state *)
Definition unlisted (x : aid) (a : acore) : acore :=
  match list_find (eq x) (ord a) with
  | None => a
  | Some (i, _) => set_ord (swap_remove i (ord a)) a
  end.

Definition restless (x : aid) (a : acore) : acore :=
  if bool_decide (aunst a = None ∨ aunst a = Some x) then set_aunst (ctx_of ch a x.1) a else a.

(** The configuration after [x] was taken off the list of innermost states and destroyed. *)
Definition left_ (x : aid) (a : acore) : acore := destroyed x (restless x (unlisted x a)).

Lemma list_find_eq_Some (x : aid) l i y : list_find (eq x) l = Some (i, y) → y = x ∧ l !! i = Some x.
Proof. intros (H1 & <- & _)%list_find_Some. done. Qed.
Lemma list_find_eq_in (x : aid) l : x ∈ l → ∃ i, list_find (eq x) l = Some (i, x) ∧ l !! i = Some x.
Proof.
  intros Hx. destruct (list_find (eq x) l) as [[i y]|] eqn:E.
  - apply list_find_eq_Some in E as [-> Hi]. eauto.
  - apply list_find_None in E. rewrite Forall_forall in E. by destruct (E x Hx).
Qed.

Lemma unlisted_notin x a : x ∉ ord a → unlisted x a = a.
Proof.
  intros Hx. unfold unlisted. destruct (list_find (eq x) (ord a)) as [[i y]|] eqn:E; [|done].
  apply list_find_eq_Some in E as [-> E]. apply elem_of_list_lookup_2 in E. done.
Qed.

Lemma unlisted_fields x a : occ (unlisted x a) = occ a ∧ dfr (unlisted x a) = dfr a ∧
  aunst (unlisted x a) = aunst a ∧ anxt (unlisted x a) = anxt a.
Proof. unfold unlisted. destruct (list_find _ _) as [[]|]; done. Qed.
Lemma unlisted_alive x a y : alive (unlisted x a) y ↔ alive a y.
Proof. unfold Abs.alive. by destruct (unlisted_fields x a) as (-> & _). Qed.
Lemma unlisted_kids x a c : kids (unlisted x a) c = kids a c.
Proof. unfold Abs.kids. by destruct (unlisted_fields x a) as (-> & _). Qed.
Lemma unlisted_ctx x a c : ctx_of ch (unlisted x a) c = ctx_of ch a c.
Proof. unfold ctx_of. by destruct (unlisted_fields x a) as (-> & _). Qed.
Lemma unlisted_ord x a y : NoDup (ord a) → (y ∈ ord (unlisted x a) ↔ y ∈ ord a ∧ y ≠ x).
Proof.
  intros Hnd. unfold unlisted. destruct (list_find (eq x) (ord a)) as [[i z]|] eqn:E; simpl.
  - apply list_find_eq_Some in E as [-> E]. by rewrite (swap_remove_elem _ _ x).
  - apply list_find_None in E. rewrite Forall_forall in E. split; [|tauto].
    intros Hy. split; [done|]. intros ->. by apply (E x).
Qed.

Lemma good_unlisted H a x : good H a → alive a x → good (x :: H) (unlisted x a).
Proof.
  intros Hg Hx. destruct (decide (x ∈ ord a)) as [Hin|Hn].
  2:{ rewrite unlisted_notin by done. by apply good_weaken. }
  destruct Hg as [Hw Hb Hu Hd]. pose proof (unlisted_fields x a) as (Ho & _ & Hu' & _). split.
  - unfold unlisted. apply list_find_eq_in in Hin as (i & -> & Hi). by apply wfa_unlisted.
  - intros y Hy. apply unlisted_alive in Hy. destruct (decide (y = x)) as [->|Hne].
    { apply busy_cons. }
    specialize (Hb y Hy). rewrite busy_true in *. rewrite unlisted_kids, elem_of_cons, Hu'.
    rewrite unlisted_ord by apply (wa_dup _ _ _ Hw). tauto.
  - intros y. rewrite Hu'. apply Hu.
  - intros y Hy%unlisted_alive. by apply Hd.
Qed.

Lemma restless_fields x a : occ (restless x a) = occ a ∧ dfr (restless x a) = dfr a ∧
  ord (restless x a) = ord a ∧ anxt (restless x a) = anxt a.
Proof. unfold restless. by case_bool_decide. Qed.
Lemma restless_alive x a y : alive (restless x a) y ↔ alive a y.
Proof. unfold Abs.alive. by destruct (restless_fields x a) as (-> & _). Qed.
Lemma restless_kids x a c : kids (restless x a) c = kids a c.
Proof. unfold Abs.kids. by destruct (restless_fields x a) as (-> & _). Qed.
Lemma restless_ctx x a c : ctx_of ch (restless x a) c = ctx_of ch a c.
Proof. unfold ctx_of. by destruct (restless_fields x a) as (-> & _). Qed.
Lemma restless_unst x a : aunst (restless x a) =
  if bool_decide (aunst a = None ∨ aunst a = Some x) then ctx_of ch a x.1 else aunst a.
Proof. unfold restless. by case_bool_decide. Qed.

Lemma ctx_ne H a x q : wfa ch H a → alive a x → ctx_of ch a x.1 = Some q → q ≠ x.
Proof.
  intros Hw Hx Hc ->. destruct x as [c p]. destruct (ctx_of_alive _ _ _ _ _ _ Hw Hx Hc) as [_ Hp].
  apply (parent_lt _ Hwf) in Hp. simpl in Hp. lia.
Qed.

Lemma ctx_kid H a x q : wfa ch H a → alive a x → ctx_of ch a x.1 = Some q → x ∈ kids a q.1.
Proof.
  intros Hw Hx Hc. destruct x as [c p]. destruct (ctx_of_alive _ _ _ _ _ _ Hw Hx Hc) as [_ Hp].
  by apply (elem_of_kids ch Hwf _ _ _ _ Hw).
Qed.

Lemma ctx_not_leaf H a x q : wfa ch H a → alive a x → ctx_of ch a x.1 = Some q → is_leaf ch q.1 = false.
Proof.
  intros Hw Hx Hc. destruct x as [c p]. destruct (ctx_of_alive _ _ _ _ _ _ Hw Hx Hc) as [_ Hp].
  apply (pos_lt _ Hwf) in Hp. unfold is_leaf. apply bool_decide_eq_false. lia.
Qed.

Lemma restless_not x H a : wfa ch H a → alive a x → aunst (restless x a) ≠ Some x.
Proof.
  intros Hw Hx. rewrite restless_unst. case_bool_decide as Hu.
  - intros Hc. by apply (ctx_ne _ _ _ _ Hw Hx Hc).
  - intros Hc. apply Hu. by right.
Qed.

Lemma good_restless H a x : good (x :: H) a → alive a x → good (x :: H) (restless x a).
Proof.
  intros [Hw Hb Hu Hd] Hx. unfold restless. case_bool_decide as Hun; [|done].
  assert (∀ q, ctx_of ch a x.1 = Some q → alive a q) as Hq.
  { intros q Hc. destruct x as [c p]. by destruct (ctx_of_alive _ _ _ _ _ _ Hw Hx Hc). }
  split.
  - destruct Hw. constructor; simpl; try assumption.
  - intros y Hy. change (alive (set_aunst (ctx_of ch a x.1) a) y) with (alive a y) in Hy.
    destruct (decide (y = x)) as [->|Hne]; [apply busy_cons|].
    specialize (Hb y Hy). rewrite busy_true in *. simpl.
    change (kids (set_aunst (ctx_of ch a x.1) a) y.1) with (kids a y.1).
    destruct Hb as [Hb|[Hb|[Hb|Hb]]]; try tauto. destruct Hun as [Hun|Hun]; congruence.
  - simpl. intros q Hc. by eapply ctx_not_leaf.
  - done.
Qed.

Lemma left_alive H a x y : wfa ch H a → alive a x → (alive (left_ x a) y ↔ alive a y ∧ y ≠ x).
Proof.
  intros Hw Hx. unfold left_, Abs.alive, RefineStep.destroyed. simpl.
  destruct (restless_fields x (unlisted x a)) as (-> & _).
  destruct (unlisted_fields x a) as (-> & _).
  pose proof (destroyed_alive ch _ _ x y Hw Hx) as Hd. unfold Abs.alive, RefineStep.destroyed in Hd.
  exact Hd.
Qed.

Lemma left_fields x a : occ (left_ x a) = delete (region ch x.1) (occ a) ∧
  dfr (left_ x a) = dfr a ∖ {[x.2]} ∧ ord (left_ x a) = ord (unlisted x a) ∧
  anxt (left_ x a) = anxt a ∧
  aunst (left_ x a) = (if bool_decide (aunst a = None ∨ aunst a = Some x) then ctx_of ch a x.1 else aunst a).
Proof.
  unfold left_. simpl. destruct (restless_fields x (unlisted x a)) as (-> & -> & -> & ->).
  rewrite restless_unst, unlisted_ctx. destruct (unlisted_fields x a) as (-> & -> & -> & ->). done.
Qed.

Lemma good_left H a x :
  good (x :: H) a → alive a x → kids a x.1 = [] → x ∉ H →
  good (opt_list (ctx_of ch a x.1) ++ H) (left_ x a).
Proof.
  intros Hg Hx Hk HxH. pose proof (gd_wf _ _ Hg) as Hw.
  assert (good (x :: H) (unlisted x a)) as Hg1.
  { pose proof (good_unlisted _ _ _ Hg Hx) as Hg1.
    eapply good_tighten; [exact Hg1|]. apply busy_cons. }
  assert (alive (unlisted x a) x) as Hx1 by by apply unlisted_alive.
  pose proof (good_restless _ _ _ Hg1 Hx1) as Hg2.
  assert (alive (restless x (unlisted x a)) x) as Hx2 by by apply restless_alive.
  pose proof (good_destroyed _ _ _ Hg2 Hx2) as Hg3.
  rewrite restless_ctx, unlisted_ctx in Hg3. apply Hg3. apply busy_false.
  rewrite restless_kids, unlisted_kids. split_and!; try done.
  - destruct (restless_fields x (unlisted x a)) as (_ & _ & -> & _).
    rewrite unlisted_ord by apply (wa_dup _ _ _ Hw). tauto.
  - eapply restless_not; [apply (gd_wf _ _ Hg1)|done].
Qed.

End good.
