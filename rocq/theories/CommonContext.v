(** The static computation of the innermost common context. *)
From Verif Require Export Spec ChartFacts.

Section cc.
Context (ch : chart) (Hwf : wf_chart ch = true).

Lemma context_list_unfold c :
  context_list ch c = parent ch c :: match parent ch c with None => [] | Some q => context_list ch q end.
Proof.
  unfold context_list. rewrite (outers_unfold ch Hwf c).
  destruct (parent ch c) as [q|]; done.
Qed.

Lemma encloses_list x c : encloses ch x c ↔ x ∈ context_list ch c.
Proof.
  split.
  - induction 1 as [c|x c q Hp _ IH]; rewrite context_list_unfold; [left|].
    rewrite Hp. by right.
  - revert x. induction (lt_wf c) as [c _ IH]. intros x. rewrite context_list_unfold.
    destruct (parent ch c) as [q|] eqn:Hp.
    + intros [->|Hx]%elem_of_cons.
      * rewrite <-Hp. constructor.
      * eapply encloses_step; [done|]. apply IH; [|done]. by apply (parent_lt ch Hwf).
    + intros ->%elem_of_list_singleton. rewrite <-Hp. constructor.
Qed.

Lemma encloses_machine c : encloses ch None c.
Proof. apply encloses_list. unfold context_list. apply elem_of_app. right. left. Qed.

Lemma encloses_lt q c : encloses ch (Some q) c → q < c.
Proof.
  intros He. remember (Some q) as x eqn:Hx. induction He as [c|x c q' Hp He IH].
  - by apply (parent_lt ch Hwf).
  - specialize (IH Hx). apply (parent_lt ch Hwf) in Hp. lia.
Qed.

Lemma encloses_trans x q c : encloses ch x q → encloses ch (Some q) c → encloses ch x c.
Proof.
  intros Hx He. remember (Some q) as y eqn:Hy. induction He as [c|y c q' Hp He IH]; subst.
  - by eapply encloses_step.
  - eapply encloses_step; [done|]. by apply IH.
Qed.

Lemma list_find_in {A} (P : A → Prop) `{∀ x, Decision (P x)} l x :
  x ∈ l → P x → ∃ i y, list_find P l = Some (i, y).
Proof.
  intros Hx HP. destruct (list_find P l) as [[i y]|] eqn:E; [eauto|].
  apply list_find_None in E. rewrite Forall_forall in E. by destruct (E x Hx).
Qed.

Lemma list_find_cons {A} (P : A → Prop) `{∀ x, Decision (P x)} a l :
  list_find P (a :: l) = if decide (P a) then Some (0, a) else prod_map S id <$> list_find P l.
Proof. done. Qed.

(** The list of contexts searched outward from [c]. *)
Lemma find_context c (P : option cls → Prop) `{∀ x, Decision (P x)} i x :
  list_find P (context_list ch c) = Some (i, x) →
  encloses ch x c ∧ P x ∧
  (∀ y, encloses ch y c → P y → y = x ∨ ∃ q, x = Some q ∧ encloses ch y q) ∧
  ∃ t, termination_state ch c i = Some t ∧ parent ch t = x ∧ within ch t c.
Proof.
  revert i. induction (lt_wf c) as [c _ IH]. intros i. rewrite context_list_unfold, list_find_cons.
  destruct (decide (P (parent ch c))) as [HP|HP].
  - intros [= <- <-]. split; [constructor|]. split; [done|]. split.
    + intros y Hy _. inversion Hy as [c'|x' c' q Hp He]; subst; [by left|].
      right. exists q. done.
    + exists c. split; [done|]. split; [done|]. by left.
  - destruct (parent ch c) as [q|] eqn:Hp; [|done].
    destruct (list_find P (context_list ch q)) as [[j z]|] eqn:E; [|done].
    intros [= <- <-]. simpl.
    destruct (IH q (parent_lt ch Hwf _ _ Hp) _ E) as (H1 & H2 & H3 & t & H4 & H5 & H6).
    split; [by eapply encloses_step|]. split; [done|]. split.
    + intros y Hy HPy. inversion Hy as [c' Heq|x' c' q' Hp' He]; subst.
      * by rewrite Hp in HPy.
      * assert (q' = q) as -> by congruence. by apply H3.
    + exists t. split.
      * unfold termination_state in *. simpl. by rewrite (outers_unfold ch Hwf c), Hp.
      * split; [done|]. right. destruct H6 as [->|H6].
        -- rewrite <-Hp. constructor.
        -- by eapply encloses_step.
Qed.

Lemma common_context_spec c d :
  ∃ i x t, common_context ch c d = Some (i, x) ∧ innermost_common ch x c d ∧
    termination_state ch c i = Some t ∧ parent ch t = x ∧ within ch t c.
Proof.
  unfold common_context.
  assert (None ∈ context_list ch c ∧ None ∈ context_list ch d) as [Hc Hd].
  { split; apply encloses_list, encloses_machine. }
  destruct (list_find_in (λ x, x ∈ context_list ch d) _ _ Hc Hd) as (i & x & E).
  pose proof (find_context c (λ x, x ∈ context_list ch d) i x E) as (H1 & H2 & H3 & t & H4 & H5 & H6).
  exists i, x, t. split; [exact E|]. split; [|done]. split; [done|by apply encloses_list|].
  intros y Hy Hy'. apply H3; [done|by apply encloses_list].
Qed.

(** The state directly below [x] on the way to [d]. *)
Lemma path_hd x d : encloses ch x d →
  parent ch (hd d (path_below ch x d)) = x ∧ within ch (hd d (path_below ch x d)) d.
Proof.
  unfold path_below. intros He. induction (lt_wf d) as [d _ IH].
  rewrite (outers_unfold ch Hwf d). destruct (parent ch d) as [q|] eqn:Hp; simpl.
  - case_bool_decide as Hx; simpl.
    + split; [congruence|by left].
    + inversion He as [c Heq|x' c q' Hp' He']; subst; [congruence|].
      assert (q' = q) as -> by congruence.
      destruct (IH q (parent_lt ch Hwf _ _ Hp) He') as [H1 H2].
      assert (hd d (rev (before x (outers ch q)) ++ [q]) = hd q (rev (before x (outers ch q)))) as ->.
      { by destruct (rev (before x (outers ch q))). }
      split; [done|]. right. destruct H2 as [H2|H2].
      * rewrite <-H2, <-Hp. constructor.
      * by eapply encloses_step.
  - inversion He as [c Heq|x' c q' Hp' He']; subst; [|congruence]. split; [congruence|by left].
Qed.

Lemma directly_below_unique x c t t' :
  parent ch t = x → parent ch t' = x → within ch t c → within ch t' c → t = t'.
Proof.
  intros H1 H2. revert t t' H1 H2. induction (lt_wf c) as [c _ IH]. intros t t' H1 H2 [->|Hc] [->|Hc'].
  - done.
  - exfalso. apply encloses_lt in Hc' as Hlt.
    assert (encloses ch (Some t') t) as He by done.
    inversion He as [c Heq|x' c q' Hp' He']; subst.
    + assert (parent ch t' = Some t') as Hp by congruence. apply (parent_lt ch Hwf) in Hp. lia.
    + assert (parent ch t' = Some q') as Hp by congruence.
      apply (parent_lt ch Hwf) in Hp. apply encloses_lt in He'. lia.
  - exfalso. inversion Hc as [c Heq|x' c q' Hp' He']; subst.
    + assert (parent ch t = Some t) as Hp by congruence. apply (parent_lt ch Hwf) in Hp. lia.
    + assert (parent ch t = Some q') as Hp by congruence.
      apply (parent_lt ch Hwf) in Hp. apply encloses_lt in He'. lia.
  - assert (∃ q, parent ch c = Some q ∧ within ch t q ∧ within ch t' q) as (q & Hp & Hq & Hq').
    { inversion Hc as [c0 Heq|x' c0 q' Hp' He']; subst.
      - exists t. split; [done|]. split; [by left|].
        inversion Hc' as [c0 Heq'|x' c0 q' Hp' He']; subst.
        + left. congruence.
        + right. assert (q' = t) as -> by congruence. done.
      - exists q'. split; [done|]. split; [by right|].
        inversion Hc' as [c0 Heq'|x' c0 q'' Hp'' He'']; subst.
        + left. congruence.
        + right. assert (q'' = q') as -> by congruence. done. }
    eapply (IH q); [by apply (parent_lt ch Hwf)|done|done|done|done].
Qed.

(** A transition compiles only if source and destination side of the common context are in the same
    region of it. *)
Lemma transit_ok_regions c d x t e :
  transit_ok ch c d = true → innermost_common ch x c (init_cls d) →
  parent ch t = x → within ch t c → parent ch e = x → within ch e (init_cls d) →
  region ch t = region ch e.
Proof.
  intros Hok Hic Ht1 Ht2 He1 He2. unfold transit_ok in Hok. apply andb_true_iff in Hok as [_ Hok].
  destruct (common_context_spec c (init_cls d)) as (i & x' & t' & E1 & Hic' & E2 & E3 & E4).
  rewrite E1, E2 in Hok. apply bool_decide_eq_true in Hok.
  assert (x' = x) as ->.
  { destruct Hic as [A1 A2 A3], Hic' as [B1 B2 B3].
    destruct (A3 x' B1 B2) as [?|(q & -> & Hq)]; [done|].
    destruct (B3 (Some q) A1 A2) as [?|(q' & -> & Hq')]; [done|].
    apply encloses_lt in Hq, Hq'. lia. }
  assert (t' = t) as -> by (by eapply (directly_below_unique x c)).
  destruct (path_hd x (init_cls d)) as [P1 P2]; [by apply (ic_right _ _ _ _ Hic)|].
  assert (hd (init_cls d) (path_below ch x (init_cls d)) = e) as Heq
    by (by eapply (directly_below_unique x (init_cls d))).
  rewrite Heq in Hok. unfold region. congruence.
Qed.

Lemma transit_ok_iff c d x t e :
  innermost_common ch x c (init_cls d) →
  parent ch t = x → within ch t c → parent ch e = x → within ch e (init_cls d) →
  init_ok ch d = true →
  transit_ok ch c d = true ↔ region ch t = region ch e.
Proof.
  intros Hic Ht1 Ht2 He1 He2 Hi. split; [intros Hok; by eapply transit_ok_regions|].
  intros Hr. unfold transit_ok. rewrite Hi. simpl.
  destruct (common_context_spec c (init_cls d)) as (i & x' & t' & E1 & Hic' & E2 & E3 & E4).
  rewrite E1, E2. apply bool_decide_eq_true.
  assert (x' = x) as ->.
  { destruct Hic as [A1 A2 A3], Hic' as [B1 B2 B3].
    destruct (A3 x' B1 B2) as [?|(q & -> & Hq)]; [done|].
    destruct (B3 (Some q) A1 A2) as [?|(q' & -> & Hq')]; [done|].
    apply encloses_lt in Hq, Hq'. lia. }
  assert (t' = t) as -> by (by eapply (directly_below_unique x c)).
  destruct (path_hd x (init_cls d)) as [P1 P2]; [by apply (ic_right _ _ _ _ Hic)|].
  assert (hd (init_cls d) (path_below ch x (init_cls d)) = e) as ->
    by (by eapply (directly_below_unique x (init_cls d))).
  unfold region in Hr. congruence.
Qed.
End cc.
