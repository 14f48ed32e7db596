(** The heap operations of Machine.v seen through the coupling relation. *)
From Verif Require Export RefineStep.

(** ** [swap_remove] *)
Lemma swap_remove_eq i (l : list aid) z : last l = Some z →
  swap_remove i l = take (length l - 1) (<[i := z]> l).
Proof.
  intros Hz. unfold swap_remove. rewrite last_lookup in Hz.
  replace (length l - 1) with (pred (length l)) by lia. by rewrite Hz.
Qed.

Lemma swap_remove_lookup i (l : list aid) z j : i < length l → last l = Some z →
  swap_remove i l !! j =
    if decide (j < length l - 1) then if decide (j = i) then Some z else l !! j else None.
Proof.
  intros Hi Hz. rewrite (swap_remove_eq _ _ z) by done.
  destruct (decide (j < length l - 1)).
  - rewrite lookup_take by done. destruct (decide (j = i)) as [->|].
    + by rewrite list_lookup_insert.
    + by rewrite list_lookup_insert_ne.
  - apply lookup_ge_None_2. rewrite take_length, insert_length. lia.
Qed.

Lemma swap_remove_length i (l : list aid) : i < length l →
  length (swap_remove i l) = length l - 1.
Proof.
  intros Hi. destruct (last l) as [z|] eqn:Hz.
  - rewrite (swap_remove_eq _ _ z) by done. rewrite take_length, insert_length. lia.
  - apply last_None in Hz. subst. simpl in Hi. lia.
Qed.

Lemma swap_remove_elem i (l : list aid) x y : NoDup l → l !! i = Some x →
  (y ∈ swap_remove i l ↔ y ∈ l ∧ y ≠ x).
Proof.
  intros Hnd Hi. pose proof (lookup_lt_Some _ _ _ Hi) as Hlt.
  destruct (last l) as [z|] eqn:Hz; [|apply last_None in Hz; by subst].
  pose proof Hz as Hz'. rewrite last_lookup in Hz'. rewrite elem_of_list_lookup. split.
  - intros [j Hj]. rewrite (swap_remove_lookup _ _ z) in Hj by done.
    destruct (decide (j < length l - 1)); [|done]. destruct (decide (j = i)) as [->|Hne].
    + injection Hj as <-. split; [by eapply elem_of_list_lookup_2|]. intros ->.
      pose proof (NoDup_lookup _ _ _ _ Hnd Hi Hz'). lia.
    + split; [by eapply elem_of_list_lookup_2|]. intros ->.
      by pose proof (NoDup_lookup _ _ _ _ Hnd Hi Hj).
  - intros [Hy Hne]. apply elem_of_list_lookup in Hy as [j Hj].
    pose proof (lookup_lt_Some _ _ _ Hj).
    destruct (decide (j = pred (length l))) as [->|Hj'].
    + exists i. rewrite (swap_remove_lookup _ _ z) by done. rewrite !decide_True; [congruence|done|].
      assert (i ≠ pred (length l)); [|lia]. intros ->. congruence.
    + exists j. rewrite (swap_remove_lookup _ _ z) by done.
      rewrite decide_True by lia. rewrite decide_False; [done|]. intros ->. congruence.
Qed.

Lemma swap_remove_NoDup i (l : list aid) x : NoDup l → l !! i = Some x → NoDup (swap_remove i l).
Proof.
  intros Hnd Hi. pose proof (lookup_lt_Some _ _ _ Hi) as Hlt.
  destruct (last l) as [z|] eqn:Hz; [|apply last_None in Hz; by subst].
  pose proof Hz as Hz'. rewrite last_lookup in Hz'.
  apply NoDup_alt. intros j k y. rewrite !(swap_remove_lookup _ _ z) by done.
  repeat destruct (decide _); subst; try done; intros Hj Hk;
    repeat match goal with H : Some _ = Some _ |- _ => injection H as -> end.
  - pose proof (NoDup_lookup _ _ _ _ Hnd Hk Hz'). lia.
  - pose proof (NoDup_lookup _ _ _ _ Hnd Hj Hz'). lia.
  - by apply (NoDup_lookup _ _ _ _ Hnd Hj Hk).
Qed.

Section heap.
Context (ch : chart) (Hwf : wf_chart ch = true).
Notation alive := (alive ch).
Notation R := (R ch).
Notation wfa := (wfa ch).
Notation refs := (refs ch).
Notation kids := (kids ch).

Lemma wfa_listed H a x : wfa H a → alive a x → is_leaf ch x.1 = true → x ∉ ord a →
  wfa H (set_ord (ord a ++ [x]) a).
Proof.
  intros [] Hx Hl Hn. constructor; simpl; try assumption.
  - apply NoDup_app. split; [done|]. split; [|by apply NoDup_singleton].
    intros y Hy ->%elem_of_list_singleton. done.
  - intros y [Hy|Hy]%elem_of_app; [by apply wa_ord|].
    apply elem_of_list_singleton in Hy as ->. done.
Qed.

Lemma R_listed H s a x o sl :
  R (x :: H) s a → alive a x → is_leaf ch x.1 = true → x ∉ ord a →
  heap s !! x.2 = Some o →
  length (ord a) < length sl →
  (∀ i, i < length (ord a) → sl !! i = slots s !! i) →
  sl !! length (ord a) = Some (Some x.2) →
  (∀ i y, length (ord a) < i → sl !! i = Some y → y = None) →
  R H (HeapSt (<[x.2 := set_lpos (Some (length (ord a))) o]> (heap s)) (nxt s) sl
         (length (ord a) + 1) (outermost s) (unst s)) (set_ord (ord a ++ [x]) a).
Proof.
  intros HR Hx Hl Hnin Ho Hlen Hsl Hsx Hsn.
  pose proof (R_wf _ _ _ _ HR) as Hw.
  assert (wfa H a) as Hw0.
  { eapply wfa_setH; [done|]. intros y Hy. apply (wa_H _ _ _ Hw). by right. }
  pose proof (R_heap_eq _ _ _ _ _ _ HR Hx Ho) as [Ho' Hlp].
  destruct HR as [_ Hn Htop Hu Hs Hlen0 Hslots Hnull Hobj Hdom].
  assert (∀ y, alive a y → refs H (set_ord (ord a ++ [x]) a) y = refs (x :: H) a y) as Hrefs.
  { intros y Hy. unfold RefineBase.refs. rewrite count_in_cons. simpl.
    assert (b2n (bool_decide (y ∈ ord a ++ [x])) = b2n (bool_decide (y ∈ ord a)) + b2n (bool_decide (y = x))) as ->.
    { destruct (decide (y = x)) as [->|Hne].
      - rewrite bool_decide_true, (bool_decide_false (x ∈ ord a)), (bool_decide_true (x = x)); try done.
        rewrite elem_of_app, elem_of_list_singleton. by right.
      - rewrite (bool_decide_false (y = x)) by done. simpl.
        rewrite (bool_decide_ext (y ∈ ord a ++ [x]) (y ∈ ord a)); [lia|].
        rewrite elem_of_app, elem_of_list_singleton. tauto. }
    unfold Abs.kids. simpl. lia. }
  constructor; simpl; try assumption.
  - by apply wfa_listed.
  - rewrite app_length. done.
  - rewrite app_length. simpl. lia.
  - intros i y Hi. apply lookup_app_Some in Hi as [Hi|[Hge Hi]].
    + rewrite Hsl by (by eapply lookup_lt_Some). by apply Hslots.
    + apply list_lookup_singleton_Some in Hi as [Hi <-].
      assert (i = length (ord a)) as -> by lia. done.
  - intros i y. rewrite app_length. simpl. intros Hi. apply Hsn. lia.
  - intros y Hy. destruct (decide (y = x)) as [->|Hne].
    + exists (Some (length (ord a))). split.
      * rewrite lookup_insert. f_equal. rewrite Ho'. unfold absobj, set_lpos. simpl.
        rewrite Hrefs by done. done.
      * intros i. simpl. intros Hi. apply lookup_app_Some in Hi as [Hi|[Hge Hi]].
        -- exfalso. apply Hnin. by eapply elem_of_list_lookup_2.
        -- apply list_lookup_singleton_Some in Hi as [Hi _]. f_equal. lia.
    + destruct (Hobj y Hy) as (lp & Hly & Hlpy). exists lp. split.
      * rewrite lookup_insert_ne.
        -- rewrite Hly. f_equal. unfold absobj. simpl. rewrite Hrefs by done. done.
        -- intros Heq. apply Hne. by apply (wfa_alive_inj _ _ _ _ _ Hw).
      * intros i. simpl. intros Hi. apply lookup_app_Some in Hi as [Hi|[Hge Hi]].
        -- by apply Hlpy.
        -- apply list_lookup_singleton_Some in Hi as [Hi Heq]. by destruct Hne.
  - intros p o'. destruct (decide (p = x.2)) as [->|Hne].
    + rewrite lookup_insert. intros [= <-]. simpl. rewrite Ho'. simpl. destruct x. done.
    + rewrite lookup_insert_ne by done. apply Hdom.
Qed.

Lemma wfa_unlisted H a x i : wfa H a → ord a !! i = Some x →
  wfa (x :: H) (set_ord (swap_remove i (ord a)) a).
Proof.
  intros [] Hi. constructor; simpl; try assumption.
  - by eapply swap_remove_NoDup.
  - intros y Hy. apply wa_ord. by eapply swap_remove_elem.
  - intros y [->|Hy]%elem_of_cons; [|by apply wa_H].
    apply wa_ord. by eapply elem_of_list_lookup_2.
Qed.

Lemma R_unlisted H s a x i z oz sl :
  R H s a → ord a !! i = Some x → last (ord a) = Some z → heap s !! z.2 = Some oz →
  sl = <[length (ord a) - 1 := None]> (<[i := Some z.2]> (slots s)) →
  R (x :: H) (HeapSt (<[z.2 := set_lpos (Some i) oz]> (heap s)) (nxt s) sl
         (length (ord a) - 1) (outermost s) (unst s)) (set_ord (swap_remove i (ord a)) a).
Proof.
  intros HR Hi Hz Hoz ->.
  pose proof (R_wf _ _ _ _ HR) as Hw.
  pose proof (wa_dup _ _ _ Hw) as Hnd.
  pose proof (lookup_lt_Some _ _ _ Hi) as Hlt.
  pose proof Hz as Hz'. rewrite last_lookup in Hz'.
  assert (alive a x) as Hx.
  { apply (wa_ord _ _ _ Hw). by eapply elem_of_list_lookup_2. }
  assert (alive a z) as Hza.
  { apply (wa_ord _ _ _ Hw). by eapply elem_of_list_lookup_2. }
  pose proof (R_heap_eq _ _ _ _ _ _ HR Hza Hoz) as [Hoz' Hlpz].
  destruct HR as [_ Hn Htop Hu Hs Hlen0 Hslots Hnull Hobj Hdom].
  set (a' := set_ord (swap_remove i (ord a)) a).
  assert (∀ y, refs (x :: H) a' y = refs H a y) as Hrefs.
  { intros y. unfold RefineBase.refs. rewrite count_in_cons. simpl.
    rewrite (bool_decide_ext (y ∈ swap_remove i (ord a)) (y ∈ ord a ∧ y ≠ x)) by (by apply swap_remove_elem).
    destruct (decide (y = x)) as [->|Hne].
    - rewrite (bool_decide_true (x = x)), (bool_decide_true (x ∈ ord a)), (bool_decide_false (_ ∧ _)).
      + unfold Abs.kids. simpl. lia.
      + naive_solver.
      + by eapply elem_of_list_lookup_2.
      + done.
    - rewrite (bool_decide_false (y = x)) by done.
      rewrite (bool_decide_ext (y ∈ ord a ∧ y ≠ x) (y ∈ ord a)) by naive_solver.
      unfold Abs.kids. simpl. lia. }
  constructor; simpl; try assumption.
  - by apply wfa_unlisted.
  - by rewrite swap_remove_length.
  - rewrite swap_remove_length, !insert_length by done. lia.
  - intros j y Hj. rewrite (swap_remove_lookup _ _ z) in Hj by done.
    destruct (decide (j < length (ord a) - 1)); [|done].
    rewrite list_lookup_insert_ne by lia. destruct (decide (j = i)) as [->|Hne].
    + injection Hj as <-. rewrite list_lookup_insert by lia. done.
    + rewrite list_lookup_insert_ne by done. by apply Hslots.
  - intros j y. rewrite swap_remove_length by done. intros Hj.
    destruct (decide (j = length (ord a) - 1)) as [->|Hne].
    + rewrite list_lookup_insert by (rewrite insert_length; lia). by intros [= <-].
    + rewrite list_lookup_insert_ne by done. rewrite list_lookup_insert_ne by lia.
      apply Hnull. lia.
  - intros y Hy. destruct (decide (y = z)) as [->|Hne].
    + exists (Some i). split.
      * rewrite lookup_insert. f_equal. rewrite Hoz'. unfold absobj, set_lpos. simpl.
        rewrite Hrefs. done.
      * intros j. simpl. rewrite (swap_remove_lookup _ _ z) by done.
        destruct (decide (j < length (ord a) - 1)); [|done].
        destruct (decide (j = i)) as [->|Hne]; [done|]. intros Hj.
        pose proof (NoDup_lookup _ _ _ _ Hnd Hj Hz'). lia.
    + destruct (Hobj y Hy) as (lp & Hly & Hlpy). exists lp. split.
      * rewrite lookup_insert_ne.
        -- rewrite Hly. f_equal. unfold absobj. simpl. rewrite Hrefs. done.
        -- intros Heq. apply Hne. symmetry. by apply (wfa_alive_inj _ _ _ _ _ Hw).
      * intros j. simpl. rewrite (swap_remove_lookup _ _ z) by done.
        destruct (decide (j < length (ord a) - 1)); [|done].
        destruct (decide (j = i)) as [->|]; [by intros [= ->]|]. apply Hlpy.
  - intros p o'. destruct (decide (p = z.2)) as [->|Hne].
    + rewrite lookup_insert. intros [= <-]. simpl. rewrite Hoz'. simpl. destruct z. done.
    + rewrite lookup_insert_ne by done. apply Hdom.
Qed.

Lemma R_deferring H s a x o :
  R H s a → alive a x → heap s !! x.2 = Some o →
  R H (set_heap (<[x.2 := set_defer true o]> (heap s)) s) (set_dfr (dfr a ∪ {[x.2]}) a).
Proof.
  intros HR Hx Ho.
  pose proof (R_wf _ _ _ _ HR) as Hw.
  pose proof (R_heap_eq _ _ _ _ _ _ HR Hx Ho) as [Ho' Hlp].
  destruct HR as [_ Hn Htop Hu Hs Hlen0 Hslots Hnull Hobj Hdom].
  constructor; simpl; try assumption.
  - pose proof (wa_fresh _ _ _ Hw x Hx). destruct Hw. constructor; simpl; try assumption.
    set_solver.
  - intros y Hy. destruct (decide (y = x)) as [->|Hne].
    + exists (o_lpos o). split; [|done]. rewrite lookup_insert. f_equal.
      rewrite Ho' at 1. unfold absobj, set_defer. simpl. f_equal. symmetry.
      apply bool_decide_true. set_solver.
    + assert (y.2 ≠ x.2) as Hne'.
      { intros Heq. apply Hne. by apply (wfa_alive_inj _ _ _ _ _ Hw). }
      destruct (Hobj y Hy) as (lp & Hly & Hlpy). exists lp. split; [|done].
      rewrite lookup_insert_ne by done. rewrite Hly. f_equal. unfold absobj. simpl. f_equal.
      apply bool_decide_ext. set_solver.
  - intros p o'. destruct (decide (p = x.2)) as [->|Hne].
    + rewrite lookup_insert. intros [= <-]. simpl. rewrite Ho'. simpl. destruct x. done.
    + rewrite lookup_insert_ne by done. apply Hdom.
Qed.

(** ** Pure heap steps *)
Context {W : Type}.
Notation S := (mst W heapst).

(** [m] returns, does not touch the environment and takes the heap from [P] to [Q]. *)
Definition crun {A} (m : M S A) (P : heapst → Prop) (Q : A → heapst → Prop) : Prop :=
  ∀ s, P (core s) → ∃ v s', m s = (Ret v, s') ∧ en s' = en s ∧ Q v (core s').

Lemma crun_ret {A} (v : A) P : crun (ret v) P (λ w h, w = v ∧ P h).
Proof. intros s Hs. eexists _, _. done. Qed.

Lemma crun_bind {A B} (m : M S A) (k : A → M S B) P Q T :
  crun m P Q → (∀ v, crun (k v) (Q v) T) → crun (bind m k) P T.
Proof.
  intros Hm Hk s Hs. destruct (Hm s Hs) as (v & s1 & Heq & He & HQ).
  destruct (Hk v s1 HQ) as (w & s2 & Heq2 & He2 & HT).
  exists w, s2. unfold bind. rewrite Heq, Heq2. split; [done|]. split; [congruence|done].
Qed.

Lemma crun_weaken {A} (m : M S A) (P P' : heapst → Prop) (Q Q' : A → heapst → Prop) :
  crun m P' Q' → (∀ h, P h → P' h) → (∀ v h, Q' v h → Q v h) → crun m P Q.
Proof.
  intros Hm HP HQ s Hs. destruct (Hm s (HP _ Hs)) as (v & s1 & Heq & He & H). eauto 10.
Qed.

Lemma crun_deref x H a : alive a x →
  crun (deref x.2) (λ h, R H h a)
    (λ o h, R H h a ∧ heap h !! x.2 = Some o).
Proof.
  intros Hx s HR. destruct (R_lookup _ _ _ _ _ HR Hx) as (o & Ho & _).
  exists o, s. unfold deref, hp, bind, gets. simpl. rewrite Ho. done.
Qed.

Lemma crun_add_ref x H a : alive a x →
  crun (add_ref x.2) (λ h, R H h a) (λ _ h, R (x :: H) h a).
Proof.
  intros Hx. unfold add_ref. eapply crun_bind; [by apply crun_deref|].
  intros o s [HR Ho]. eexists tt, _. split; [done|]. split; [done|]. simpl.
  destruct (R_lookup _ _ _ _ _ HR Hx) as (o' & Ho' & _ & Hrc & _).
  assert (o' = o) as -> by congruence.
  replace (o_rc o + 1) with (refs (x :: H) a x).
  - eapply R_setH; [done|done|done| |].
    + intros y Hy. rewrite count_in_cons, bool_decide_false by done. done.
    + intros y [->|Hy]%elem_of_cons; [done|]. by apply (wa_H _ _ _ (R_wf _ _ _ _ HR)).
  - rewrite Hrc. unfold RefineBase.refs. rewrite count_in_cons, (bool_decide_true (x = x)) by done.
    simpl. lia.
Qed.

Lemma crun_add_ref_ctx x H a : alive_opt ch a x →
  crun (add_ref_ctx (snd <$> x)) (λ h, R H h a) (λ _ h, R (opt_list x ++ H) h a).
Proof.
  destruct x as [x|]; simpl; intros Hx.
  - by apply crun_add_ref.
  - intros s Hs. eexists tt, s. done.
Qed.

Lemma crun_release_base x H a : alive a x → busy ch H a x = true →
  crun (release_base x.2) (λ h, R (x :: H) h a) (λ _ h, R H h a).
Proof.
  intros Hx Hb. unfold release_base. eapply crun_bind; [by apply crun_deref|].
  intros o s [HR Ho].
  destruct (R_lookup _ _ _ _ _ HR Hx) as (o' & Ho' & _ & Hrc & _).
  assert (o' = o) as -> by congruence.
  apply busy_refs_pos in Hb.
  assert (refs (x :: H) a x = Datatypes.S (refs H a x)) as Hr.
  { unfold RefineBase.refs. rewrite count_in_cons, (bool_decide_true (x = x)) by done.
    simpl. lia. }
  rewrite Hrc, Hr. destruct (refs H a x) as [|n] eqn:E; [lia|].
  eexists tt, _. split; [done|]. split; [done|]. simpl. rewrite <-E.
  eapply R_setH; [done|done|done| |].
  - intros y Hy. rewrite count_in_cons, bool_decide_false by done. done.
  - intros y Hy. apply (wa_H _ _ _ (R_wf _ _ _ _ HR)). by right.
Qed.

Lemma crun_assign_unst new H a :
  alive_opt ch a new →
  (∀ o, aunst a = Some o → busy ch H (set_aunst new a) o = true) →
  crun (assign_unst (snd <$> new)) (λ h, R H h a) (λ _ h, R H h (set_aunst new a)).
Proof.
  intros Hnew Hold. unfold assign_unst.
  eapply crun_bind; [by apply crun_add_ref_ctx|]. intros _ s HR.
  pose proof (R_wf _ _ _ _ HR) as Hw.
  assert (R (opt_list (aunst a) ++ H) (set_unst (snd <$> new) (core s)) (set_aunst new a)) as HR'.
  { change new with (aunst (set_aunst new a)) at 1. eapply R_move; try done.
    - simpl. intros x ->. done.
    - intros y [Hy|Hy]%elem_of_app.
      + destruct (aunst a) as [u|] eqn:Eu; [|by apply elem_of_nil in Hy].
        apply elem_of_list_singleton in Hy as ->. by apply (wa_unst _ _ _ Hw).
      + apply (wa_H _ _ _ Hw). apply elem_of_app. by right.
    - intros x Hx. unfold RefineBase.refs. simpl.
      assert (∀ u : option aid, count_in x (opt_list u ++ H)
                 = b2n (bool_decide (u = Some x)) + count_in x H) as Hc.
      { intros [u|]; simpl.
        - rewrite count_in_cons. do 2 f_equal. apply bool_decide_ext. split; congruence.
        - done. }
      rewrite !Hc. unfold Abs.kids. simpl. lia. }
  assert (gets (λ s, unst (core s)) s = (Ret (snd <$> aunst a), s)) as Hg.
  { unfold gets. by rewrite (R_unst _ _ _ _ HR). }
  unfold bind. rewrite Hg. simpl.
  destruct (aunst a) as [o|] eqn:Eu; simpl.
  - assert (alive (set_aunst new a) o) as Ho.
    { by apply (wa_unst _ _ _ Hw). }
    destruct (crun_release_base o H (set_aunst new a) Ho (Hold o eq_refl)
                (MSt (set_unst (snd <$> new) (core s)) (en s)) HR') as (v & s' & Heq & He & HQ).
    exists tt, s'. destruct v. done.
  - eexists tt, _. done.
Qed.

Lemma crun_add_leaf x H a :
  alive a x → is_leaf ch x.1 = true → x ∉ ord a →
  crun (add_leaf x.2) (λ h, R H h a) (λ _ h, R H h (set_ord (ord a ++ [x]) a)).
Proof.
  intros Hx Hl Hn s HR. unfold add_leaf.
  pose proof (crun_add_ref x H a Hx s HR) as (v & s1 & Hadd & He1 & HR1). destruct v.
  destruct (R_lookup _ _ _ _ _ HR1 Hx) as (o & Ho & _).
  assert (slots (core s1) = slots (core s)) as Hs1.
  { revert Hadd. unfold add_ref, deref, hp, bind, gets. simpl.
    destruct (heap (core s) !! x.2); [|done]. simpl. by intros [= <-]. }
  unfold gets at 1, bind at 1. cbv beta iota zeta. 
  pose proof (R_send _ _ _ _ HR) as Hsend. rewrite Hsend.
  pose proof (R_send _ _ _ _ HR1) as Hsend1.
  pose proof (R_len _ _ _ _ HR) as Hlen.
  case_bool_decide as Hfull.
  - unfold bind at 1. rewrite Hadd.
    unfold bind, on_core, modify, store, deref, hp, bind, gets, on_heap. simpl. rewrite Ho. simpl.
    eexists tt, _. split; [done|]. split; [done|]. simpl.
    rewrite Hs1.
    apply (R_listed _ (core s1)); try done; cbn [slots set_send set_slots set_heap].
    + rewrite app_length. simpl. lia.
    + intros i Hi. rewrite Hs1. rewrite lookup_app_l by lia. done.
    + rewrite Hfull. by rewrite list_lookup_middle.
    + intros i y Hi. rewrite (lookup_ge_None_2 (_ ++ _)); [done|]. rewrite app_length. simpl. lia.
  - assert (mjoin (slots (core s) !! length (ord a)) = None) as Hnone.
    { destruct (slots (core s) !! length (ord a)) as [y|] eqn:E; [|done].
      by rewrite (R_null _ _ _ _ HR _ _ (le_n _) E). }
    unfold bind at 1. rewrite Hadd. rewrite Hnone.
    unfold bind, on_core, modify, store, deref, hp, bind, gets, on_heap. simpl. rewrite Ho. simpl.
    eexists tt, _. split; [done|]. split; [done|]. simpl. rewrite Hs1.
    apply (R_listed _ (core s1)); try done; cbn [slots set_send set_slots set_heap].
    + rewrite insert_length. lia.
    + intros i Hi. rewrite list_lookup_insert_ne by lia. by rewrite Hs1.
    + rewrite list_lookup_insert by lia. done.
    + intros i y Hi. rewrite list_lookup_insert_ne by lia.
      apply (R_null _ _ _ _ HR). lia.
Qed.

Lemma crun_defer x H a : alive a x →
  crun (store x.2 (set_defer true)) (λ h, R H h a)
    (λ _ h, R H h (set_dfr (dfr a ∪ {[x.2]}) a)).
Proof.
  intros Hx s HR. destruct (R_lookup _ _ _ _ _ HR Hx) as (o & Ho & _).
  unfold store, deref, hp, bind, gets. simpl. rewrite Ho. simpl.
  eexists tt, _. split; [done|]. split; [done|]. simpl. by apply R_deferring.
Qed.

(** Taking an element off currentStates_; the reference moves to the stack. *)
Lemma unlist_slot (s : S) H a x i z :
  R H (core s) a → ord a !! i = Some x → last (ord a) = Some z →
  ∃ oz, heap (core s) !! z.2 = Some oz ∧
  R (x :: H) (HeapSt (<[z.2 := set_lpos (Some i) oz]> (heap (core s))) (nxt (core s))
                (<[length (ord a) - 1 := None]> (<[i := Some z.2]> (slots (core s))))
         (length (ord a) - 1) (outermost (core s)) (unst (core s))) (set_ord (swap_remove i (ord a)) a).
Proof.
  intros HR Hi Hz. pose proof (R_wf _ _ _ _ HR) as Hw.
  pose proof Hz as Hz'. rewrite last_lookup in Hz'.
  assert (alive a z) as Hza.
  { apply (wa_ord _ _ _ Hw). by eapply elem_of_list_lookup_2. }
  destruct (R_lookup _ _ _ _ _ HR Hza) as (oz & Hoz & _).
  exists oz. split; [done|]. by apply R_unlisted.
Qed.

End heap.
