(** * C55: type information *)
From stdpp Require Import list.
From Verif Require Import Rtti.

Section props.
Context (md : ty → ty).
Notation execs := (execs md).
Notation made := (made md).

Lemma execs_app l1 l2 w : execs (l1 ++ l2) w = execs l1 w ≫= execs l2.
Proof. revert w. induction l1 as [|o l1 IH]; intros w; [done|]. simpl. by destruct (exec md o w); simpl. Qed.

(** One more object for each creating operation. *)
Lemma exec_objects o w w' : exec md o w = Some w' →
  length (objects w') = length (objects w) + (if creates o then 1 else 0) ∧
  (∀ i x, objects w !! i = Some x → objects w' !! i = Some x).
Proof.
  destruct o as [d|j|j|d T a]; simpl; unfold copy, clone; intros H.
  2,3: apply fmap_Some in H as (x & Hx & ->).
  1: injection H as <-. 4: injection H as <-. all: simpl.
  all: rewrite ?app_length; simpl; split; [lia|]; intros; try done; by apply lookup_app_l_Some.
Qed.

Lemma filter_snoc o l : filter creates (l ++ [o]) = filter creates l ++ (if creates o then [o] else []).
Proof. rewrite filter_app. f_equal. destruct o; done. Qed.
Lemma made_snoc l o i d : made l i d → made (l ++ [o]) i d.
Proof.
  assert (∀ j x, filter creates l !! j = Some x → filter creates (l ++ [o]) !! j = Some x) as Hl.
  { intros j x Hx. rewrite filter_snoc. by apply lookup_app_l_Some. }
  induction 1; [eapply made_new|eapply made_copy|eapply made_clone]; eauto.
Qed.
Lemma made_inj l i d d' : made l i d → made l i d' → d = d'.
Proof.
  intros H. revert d'. induction H as [i d H|i j d H _ IH|i j d H _ IH]; intros d' H'; inversion H'; subst; simplify_eq;
    try (f_equal; by apply IH); by apply IH || done.
Qed.
Lemma made_created l i d : made l i d → i < length (filter creates l).
Proof. intros []; by eapply lookup_lt_Some. Qed.

(** What the objects are. *)
Lemma objects_made l w : (∀ d, md (md d) = md d) → execs l rworld_init = Some w →
  length (objects w) = length (filter creates l) ∧
  ∀ i o, objects w !! i = Some o → made l i (r_type o) ∧ r_provider o = md (r_type o).
Proof.
  intros Hmd. revert w. induction l as [|o l IH] using rev_ind; intros w H.
  { simpl in H. simplify_eq. split; [done|]. intros i o Ho. by destruct i. }
  rewrite execs_app in H. apply bind_Some in H as (w1 & H1 & H). simpl in H. apply bind_Some in H as (w2 & H & [= ->]).
  destruct (IH _ H1) as [Hn Ho]. clear IH. rewrite filter_snoc.
  pose proof (exec_objects _ _ _ H) as [Hn2 _]. split; [rewrite app_length; destruct (creates o); simpl in *; lia|].
  assert (∀ x, filter creates (l ++ [o]) = filter creates l ++ [x] →
    filter creates (l ++ [o]) !! length (objects w1) = Some x) as Hlast.
  { intros x ->. rewrite Hn. by apply list_lookup_middle. }
  intros i x Hx. destruct o as [d|j|j|d T a]; simpl in H; unfold copy, clone in H.
  2,3: apply fmap_Some in H as (y & Hy & ->); destruct (Ho _ _ Hy) as [Hy1 Hy2].
  1: injection H as <-. 4: injection H as <-. all: simpl in Hx.
  4: { destruct (Ho _ _ Hx). auto using made_snoc. }
  all: apply lookup_app_Some in Hx as [Hx|[Hi Hx]]; [destruct (Ho _ _ Hx); by auto using made_snoc|].
  all: destruct (i - length (objects w1)) as [|k] eqn:Ei; simplify_eq/=.
  all: assert (i = length (objects w1)) as -> by lia.
  - split; [|done]. apply made_new. apply Hlast. by rewrite filter_snoc.
  - split; [|done]. eapply made_copy; [apply Hlast; by rewrite filter_snoc|by apply made_snoc].
  - split; [|simpl; congruence]. eapply made_clone; [apply Hlast; by rewrite filter_snoc|by apply made_snoc].
Qed.
Lemma made_object l w i d : (∀ d, md (md d) = md d) → execs l rworld_init = Some w → made l i d →
  ∃ o, objects w !! i = Some o ∧ r_type o = d ∧ r_provider o = md d.
Proof.
  intros Hmd H Hm. destruct (objects_made _ _ Hmd H) as [Hn Ho].
  destruct (lookup_lt_is_Some_2 (objects w) i) as [o Hi].
  { rewrite Hn. by eapply made_created. }
  destruct (Ho _ _ Hi) as [Hm' Hp]. assert (r_type o = d) as <- by (by eapply made_inj). eauto.
Qed.

Lemma providers_set l w : execs l rworld_init = Some w → ∀ c,
  (never_set md l c ∧ providers w c = IdProvider 0 None) ∨
  ∃ T a, last_set md l c T a ∧ providers w c = IdProvider a (Some T).
Proof.
  revert w. induction l as [|o l IH] using rev_ind; intros w H c.
  { simpl in H. simplify_eq. left. split; [|done]. intros d T a Hin. by apply elem_of_nil in Hin. }
  rewrite execs_app in H. apply bind_Some in H as (w1 & H1 & H). simpl in H. apply bind_Some in H as (w2 & H & [= ->]).
  specialize (IH _ H1 c).
  assert ((∀ d T a, o = RSet d T a → md d ≠ c) → providers w c = providers w1 c →
    (never_set md (l ++ [o]) c ∧ providers w c = IdProvider 0 None) ∨
    ∃ T a, last_set md (l ++ [o]) c T a ∧ providers w c = IdProvider a (Some T)) as Hsame.
  { intros Hne ->. destruct IH as [[Hn ->]|(T & a & (l1 & d & l2 & -> & Hd & Hl) & ->)].
    - left. split; [|done]. intros d T a [Hin|Hin%elem_of_list_singleton]%elem_of_app; eauto.
    - right. exists T, a. split; [|done]. exists l1, d, (l2 ++ [o]). split; [by rewrite <- app_assoc|]. split; [done|].
      intros d' T' a' [Hin|Hin%elem_of_list_singleton]%elem_of_app; eauto. }
  destruct o as [d|j|j|d T a]; simpl in H; unfold copy, clone in H.
  2,3: apply fmap_Some in H as (y & Hy & ->); by apply Hsame.
  1: injection H as <-; by apply Hsame.
  injection H as <-. destruct (decide (md d = c)) as [<-|Hne].
  - right. exists T, a. simpl. rewrite decide_True by done. split; [|done].
    exists l, d, []. split; [done|]. split; [done|]. intros d' T' a' Hin. by apply elem_of_nil in Hin.
  - apply Hsame; [by intros ??? [= <- <- <-]|]. simpl. rewrite decide_False; [done|]. congruence.
Qed.
Lemma last_set_inj l c T a T' a' : last_set md l c T a → last_set md l c T' a' → T = T' ∧ a = a'.
Proof.
  intros (l1 & d & l2 & -> & Hd & Hl) (l1' & d' & l2' & E & Hd' & Hl').
  destruct (decide (length l1 = length l1')) as [Hn|Hn].
  { apply app_inj_1 in E as [-> E]; [|done]. by simplify_eq. }
  exfalso. destruct (decide (length l1 < length l1')) as [Hlt|Hlt].
  - assert ((l1 ++ RSet d T a :: l2) !! length l1' = Some (RSet d' T' a')) as Hx by (rewrite E; by apply list_lookup_middle).
    rewrite lookup_app_r in Hx by lia. destruct (length l1' - length l1) as [|k] eqn:Ek; [lia|]. simpl in Hx.
    by eapply Hl; [eapply elem_of_list_lookup_2|].
  - assert ((l1' ++ RSet d' T' a' :: l2') !! length l1 = Some (RSet d T a)) as Hx by (rewrite <- E; by apply list_lookup_middle).
    rewrite lookup_app_r in Hx by lia. destruct (length l1 - length l1') as [|k] eqn:Ek; [lia|]. simpl in Hx.
    by eapply Hl'; [eapply elem_of_list_lookup_2|].
Qed.
Lemma never_set_last l c T a : never_set md l c → last_set md l c T a → False.
Proof.
  intros Hn (l1 & d & l2 & -> & Hd & _). eapply Hn; [|done]. apply elem_of_app. right. by left.
Qed.

Lemma read_custom_spec l w c : execs l rworld_init = Some w →
  (never_set md l c → ∀ T, read_custom T (providers w c) = Got 0) ∧
  (∀ T a, last_set md l c T a → ∀ T', read_custom T' (providers w c) =
    if decide (a = 0 ∨ T' = T) then Got a else Asserted).
Proof.
  intros H. destruct (providers_set _ _ H c) as [[Hn ->]|(T & a & Hs & ->)].
  - split; [done|]. intros T a Hl. by destruct (never_set_last _ _ _ _ Hn Hl).
  - split; [intros Hn; by destruct (never_set_last _ _ _ _ Hn Hs)|]. intros T1 a1 Hl T'.
    destruct (last_set_inj _ _ _ _ _ _ Hs Hl) as [<- <-]. unfold read_custom. simpl.
    destruct (decide (a = 0 ∨ Some T = Some T')), (decide (a = 0 ∨ T' = T)); naive_solver.
Qed.
End props.

(** Objects of the classes that the documentation allows ([md d = d]: MostDerived is the most derived class) are of the
    type of their class and of no other, in both versions, and so are all copies of them. *)
Theorem C55_types md l w i d native :
  (∀ d, md (md d) = md d) → execs md l rworld_init = Some w → made md l i d → md d = d →
  ∃ o, objects w !! i = Some o ∧ ∀ d', is_of_type md native o d' = true ↔ d = md d'.
Proof.
  intros Hmd H Hm Hd. destruct (made_object md _ _ _ _ Hmd H Hm) as (o & Hi & Ht & Hp). exists o. split; [done|].
  intros d'. unfold is_of_type, dynamic_type, static_type. rewrite bool_decide_eq_true. rewrite Ht, Hp, Hd. by destruct native.
Qed.

(** Without native RTTI a class derived from such a class is not distinguished from it; with native RTTI its objects are
    of no type of any class, but a clone is an object of the class MostDerived. *)
Theorem C55_derived md l w i d :
  (∀ d, md (md d) = md d) → execs md l rworld_init = Some w → made md l i d →
  ∃ o, objects w !! i = Some o ∧ (∀ d', is_of_type md false o d' = true ↔ md d = md d') ∧
    (md d ≠ d → ∀ d', is_of_type md true o d' = false).
Proof.
  intros Hmd H Hm. destruct (made_object md _ _ _ _ Hmd H Hm) as (o & Hi & Ht & Hp). exists o. split; [done|].
  unfold is_of_type, dynamic_type, static_type. split.
  - intros d'. rewrite bool_decide_eq_true. by rewrite Hp.
  - intros Hne d'. apply bool_decide_eq_false. intros E. apply Hne. subst d. by rewrite E, Hmd.
Qed.

(** custom_dynamic_type_ptr< T >() of an object is null as long as no identifier was set for its class; then it is the
    identifier that was set last, no matter whether the object was created before or after that; a null pointer is of
    any type, and asking for a wrong type is detected. *)
Theorem C55_custom md l w i d :
  (∀ d, md (md d) = md d) → execs md l rworld_init = Some w → made md l i d →
  ∃ o, objects w !! i = Some o ∧
    (∀ T, custom_dynamic T o w = custom_static md T d w) ∧
    (never_set md l (md d) → ∀ T, custom_dynamic T o w = Got 0) ∧
    (∀ T a, last_set md l (md d) T a →
      custom_dynamic T o w = Got a ∧
      (a = 0 → ∀ T', custom_dynamic T' o w = Got 0) ∧
      (a ≠ 0 → ∀ T', T' ≠ T → custom_dynamic T' o w = Asserted)).
Proof.
  intros Hmd H Hm. destruct (made_object md _ _ _ _ Hmd H Hm) as (o & Hi & Ht & Hp). exists o. split; [done|].
  unfold custom_dynamic, custom_static. rewrite Hp. split; [done|].
  destruct (read_custom_spec md _ _ (md d) H) as [H1 H2]. split; [done|]. intros T a Hl.
  specialize (H2 _ _ Hl). split_and!.
  - rewrite H2, decide_True; auto.
  - intros -> T'. rewrite H2, decide_True; auto.
  - intros Ha T' HT. rewrite H2, decide_False; naive_solver.
Qed.

(** TypeInfoTest.cpp (A=0, B=1; char=7, bool=8; the addresses are 50 and 60), with a class 2 derived from B added, of
    which an object is created, copied and cloned at the end. *)
Definition md1 (d : ty) : ty := if decide (d = 2) then 1 else d.
Definition before_set : list rop := [RNew 0; RNew 1].
Definition after_set : list rop := before_set ++ [RSet 1 7 50; RSet 0 7 60].
Definition after_null : list rop := after_set ++ [RSet 1 8 0; RSet 0 8 0; RNew 2; RCopy 2; RClone 3].
Definition type_info (l : list rop) : option (list (bool * bool * got * got)) :=
  (λ w, (λ o, (is_of_type md1 false o 0, is_of_type md1 false o 1, custom_dynamic 7 o w, custom_dynamic 8 o w)) <$> objects w)
  <$> execs md1 l rworld_init.
Example type_info_test :
  type_info before_set = Some [(true, false, Got 0, Got 0); (false, true, Got 0, Got 0)]
  ∧ type_info after_set = Some [(true, false, Got 60, Asserted); (false, true, Got 50, Asserted)]
  ∧ type_info after_null = Some [(true, false, Got 0, Got 0); (false, true, Got 0, Got 0);
       (false, true, Got 0, Got 0); (false, true, Got 0, Got 0); (false, true, Got 0, Got 0)]
  ∧ (λ w, (λ o, (is_of_type md1 true o 0, is_of_type md1 true o 1)) <$> objects w) <$> execs md1 after_null rworld_init
    = Some [(true, false); (false, true); (false, false); (false, false); (false, true)].
Proof. vm_compute. repeat split. Qed.

Lemma md1_idem d : md1 (md1 d) = md1 d.
Proof. unfold md1. repeat case_decide; naive_solver. Qed.
Example C55_example : ∃ w, execs md1 after_set rworld_init = Some w ∧ made md1 after_set 1 1 ∧ md1 1 = 1 ∧
  last_set md1 after_set (md1 1) 7 50.
Proof.
  eexists. split_and!; [vm_compute; reflexivity|by apply made_new|done|].
  exists before_set, 1, [RSet 0 7 60]. split_and!; [done..|]. by intros d' T' a' [= -> -> ->]%elem_of_list_singleton.
Qed.
Example C55_derived_example : ∃ w, execs md1 after_null rworld_init = Some w ∧ made md1 after_null 3 2 ∧ md1 2 ≠ 2 ∧
  made md1 after_null 4 1 ∧ last_set md1 after_null (md1 2) 8 0.
Proof.
  assert (made md1 after_null 3 2) as H3 by (eapply (made_copy _ _ _ 2); [done|by apply made_new]).
  eexists. split_and!; [vm_compute; reflexivity|done|done| |].
  - by apply (made_clone md1 _ _ 3 2).
  - exists after_set, 1, [RSet 0 8 0; RNew 2; RCopy 2; RClone 3]. split_and!; [done..|].
    intros d' T' a' H. repeat (apply elem_of_cons in H as [H|H]; [by simplify_eq|]). by apply elem_of_nil in H.
Qed.
Example C55_never_example : ∃ w, execs md1 before_set rworld_init = Some w ∧ made md1 before_set 1 1 ∧
  never_set md1 before_set (md1 1).
Proof.
  eexists. split_and!; [vm_compute; reflexivity|by apply made_new|].
  intros d T a H. repeat (apply elem_of_cons in H as [H|H]; [by simplify_eq|]). by apply elem_of_nil in H.
Qed.

Print Assumptions C55_types.
Print Assumptions C55_derived.
Print Assumptions C55_custom.
