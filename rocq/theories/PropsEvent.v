(** * C41: events given to the library

    [ereach s]: [s] is reached by some sequence of things that clients and the library do with event objects and with
    pointers to them.  What happened is [etr s]. *)
From Verif Require Import EventInv.

(** Nothing that happens touches an object that has ended, deletes an object that its owner ends, or lets a count
    drop below zero. *)
Theorem C41_safe : ∀ s o, ereach s → allowed s o → ∃ s', exec o s = Some ((), s').
Proof. intros s o I%ereach_inv Ha. destruct (exec_ok s o I Ha) as (s' & ? & _). eauto. Qed.
Print Assumptions C41_safe.

(** What a queue, or anybody else, points to has not ended. *)
Theorem C41_valid : ∀ s r, ereach s → r ∈ erefs s → raddr r ∉ ended (etr s).
Proof.
  intros s r I%ereach_inv Hr. destruct (ref_live _ _ I Hr) as (x & Hx & _ & Hl & _).
  by apply (v_live _ I _ _ Hx).
Qed.
Print Assumptions C41_valid.

(** What a reaction sees: the contents that an object with an owner had when it was given to the library, whatever
    happened to it since; and the contents that an object held by pointers has. *)
Theorem C41_contents : ∀ s l1 l2 n v, ereach s → etr s = l1 ++ TSeen n v :: l2 →
  ∃ l0 l0' a, l1 = l0 ++ TPost n a :: l0' ∧
    (∀ b, TPost n b ∈ etr s → b = a) ∧
    ((made_as a Own l0 ∧ contents a l0 = Some v) ∨
     (¬ made_as a Own l0 ∧ contents a l1 = Some v)).
Proof.
  intros s l1 l2 n v I%ereach_inv Hl. destruct (v_seen _ I _ _ _ _ Hl) as (l0 & l0' & a & E & H).
  exists l0, l0', a. split; [done|]. split; [|done]. subst l1.
  intros b (k1 & k2 & Hk)%elem_of_list_split. 
  assert (etr s = l0 ++ TPost n a :: (l0' ++ TSeen n v :: l2)) as Hl' by (by rewrite Hl, <- app_assoc).
  clear H Hl. destruct (decide (a = b)) as [->|Hne]; [done|]. exfalso.
  assert (TPost n b ∈ l0 ∨ TPost n b ∈ l0' ++ TSeen n v :: l2) as [H|H].
  { assert (TPost n b ∈ etr s) as H by (rewrite Hk; set_solver). rewrite Hl' in H.
    apply elem_of_app in H as [?|[?|?]%elem_of_cons]; [auto|congruence|auto]. }
  - apply elem_of_list_split in H as (m1 & m2 & ->).
    eapply (v_post1 _ I m1 (m2 ++ TPost n a :: l0' ++ TSeen n v :: l2) n b); [by rewrite Hl', <- app_assoc|].
    apply elem_of_app. right. by left.
  - by eapply (v_post1 _ I _ _ _ _ Hl').
Qed.
Print Assumptions C41_contents.

(** No object ends twice.  The library never deletes an object that has an owner; it deletes one held by pointers
    when there is no pointer to it any more, and not before. *)
Theorem C41_released : ∀ s, ereach s →
  NoDup (ended (etr s)) ∧
  (∀ a, made_as a Own (etr s) → TDel a ∉ etr s) ∧
  (∀ a k, made_as a k (etr s) → k ≠ Own → TEnd a ∉ etr s ∧ (TDel a ∈ etr s ↔ ∀ r, r ∈ erefs s → raddr r ≠ a)).
Proof.
  intros s I%ereach_inv. split; [apply (v_once _ I)|]. split.
  - intros a (x & Hx & Hk)%(v_made _ I). by apply (v_own _ I _ _ Hx).
  - intros a k (x & Hx & Hk)%(v_made _ I) Hown. subst k. destruct (v_cnt _ I _ _ Hx Hown) as (Hc & Hl & He).
    split; [done|].
    assert (TDel a ∈ etr s ↔ a ∈ ended (etr s)) as ->.
    { split; [apply TDel_ended|]. revert He. clear. generalize (etr s) as l. induction l as [|e l IH]; [by intros _ ?%elem_of_nil|].
      rewrite not_elem_of_cons. intros [He1 He2]. rewrite elem_of_cons.
      destruct e; simpl; rewrite ?elem_of_cons; naive_solver. }
    assert (a ∈ ended (etr s) ↔ ocnt x = 0) as ->.
    { destruct (decide (a ∈ ended (etr s))) as [H|H]; destruct (decide (ocnt x = 0)) as [H0|H0]; try tauto.
      - apply Hl in H0. by apply (v_live _ I _ _ Hx) in H0.
      - apply (v_live _ I _ _ Hx) in H. by apply Hl in H. }
    rewrite Hc. split.
    + intros H0 r Hr Ha. assert (nrefs a (erefs s) ≠ 0) by (apply nrefs_pos; eauto). done.
    + intros H. destruct (decide (nrefs a (erefs s) = 0)) as [|Hp]; [done|].
      apply nrefs_pos in Hp as (r & Hr & Ha). by destruct (H r).
Qed.
Print Assumptions C41_released.

(** What posting, taking, recalling and clearing do to the pointers that are kept: exactly one is added for an event
    that is given, no temporary pointer stays behind, and nothing else changes.  [kept p s]: the events, with their
    numbers, to which the pointers at place [p] point, in order. *)
Theorem C41_posted : ∀ s o q s', ereach s → allowed s o → exec o s = Some ((), s') →
  (∃ k, o = OPost k q) ∨ (∃ a, o = OPostRef a q) →
  (∃ b, kept (PQueue q) s' = kept (PQueue q) s ++ [(Some (eposts s), b)]) ∧
  ∀ p, p ≠ PQueue q → kept p s' = kept p s.
Proof.
  intros s o q s' I%ereach_inv Ha He Ho.
  assert (∃ b, erefs s' = erefs s ++ [Ref (PQueue q) (Some (eposts s)) b]) as [b Hb].
  { destruct Ho as [[k ->]|[a ->]].
    - destruct Ha as (r & Hr & _). cbn [exec] in He. rewrite (with_ref_eq _ _ _ _ Hr) in He.
      apply elem_of_list_lookup_2 in Hr. destruct (ref_live _ _ I Hr) as (x & Hx & Hk & Hl & _).
      pose proof (EInv_given s (raddr r) I) as I1. unfold mbind, M_bind in He. cbn [given] in He.
      edestruct (new_ref_ok _ (PQueue q) (Some (eposts s)) (raddr r) x I1) as (s2 & Hs2 & I2 & Hr2 & _); try done.
      { simpl. intros m [= <-]. exists (etr s), [], (raddr r). split; [done|]. right. split; [|done].
        rewrite (v_made _ I). intros (y & Hy & ?). congruence. }
      exists (raddr r). rewrite He in Hs2. injection Hs2 as ->. done.
    - cbn [exec] in He. destruct (nameable_live _ _ I Ha) as (x & Hx & Hl). pose proof (EInv_given s a I) as I1.
      unfold mbind, M_bind in He. cbn [given] in He.
      edestruct (from_this_ok _ a PLocal (Some (eposts s)) x I1) as (b & s1 & E1 & I2 & Hr & Ho); try done.
      { simpl. intros m [= <-]. eauto. }
      rewrite E1 in He. cbn [last_ref] in He. simpl in Hr.
      assert (Ref PLocal (Some (eposts s)) b ∈ erefs s1) as Hin by (rewrite Hr; set_solver).
      destruct (ref_live _ _ I2 Hin) as (y & Hy & Hk & Hly & _). simpl in *.
      destruct (new_ref_ok s1 (PQueue q) (Some (eposts s)) b y) as (s2 & E2 & I3 & Hr2 & _); try done.
      rewrite E2 in He. destruct (drop_ref_ok s2 (Nat.pred (length (erefs s1))) I3) as (s3 & E3 & _ & Hr3).
      exists b. rewrite E3 in He. injection He as <-. rewrite Hr3, Hr2, Hr, app_length. simpl.
      rewrite Nat.add_1_r. simpl. rewrite <- app_assoc, delete_take_drop, take_app. f_equal.
      rewrite drop_app_ge by lia. by replace (S (length (erefs s)) - length (erefs s)) with 1 by lia. }
  unfold kept. fold (refs_at (PQueue q) (erefs s')) (refs_at (PQueue q) (erefs s)). rewrite Hb. split.
  - exists b. rewrite refs_at_app, refs_at_one. simpl. by rewrite decide_True.
  - intros p Hp. fold (refs_at p (erefs s ++ [Ref (PQueue q) (Some (eposts s)) b])) (refs_at p (erefs s)).
    rewrite refs_at_app, refs_at_one. simpl. rewrite decide_False by congruence. by rewrite app_nil_r.
Qed.
Print Assumptions C41_posted.

Theorem C41_taken : ∀ s q s' x rest, ereach s → exec (OTake q) s = Some ((), s') → kept (PQueue q) s = x :: rest →
  kept (PQueue q) s' = rest ∧ kept PLocal s' = kept PLocal s ++ [x] ∧
  ∀ p, p ≠ PQueue q → p ≠ PLocal → kept p s' = kept p s.
Proof.
  intros s q s' x rest I%ereach_inv He Hx. cbn [exec] in He. unfold with_front, mbind, M_bind in He. simpl in He.
  pose proof (front_spec q (erefs s)) as Hf. change (refs_at (PQueue q) (erefs s) = x :: rest) in Hx.
  destruct (front q (erefs s)) as [k|]; [|congruence].
  destruct Hf as (r & Hk & Hr & Hbefore). rewrite (with_ref_eq _ _ _ _ Hk) in He.
  assert (r ∈ erefs s) as Hin by by eapply elem_of_list_lookup_2.
  destruct (ref_live _ _ I Hin) as (y & Hy & Hown & Hl & _).
  destruct (new_ref_ok s PLocal (rpost r) (raddr r) y) as (s1 & E1 & I1 & Hr1 & _); try done.
  { intros m Hm. by apply (v_orig _ I). }
  unfold mbind, M_bind in He. rewrite E1 in He. destruct (drop_ref_ok s1 k I1) as (s2 & E2 & _ & Hr2).
  rewrite E2 in He. injection He as <-. unfold kept.
  assert (erefs s2 = delete k (erefs s) ++ [Ref PLocal (rpost r) (raddr r)]) as Hr3.
  { pose proof (lookup_lt_Some _ _ _ Hk). rewrite Hr2, Hr1, !delete_take_drop, take_app_le, drop_app_le by lia.
    by rewrite <- app_assoc. }
  assert (∀ p, refs_at p (erefs s2) = refs_at p (take k (erefs s)) ++ refs_at p (drop (S k) (erefs s)) ++
    if decide (p = PLocal) then [(rpost r, raddr r)] else []) as H2.
  { intros p. rewrite Hr3, refs_at_app, refs_at_one. simpl.
    destruct (refs_at_delete p _ _ _ Hk) as [-> _]. rewrite <- app_assoc. do 2 f_equal.
    destruct (decide (p = PLocal)) as [->|]; [by rewrite decide_True|by rewrite decide_False by congruence]. }
  assert (∀ p, refs_at p (erefs s) = refs_at p (take k (erefs s)) ++
    (if decide (rplace r = p) then [(rpost r, raddr r)] else []) ++ refs_at p (drop (S k) (erefs s))) as H1
    by (intros p; apply (refs_at_delete p _ _ _ Hk)).
  rewrite H1, decide_True in Hx by done. rewrite Hbefore in Hx. injection Hx as <- <-.
  split; [|split].
  - change (refs_at (PQueue q) (erefs s2) = refs_at (PQueue q) (drop (S k) (erefs s))).
    rewrite H2, Hbefore. rewrite decide_False by done. by rewrite app_nil_r.
  - change (refs_at PLocal (erefs s2) = refs_at PLocal (erefs s) ++ [(rpost r, raddr r)]).
    rewrite H2, H1, decide_True, decide_False by congruence. by rewrite app_assoc.
  - intros p Hp1 Hp2. change (refs_at p (erefs s2) = refs_at p (erefs s)).
    rewrite H2, H1, !decide_False by congruence. by rewrite app_nil_r.
Qed.
Print Assumptions C41_taken.

Theorem C41_recalled : ∀ s q q' s', exec (OSplice q q') s = Some ((), s') → q ≠ q' →
  kept (PQueue q) s' = [] ∧ kept (PQueue q') s' = kept (PQueue q) s ++ kept (PQueue q') s ∧
  ∀ p, p ≠ PQueue q → p ≠ PQueue q' → kept p s' = kept p s.
Proof.
  intros s q q' s' He Hq. cbn [exec] in He. unfold mbind, M_bind in He. simpl in He. injection He as <-.
  unfold kept. simpl.
  assert (∀ p rs, refs_at p ((λ r, Ref (PQueue q') (rpost r) (raddr r)) <$> filter (λ r, rplace r = PQueue q) rs) =
    if decide (p = PQueue q') then refs_at (PQueue q) rs else []) as H1.
  { intros p rs. unfold refs_at. induction rs as [|r rs IH]; [by case_decide|]. rewrite !filter_cons.
    destruct (decide (rplace r = PQueue q)); [|exact IH].
    rewrite fmap_cons, filter_cons. cbn [rplace].
    destruct (decide (PQueue q' = p)) as [Hp|Hp]; cbn [map rpost raddr]; rewrite IH; by repeat case_decide; try congruence. }
  assert (∀ p rs, refs_at p (filter (λ r, rplace r ≠ PQueue q) rs) =
    if decide (p = PQueue q) then [] else refs_at p rs) as H2.
  { intros p rs. unfold refs_at. induction rs as [|r rs IH]; [by case_decide|]. rewrite !filter_cons.
    destruct (decide (rplace r = PQueue q)) as [E|E].
    - rewrite decide_False by tauto. rewrite IH. case_decide; [done|]. by rewrite decide_False by congruence.
    - rewrite decide_True by done. rewrite filter_cons. destruct (decide (rplace r = p)) as [Ep|Ep].
      + simpl. rewrite IH. by rewrite !decide_False by congruence.
      + by rewrite IH. }
  set (rs := ((λ r, Ref (PQueue q') (rpost r) (raddr r)) <$> filter (λ r, rplace r = PQueue q) (erefs s))
              ++ filter (λ r, rplace r ≠ PQueue q) (erefs s)).
  assert (∀ p, refs_at p rs = (if decide (p = PQueue q') then refs_at (PQueue q) (erefs s) else []) ++
    if decide (p = PQueue q) then [] else refs_at p (erefs s)) as H3.
  { intros p. unfold rs. by rewrite refs_at_app, H1, H2. }
  split; [|split].
  - change (refs_at (PQueue q) rs = []). rewrite H3. rewrite decide_False, decide_True by congruence. done.
  - change (refs_at (PQueue q') rs = refs_at (PQueue q) (erefs s) ++ refs_at (PQueue q') (erefs s)). rewrite H3.
    by rewrite decide_True, decide_False by congruence.
  - intros p Hp Hp'. change (refs_at p rs = refs_at p (erefs s)). rewrite H3. by rewrite !decide_False by congruence.
Qed.
Print Assumptions C41_recalled.

Theorem C41_cleared : ∀ s q s', ereach s → exec (OClear q) s = Some ((), s') →
  kept (PQueue q) s' = [] ∧ ∀ p, p ≠ PQueue q → kept p s' = kept p s.
Proof.
  intros s q s' I%ereach_inv He. cbn [exec] in He. unfold mbind, M_bind in He. simpl in He.
  by apply (clear_kept s s' q (length (erefs s))).
Qed.
Print Assumptions C41_cleared.

(** ** Example *)
Definition nameableb (s : est) (a : addr) : bool :=
  match eheap s !! a with Some x => bool_decide (okind x = Own) && olive x | None => false end
  || existsb (λ r, bool_decide (raddr r = a ∧ (rplace r = PClient ∨ rplace r = PLocal))) (erefs s).
Definition kindb (s : est) (a : addr) (k : kind) : bool :=
  match eheap s !! a with Some x => bool_decide (okind x = k) | None => false end.
Definition placeb (s : est) (k : nat) (p : place) : bool :=
  match erefs s !! k with Some r => bool_decide (rplace r = p) | None => false end.
Definition allowedb (s : est) (o : op) : bool :=
  match o with
  | OOwnCopy a | OShare a | OPostRef a _ => nameableb s a
  | OEnd a => kindb s a Own && nameableb s a
  | OWrite a _ => nameableb s a && negb (kindb s a Cloned)
  | OAssign a b => nameableb s a && negb (kindb s a Cloned) && nameableb s b
  | OCopy k | ODrop k | OPost k _ | OItem k => placeb s k PClient
  | OQueueItem k _ | OSee k | ODefer k _ | ODone k => placeb s k PLocal
  | _ => true
  end.
Lemma allowedb_ok s o : allowedb s o = true → allowed s o.
Proof.
  assert (∀ a, nameableb s a = true → nameable s a) as Hn.
  { intros a [H|H]%orb_true_iff.
    - left. destruct (eheap s !! a) as [x|]; [|done]. apply andb_true_iff in H as [H1%bool_decide_eq_true H2]. eauto.
    - right. apply existsb_exists in H as (r & Hr%elem_of_list_In & H%bool_decide_eq_true). exists r. tauto. }
  assert (∀ a k, kindb s a k = true ↔ is_kind s a k) as Hk.
  { intros a k. unfold kindb, is_kind. destruct (eheap s !! a) as [x|].
    - rewrite bool_decide_eq_true. naive_solver.
    - naive_solver. }
  assert (∀ k p, placeb s k p = true → at_place s k p) as Hp.
  { intros k p. unfold placeb, at_place. destruct (erefs s !! k) as [r|]; [|done].
    rewrite bool_decide_eq_true. eauto. }
  assert (∀ a k, negb (kindb s a k) = true → ¬ is_kind s a k) as Hk'.
  { intros a k H%negb_true_iff H'%Hk. congruence. }
  destruct o; simpl; rewrite ?andb_true_iff; auto.
  - intros [H1%Hk H2]. auto.
  - intros [? ?]. auto.
  - intros [[? ?] ?]. auto.
Qed.
Fixpoint eplay (l : list op) (s : est) : option est :=
  match l with
  | [] => Some s
  | o :: l => if allowedb s o then match exec o s with Some (_, s') => eplay l s' | None => None end else None
  end.
Lemma eplay_sound l s s' : ereach s → eplay l s = Some s' → ereach s'.
Proof.
  revert s. induction l as [|o l IH]; simpl; intros s Hr H; [by simplify_eq|].
  destruct (allowedb s o) eqn:Ha; [|done]. destruct (exec o s) as [[[] s1]|] eqn:He; [|done].
  apply (IH s1); [|done]. eapply ereach_step; [done| |done]. by apply allowedb_ok.
Qed.

(** An automatic event is posted by reference, changed and ended; a second event is made, posted by pointer, shared
    by the client and dropped; both are dispatched, the first is deferred, recalled and dispatched again. *)
Definition mail : list op :=
  [OOwn 5; OPostRef 0 0; OWrite 0 6; OEnd 0; OMake 7; OPost 1 0; OCopy 1; ODrop 1; OWrite 2 8;
   OTake 0; OSee 2; ODefer 2 1; ODone 2;
   OSplice 1 0; OTake 0; OSee 2; ODone 2; OTake 0; OSee 1; OShare 2; ODone 1; ODrop 0; ODrop 0].
Example mail_ok : ∃ s, ereach s ∧ etr s =
  [TNew 0 Own 5; TPost 0 0; TNew 1 Cloned 5; TWrite 0 6; TEnd 0; TNew 2 Made 7; TPost 1 2; TWrite 2 8;
   TSeen 0 5; TSeen 0 5; TDel 1; TSeen 1 8; TDel 2] ∧ erefs s = [].
Proof.
  destruct (eplay mail est_init) as [s|] eqn:E; [|by vm_compute in E].
  exists s. split; [by eapply eplay_sound; [constructor|]|]. vm_compute in E. by simplify_eq.
Qed.
(** An event that is still queued after its owner ended it. *)
Example mail_queued : ∃ s r, ereach s ∧ r ∈ erefs s ∧ rplace r = PQueue 0 ∧ rpost r = Some 0 ∧
  TPost 0 0 ∈ etr s ∧ 0 ∈ ended (etr s).
Proof.
  destruct (eplay (take 4 mail) est_init) as [s|] eqn:E; [|by vm_compute in E].
  exists s, (Ref (PQueue 0) (Some 0) 1). split; [by eapply eplay_sound; [constructor|]|].
  vm_compute in E. injection E as <-. simpl. set_solver.
Qed.
(** The hypotheses of the theorems about the pointers that are kept: two events wait in queue 0, one of them deferred to
    queue 1 before. *)
Example mail_kept : ∃ s1 s2 s3 s4 s5, ereach s1 ∧ allowed s1 (OPostRef 0 0) ∧
  exec (OPostRef 0 0) s1 = Some ((), s2) ∧ kept (PQueue 0) s1 = [(Some 0, 1)] ∧
  kept (PQueue 0) s2 = [(Some 0, 1); (Some 1, 2)] ∧ kept PLocal s2 = [] ∧
  exec (OTake 0) s2 = Some ((), s3) ∧ kept PLocal s3 = [(Some 0, 1)] ∧
  exec (OSplice 0 1) s3 = Some ((), s4) ∧ kept (PQueue 1) s4 = [(Some 1, 2)] ∧
  exec (OClear 1) s4 = Some ((), s5) ∧ kept (PQueue 1) s5 = [] ∧ 2 ∈ ended (etr s5).
Proof.
  destruct (eplay [OOwn 5; OPostRef 0 0] est_init) as [s|] eqn:E; [|by vm_compute in E].
  exists s. assert (ereach s) by (by eapply eplay_sound; [constructor|]).
  assert (allowed s (OPostRef 0 0)) by (apply allowedb_ok; vm_compute in E; injection E as <-; by vm_compute).
  vm_compute in E. injection E as <-. do 4 eexists. do 2 (split; [done|]).
  split; [by vm_compute|]. do 3 (split; [by vm_compute|]).
  split; [by vm_compute|]. split; [by vm_compute|]. split; [by vm_compute|]. split; [by vm_compute|].
  split; [by vm_compute|]. split; [by vm_compute|]. vm_compute. set_solver.
Qed.
