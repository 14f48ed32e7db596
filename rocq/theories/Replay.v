(** The queues, the history maps, the order of the innermost states and the deferring states are those
    that the trace tells. *)
From stdpp Require Import relations.
From Verif Require Export Ledger Tracks.

(** ** [latest] *)
Lemma latest_snoc (rec : list obs → cls → Prop) (del : list obs → Prop) t o h :
  latest rec del (t ++ [o]) h ↔
  rec (t ++ [o]) h ∨ (latest rec del t h ∧ ¬ del (t ++ [o]) ∧ ∀ h', ¬ rec (t ++ [o]) h').
Proof.
  split.
  - intros (t1 & t2 & E & H1 & H2). destruct t2 as [|o' t2 _] using rev_ind.
    { rewrite app_nil_r in E. left. by rewrite E. }
    right. pose proof E as E'. rewrite app_assoc in E'. apply app_inj_tail in E' as [-> ->].
    destruct (H2 (t2 ++ [o']) []) as [H3 H4]; [by rewrite app_nil_r|by destruct t2|].
    rewrite E. split_and!; [|done|done].
    exists t1, t2. split_and!; [done|done|]. intros t3 t4 -> Ht3. apply (H2 t3 (t4 ++ [o'])); [|done].
    by rewrite app_assoc.
  - intros [H|((t1 & t2 & -> & H1 & H2) & H3 & H4)].
    + exists (t ++ [o]), []. split_and!; [by rewrite app_nil_r|done|]. intros t3 t4 Ht Hn. by destruct t3.
    + exists t1, (t2 ++ [o]). split_and!; [by rewrite app_assoc|done|]. intros t3 t4 Ht Hn.
      destruct t4 as [|o' t4 _] using rev_ind.
      * rewrite app_nil_r in Ht. subst t3. rewrite app_assoc. done.
      * rewrite app_assoc in Ht. apply app_inj_tail in Ht as [-> ->]. by eapply H2.
Qed.
Lemma latest_skip (rec : list obs → cls → Prop) (del : list obs → Prop) t o h : ¬ del (t ++ [o]) → (∀ h', ¬ rec (t ++ [o]) h') →
  latest rec del (t ++ [o]) h ↔ latest rec del t h.
Proof.
  intros H1 H2. rewrite latest_snoc. split; [intros [H|H]; [by apply H2 in H|tauto]|tauto].
Qed.
Lemma latest_del (rec : list obs → cls → Prop) (del : list obs → Prop) t o h : del (t ++ [o]) → (∀ h', ¬ rec (t ++ [o]) h') → ¬ latest rec del (t ++ [o]) h.
Proof. intros H1 H2. rewrite latest_snoc. intros [H|H]; [by apply H2 in H|tauto]. Qed.
Lemma latest_nil (rec : list obs → cls → Prop) (del : list obs → Prop) h : (¬ rec [] h) → ¬ latest rec del [] h.
Proof. intros H (t1 & t2 & E & H1 & _). symmetry in E. apply app_eq_nil in E as [-> ->]. done. Qed.

Lemma left_snoc t b k h : left_normally (t ++ [Obs b k]) h →
  ∃ t0 b' p u, k = ODtor p h ∧ t = t0 ++ Obs b' (OExit p h) :: u ∧ Forall (λ o, user_call (ob o) = true) u.
Proof.
  intros (t0 & b1 & p & u & b2 & E & Hu). rewrite app_comm_cons, app_assoc in E.
  apply app_inj_tail in E as [-> [= -> ->]]. eauto 10.
Qed.
Lemma left_only_dtor t b k h : (∀ p c, k ≠ ODtor p c) → ¬ left_normally (t ++ [Obs b k]) h.
Proof. intros Hk (? & ? & p & ? & -> & _)%left_snoc. by destruct (Hk p h). Qed.
Lemma noted_only t b k h x : (∀ p c, k ≠ ODtor p c) → (∀ c z, k ≠ ORefused (ARecord c (Some z))) →
  ¬ noted (t ++ [Obs b k]) h x.
Proof.
  intros H1 H2. destruct x as [z|]; simpl; [|by apply left_only_dtor]. intros (t0 & b0 & E).
  apply app_inj_tail in E as [_ [= _ E]]. by eapply H2.
Qed.
Lemma left_nil h : ¬ left_normally [] h.
Proof. intros (t0 & b1 & p & u & b2 & E & Hu). by destruct t0. Qed.
Lemma noted_nil h x : ¬ noted [] h x.
Proof. destruct x; simpl; [|apply left_nil]. intros (t0 & b & E). by destruct t0. Qed.

(** ** [swap_out] *)
Lemma swap_out_none x l : x ∉ l → swap_out x l = l.
Proof.
  induction l as [|y l IH]; [done|]. rewrite not_elem_of_cons. intros [H1 H2]. simpl.
  rewrite decide_False by done. by rewrite IH.
Qed.
Lemma swap_out_some x l1 l2 : x ∉ l1 →
  swap_out x (l1 ++ x :: l2) = l1 ++ match last l2 with None => [] | Some z => z :: removelast l2 end.
Proof.
  induction l1 as [|y l1 IH]; simpl.
  - intros _. by rewrite decide_True.
  - rewrite not_elem_of_cons. intros [H1 H2]. rewrite decide_False by done. by rewrite IH.
Qed.
Lemma swap_remove_out x l1 l2 : x ∉ l1 → swap_remove (length l1) (l1 ++ x :: l2) = swap_out x (l1 ++ x :: l2).
Proof.
  intros Hx. rewrite swap_out_some by done. destruct l2 as [|z l2 _] using rev_ind.
  - simpl. rewrite app_nil_r. rewrite (swap_remove_eq _ _ x) by by rewrite last_snoc.
    rewrite app_length. simpl. replace (length l1 + 1 - 1) with (length l1) by lia.
    rewrite list_insert_id; [by rewrite take_app|]. by rewrite list_lookup_middle.
  - rewrite last_snoc, removelast_last.
    assert (l1 ++ x :: l2 ++ [z] = (l1 ++ x :: l2) ++ [z]) as E by (by rewrite <-app_assoc).
    rewrite (swap_remove_eq _ _ z) by (rewrite E; by rewrite last_snoc).
    assert (<[length l1:=z]> (l1 ++ x :: l2 ++ [z]) = (l1 ++ z :: l2) ++ [z]) as ->.
    { rewrite <-app_assoc. simpl. replace (length l1) with (length l1 + 0) by lia.
      by rewrite insert_app_r. }
    rewrite E, app_length. simpl. replace (length (l1 ++ x :: l2) + 1 - 1) with (length (l1 ++ z :: l2)) by (rewrite !app_length; simpl; lia).
    by rewrite take_app.
Qed.
Lemma swap_out_unlisted x a : ord (unlisted x a) = swap_out x (ord a).
Proof.
  unfold unlisted. destruct (list_find (eq x) (ord a)) as [[i y]|] eqn:E.
  - apply list_find_Some in E as (E & <- & Hf). simpl. apply take_drop_middle in E as E'.
    assert (i = length (take i (ord a))) as Hi by (rewrite take_length; apply lookup_lt_Some in E; lia).
    revert E' Hi. generalize (take i (ord a)) as l1, (drop (S i) (ord a)) as l2. intros l1 l2 E' ->. rewrite <-E' in *. clear E'.
    apply swap_remove_out. intros Hx. apply elem_of_list_lookup in Hx as [j Hj].
    pose proof (lookup_lt_Some _ _ _ Hj). eapply (Hf j x); [|done|done]. by rewrite lookup_app_l.
  - apply list_find_None in E. rewrite Forall_forall in E. rewrite swap_out_none; [done|].
    intros Hx. by apply (E x).
Qed.

Section replay.
Context {W : Type} (ch : chart) (Hwf : wf_chart ch = true).
Notation S := (mst W acore).
Notation alive := (alive ch).
Notation step := (step (W:=W) ch).
Notation usteps l := (rtc (ustep1 l)).

(** ** Deep history *)
Lemma encloses_outers q c : encloses ch (Some q) c ↔ q ∈ outers ch c.
Proof.
  rewrite (encloses_list ch Hwf). unfold context_list. rewrite elem_of_app, elem_of_list_singleton, elem_of_list_fmap. split.
  - intros [(q' & [= ->] & H)|H]; done.
  - intros H. left. eauto.
Qed.
Lemma deep_inherited q c : within ch q c → cd_deep (cd ch q) = true → inherited_deep ch c = true.
Proof.
  unfold inherited_deep. rewrite orb_true_iff. intros [->|H] Hd; [by left|]. right. apply existsb_exists. exists q.
  split; [|done]. apply elem_of_list_In. by apply encloses_outers.
Qed.
Lemma encloses_parent x c q : encloses ch (Some x) c → parent ch c = Some q → within ch x q.
Proof.
  intros H Hp. inversion H as [c' Hc|x' c' q' Hp' He]; subst.
  - left. congruence.
  - right. congruence.
Qed.

Lemma store_deep_spec x n h l m q k : h < n → cd_deep (cd ch q) = true →
  (∀ z, x = Some z → within ch z h ∧ ∃ qz, parent ch z = Some qz ∧ cd_deep (cd ch qz) = true) →
  ((∃ h', within ch h' h ∧ region ch h' = (Some q, k) ∧ ∀ z, x = Some z → encloses ch (Some z) h') ∧
    store_deep_f ch x n h l m !! (Some q, k) = Some (Some l)) ∨
  ((¬ ∃ h', within ch h' h ∧ region ch h' = (Some q, k) ∧ ∀ z, x = Some z → encloses ch (Some z) h') ∧
    store_deep_f ch x n h l m !! (Some q, k) = m !! (Some q, k)).
Proof.
  intros Hn Hd. revert h m Hn. induction n as [|n IH]; intros h m Hn Hx; [lia|]. cbn [store_deep_f].
  destruct (parent ch h) as [q'|] eqn:Hp.
  - assert (q' < h) as Hlt by (apply (encloses_lt ch Hwf); rewrite <-Hp; constructor).
    case_bool_decide as Hxh.
    { right. split; [|done]. intros (h' & Hh & _ & Hz). specialize (Hz h Hxh).
      apply (encloses_lt ch Hwf) in Hz. destruct Hh as [->|Hh]; [lia|]. apply (encloses_lt ch Hwf) in Hh. lia. }
    destruct (inherited_deep ch q') eqn:Hi.
    + assert (∀ h', within ch h' h ↔ h' = h ∨ within ch h' q') as Hw.
      { intros h'. split.
        - intros [->|He]; [by left|]. right. by eapply encloses_parent.
        - intros [->|[->|He]]; [by left|right; rewrite <-Hp; constructor|right; by eapply encloses_step]. }
      destruct (IH q' (if cd_deep (cd ch q') then <[region ch h:=Some l]> m else m)) as [[(h' & H1 & H2 & H3) E]|[H1 E]]; [lia|..].
      * intros z Hz. destruct (Hx z Hz) as [[->|Hzw] Hz2]; [done|]. split; [|done]. by eapply encloses_parent.
      * left. split; [|done]. exists h'. split; [apply Hw; by right|done].
      * rewrite E. destruct (decide (region ch h = (Some q, k))) as [Hr|Hr].
        -- left. split.
           ++ exists h. split; [by left|]. split; [done|]. intros z Hz. destruct (Hx z Hz) as [[->|Hzw] _]; done.
           ++ rewrite Hr. unfold region in Hr. rewrite Hp in Hr. injection Hr as -> _. rewrite Hd. apply lookup_insert.
        -- right. split; [|destruct (cd_deep (cd ch q')); [by rewrite lookup_insert_ne|done]].
           intros (h' & [->|Hh]%Hw & Hh' & Hh2); [done|]. apply H1. eauto.
    + right. split; [|done]. intros (h' & Hh & Hr & _). unfold region in Hr. injection Hr as Hr _.
      assert (within ch q q') as Hq.
      { destruct Hh as [->|Hh]; [left; congruence|]. apply (encloses_parent _ _ q') in Hh; [|done].
        right. destruct Hh as [->|Hh]; [rewrite <-Hr; constructor|]. eapply (encloses_trans ch); [|done]. rewrite <-Hr. constructor. }
      by rewrite (deep_inherited q q') in Hi.
  - right. split; [|done]. intros (h' & Hh & Hr & _). unfold region in Hr. injection Hr as Hr _.
    destruct Hh as [->|Hh]; [congruence|]. inversion Hh; congruence.
Qed.
Lemma store_deep_other x n h l m r : (∀ q, r.1 = Some q → cd_deep (cd ch q) = false) →
  store_deep_f ch x n h l m !! r = m !! r.
Proof.
  intros Hr. revert h m. induction n as [|n IH]; intros h m; [done|]. cbn [store_deep_f].
  destruct (parent ch h) as [q|] eqn:Hp; [|done]. case_bool_decide; [done|]. destruct (inherited_deep ch q); [|done].
  rewrite IH. destruct (cd_deep (cd ch q)) eqn:Hd; [|done]. apply lookup_insert_ne. intros <-.
  specialize (Hr q Hp). congruence.
Qed.

Lemma record_parts_element c x : x ∈ record_parts ch c → element ch c x.
Proof.
  intros H%record_parts_spec. destruct x as [z|]; simpl.
  - destruct H as (H1 & H2 & H3). split_and!; try done. unfold stores_deep in H1. by apply andb_true_iff in H1 as [_ ?] || by apply andb_true_iff in H1 as [? _].
  - unfold stores_shallow in H. destruct (parent ch c); [eauto|done].
Qed.

(** ** The environment *)
Record env_ok (v : env W) : Prop := {
  eo_queues : (queue v, deferred v) = queues (trace v);
  eo_shallow r h : shallow_map v !! r = Some (Some h) ↔ shallow_memory ch (trace v) r h;
  eo_deep r l : deep_map v !! r = Some (Some l) ↔ deep_memory ch (trace v) r l }.

Definition neutral (k : okind) : bool :=
  match k with
  | OPost _ | OTake _ | ODefer _ | ORelease | OReset | OClearS _ _ | OClearD _ _ | ODtor _ _
  | ORefused (ARecord _ (Some _)) => false
  | _ => true
  end.
Lemma queues_snoc t b k : queues (t ++ [Obs b k]) = queue_step (queues t) k.
Proof. unfold queues. rewrite map_app, foldl_app. done. Qed.

Lemma shallow_skip t b k r h : (∀ h x, ¬ noted (t ++ [Obs b k]) h x) → k ≠ OReset →
  (∀ q, k = OClearS q r.2 → r.1 ≠ Some q) → shallow_memory ch (t ++ [Obs b k]) r h ↔ shallow_memory ch t r h.
Proof.
  intros Hk H1 H2. apply latest_skip.
  - intros (t0 & b' & k' & E & Hd). apply app_inj_tail in E as [_ [= <- <-]]. destruct Hd as [?|(q & Hq & Hr)]; [done|].
    by apply (H2 q).
  - intros h' [[x Hl] _]. by eapply Hk.
Qed.
Lemma deep_skip t b k r h : (∀ h x, ¬ noted (t ++ [Obs b k]) h x) → k ≠ OReset →
  (∀ q, k = OClearD q r.2 → r.1 ≠ Some q) → deep_memory ch (t ++ [Obs b k]) r h ↔ deep_memory ch t r h.
Proof.
  intros Hk H1 H2. apply latest_skip.
  - intros (t0 & b' & k' & E & Hd). apply app_inj_tail in E as [_ [= <- <-]]. destruct Hd as [?|(q & Hq & Hr)]; [done|].
    by apply (H2 q).
  - intros h' [(x & Hl & _) _]. by eapply Hk.
Qed.

Lemma env_ok_same (v v' : env W) : queue v' = queue v → deferred v' = deferred v → shallow_map v' = shallow_map v →
  deep_map v' = deep_map v → trace v' = trace v → env_ok v → env_ok v'.
Proof. intros E1 E2 E3 E4 E5 [H1 H2 H3]. split; rewrite ?E1, ?E2, ?E3, ?E4, ?E5; done. Qed.

(** Logging something that has nothing to do with queues and history. *)
Lemma env_ok_log0 k (v : env W) : (∀ h x, ¬ noted (trace v ++ [Obs (trig v) k]) h x) →
  match k with OPost _ | OTake _ | ODefer _ | ORelease | OReset | OClearS _ _ | OClearD _ _ => False | _ => True end →
  env_ok v → env_ok (log k v).
Proof.
  intros Hl Hk [H1 H2 H3]. split; simpl.
  - rewrite queues_snoc, <-H1. by destruct k.
  - intros r h. rewrite shallow_skip; [apply H2|done|by intros ->|by intros q ->].
  - intros r h. rewrite deep_skip; [apply H3|done|by intros ->|by intros q ->].
Qed.
Lemma env_ok_log k (v : env W) : neutral k = true → env_ok v → env_ok (log k v).
Proof. intros Hk. apply env_ok_log0; [|by destruct k]. intros h x. apply noted_only; [by intros p c ->|by intros c z ->]. Qed.

Lemma env_ok_cmd x (v : env W) : env_ok v → env_ok (cmd_env x v).
Proof.
  assert (∀ b k h x, user_call k = true → ¬ noted (trace v ++ [Obs b k]) h x) as Hl.
  { intros b k h z Hk. apply noted_only; [by intros p c ->|by intros c z' ->]. }
  intros [H1 H2 H3]. destruct x as [e|c k|c k]; split; simpl.
  - rewrite queues_snoc, <-H1. done.
  - intros r h. rewrite shallow_skip; [apply H2|intros ? ?; by apply Hl|done|done].
  - intros r h. rewrite deep_skip; [apply H3|intros ? ?; by apply Hl|done|done].
  - rewrite queues_snoc, <-H1. done.
  - intros r h. destruct (decide (r = (Some c, k))) as [->|Hr].
    + rewrite lookup_insert. split; [done|]. intros Hm. exfalso. revert Hm. apply latest_del.
      * eexists _, _, _. split; [done|]. right. eauto.
      * intros h' [[? Hl'] _]. revert Hl'. by apply Hl.
    + rewrite lookup_insert_ne by done. rewrite shallow_skip; [apply H2|intros ? ?; by apply Hl|done|].
      intros q [= -> ->] Hq. apply Hr. destruct r; simpl in *. congruence.
  - intros r h. rewrite deep_skip; [apply H3|intros ? ?; by apply Hl|done|done].
  - rewrite queues_snoc, <-H1. done.
  - intros r h. rewrite shallow_skip; [apply H2|intros ? ?; by apply Hl|done|done].
  - intros r h. destruct (decide (r = (Some c, k))) as [->|Hr].
    + rewrite lookup_insert. split; [done|]. intros Hm. exfalso. revert Hm. apply latest_del.
      * eexists _, _, _. split; [done|]. right. eauto.
      * intros h' [(? & Hl' & _) _]. revert Hl'. by apply Hl.
    + rewrite lookup_insert_ne by done. rewrite deep_skip; [apply H3|intros ? ?; by apply Hl|done|].
      intros q [= -> ->] Hq. apply Hr. destruct r; simpl in *. congruence.
Qed.
Lemma env_ok_usteps l (v v' : env W) : usteps l v v' → env_ok v → env_ok v'.
Proof.
  induction 1 as [|v v1 v2 H1 _ IH]; [done|]. intros Hv. apply IH. destruct H1 as [w v|w v|x v]; [by apply (env_ok_same v)..|by apply env_ok_cmd].
Qed.

Lemma env_ok_upto x c k (v : env W) :
  (∀ h z, noted (trace v ++ [Obs (trig v) k]) h z ↔ h = c ∧ z = x) →
  match k with ODtor _ _ | ORefused _ => True | _ => False end →
  (∀ z, x = Some z → within ch z c ∧ ∃ q, parent ch z = Some q ∧ cd_deep (cd ch q) = true) →
  env_ok v → env_ok (log k (store_upto ch x c v)).
Proof.
  intros Hl Hk Hx [H1 H2 H3].
  assert (trace (store_upto ch x c v) = trace v ∧ trig (store_upto ch x c v) = trig v ∧
    queue (store_upto ch x c v) = queue v ∧ deferred (store_upto ch x c v) = deferred v ∧
    shallow_map (store_upto ch x c v) =
      (if stores_shallow ch c then <[region ch c := Some c]> (shallow_map v) else shallow_map v) ∧
    deep_map (store_upto ch x c v) =
      (if stores_deep ch c then store_deep_f ch x (Datatypes.S c) c c (deep_map v) else deep_map v))
    as (E1 & E2 & E3 & E4 & E5 & E6).
  { unfold store_upto. by destruct (stores_shallow _ _), (stores_deep _ _). }
  split; cbn [log queue deferred shallow_map deep_map trace].
  - rewrite E1, E2, E3, E4, queues_snoc, <-H1. by destruct k.
  - intros r h. rewrite E1, E2, E5. unfold shallow_memory. rewrite latest_snoc.
    assert (stores_shallow ch c = true ↔ ∃ q, (region ch c).1 = Some q ∧ cd_shallow (cd ch q) = true) as Hst.
    { unfold stores_shallow, region. simpl. destruct (parent ch c) as [q|].
      - split; [eauto|]. by intros (q' & [= ->] & ?).
      - split; [done|]. by intros (q' & ? & ?). }
    assert (¬ erases_shallow r (trace v ++ [Obs (trig v) k])) as Hne.
    { intros (? & ? & ? & E & Hd). apply app_inj_tail in E as [_ [= <- <-]]. destruct Hd as [->|(? & -> & ?)]; done. }
    assert (∃ z, noted (trace v ++ [Obs (trig v) k]) c z) as Hc by (exists x; by apply Hl).
    destruct (decide (r = region ch c ∧ stores_shallow ch c = true)) as [[-> Hs]|Hn].
    + rewrite Hs, lookup_insert. split.
      * intros [= <-]. left. split_and!; [done|done|by apply Hst].
      * intros [([z [-> _]%Hl] & _)|(_ & _ & Hr)]; [done|]. exfalso. apply (Hr c). split_and!; [done|done|by apply Hst].
    + assert (∀ h', ¬ records_shallow ch r (trace v ++ [Obs (trig v) k]) h') as Hr.
      { intros h' ([z [-> _]%Hl] & <- & Hq). apply Hn. split; [done|]. by apply Hst. }
      assert ((if stores_shallow ch c then <[region ch c:=Some c]> (shallow_map v) else shallow_map v) !! r =
        shallow_map v !! r) as ->.
      { destruct (stores_shallow ch c); [|done]. rewrite lookup_insert_ne; [done|]. intros <-. by apply Hn. }
      rewrite H2. split; [|intros [H|(H & _)]; [by apply Hr in H|done]]. intros H. right. done.
  - intros r h. rewrite E1, E2, E6. unfold deep_memory. rewrite latest_snoc.
    assert (¬ erases_deep r (trace v ++ [Obs (trig v) k])) as Hne.
    { intros (? & ? & ? & E & Hd). apply app_inj_tail in E as [_ [= <- <-]]. destruct Hd as [->|(? & -> & ?)]; done. }
    assert (((∃ h', within ch h' c ∧ region ch h' = r ∧ ∀ z, x = Some z → encloses ch (Some z) h') ∧ is_leaf ch c = true ∧
         (∃ q, r.1 = Some q ∧ cd_deep (cd ch q) = true) ∧
         (if stores_deep ch c then store_deep_f ch x (Datatypes.S c) c c (deep_map v) else deep_map v) !! r = Some (Some c)) ∨
       (¬ ((∃ h', within ch h' c ∧ region ch h' = r ∧ ∀ z, x = Some z → encloses ch (Some z) h') ∧ is_leaf ch c = true ∧
         (∃ q, r.1 = Some q ∧ cd_deep (cd ch q) = true)) ∧
         (if stores_deep ch c then store_deep_f ch x (Datatypes.S c) c c (deep_map v) else deep_map v) !! r = deep_map v !! r))
      as [(Hin & Hlf & Hq & E)|(Hno & E)].
    { assert ((∃ q, r.1 = Some q ∧ cd_deep (cd ch q) = true) ∨ ∀ q, r.1 = Some q → cd_deep (cd ch q) = false) as [(q & Hq & Hd)|Hq].
      { destruct (r.1) as [q|]; [|by right]. destruct (cd_deep (cd ch q)) eqn:Hd; [left; eauto|right]. by intros q' [= <-]. }
      - destruct r as [o i]. simpl in Hq. subst o. unfold stores_deep.
        destruct (store_deep_spec x (Datatypes.S c) c c (deep_map v) q i) as [[H4 H5]|[H4 H5]]; [lia|done|done|..].
        + assert (inherited_deep ch c = true) as ->.
          { destruct H4 as (h' & Hh & Hr & _). apply (deep_inherited q); [|done]. unfold region in Hr. injection Hr as Hr _.
            right. destruct Hh as [->|Hh]; [rewrite <-Hr; constructor|]. eapply (encloses_trans ch); [|done]. rewrite <-Hr. constructor. }
          destruct (is_leaf ch c) eqn:Hlf; simpl; [left|right].
          * split_and!; eauto.
          * split; [|done]. intros (_ & ? & _). congruence.
        + right. split; [tauto|]. destruct (_ && _); done.
      - right. split; [|destruct (stores_deep _ _); [by apply store_deep_other|done]].
        intros (_ & _ & q & Hq' & Hd). specialize (Hq q Hq'). congruence. }
    + assert (records_deep ch r (trace v ++ [Obs (trig v) k]) c) as Hc.
      { split_and!; [|done..]. exists x. split; [by apply Hl|done]. }
      rewrite E. split.
      * intros [= <-]. by left.
      * intros [((z & [-> _]%Hl & _) & _)|(_ & _ & Hr)]; [done|]. exfalso. by apply (Hr c).
    + assert (∀ h', ¬ records_deep ch r (trace v ++ [Obs (trig v) k]) h') as Hr.
      { intros h' ((z & [-> ->]%Hl & H4) & H5 & H6). by apply Hno. }
      rewrite E, H3. split; [|intros [H|(H & _)]; [by apply Hr in H|done]]. intros H. right. done.
Qed.
Lemma env_ok_leave x (v : env W) t0 b u :
  trace v = t0 ++ Obs b (OExit x.2 x.1) :: u → Forall (λ o, user_call (ob o) = true) u →
  env_ok v → env_ok (log (ODtor x.2 x.1) (store_history ch x.1 v)).
Proof.
  intros Ht Hu. apply env_ok_upto; [|done|done]. intros h [z|]; simpl.
  - split; [|by intros [_ ?]]. intros (t1 & b1 & E). apply app_inj_tail in E as [_ [=]].
  - split.
    + intros (? & ? & ? & ? & [= _ <-] & _)%left_snoc. done.
    + intros [-> _]. exists t0, b, x.2, u, (trig v). split; [|done]. by rewrite Ht, <-app_assoc.
Qed.
Lemma env_ok_refuse g c (v : env W) : (g = None ∨ ∃ z, z ∈ record_parts ch c ∧ g = Some (ARecord c z)) →
  env_ok v → env_ok (refuse ch g v).
Proof.
  intros [->|(z & Hz & ->)] Hv; [done|]. unfold refuse. destruct z as [z|]; [|by apply env_ok_log].
  apply (record_parts_spec ch) in Hz as (_ & Hz). apply (env_ok_upto (Some z)); [|done|by intros ? [= <-]|done].
  intros h [z'|]; simpl.
  - split.
    + intros (t1 & b1 & E). apply app_inj_tail in E as [_ [= _ <- <-]]. done.
    + intros [-> [= ->]]. eexists _, _. done.
  - split; [|by intros [_ ?]]. intros (? & ? & ? & ? & E & _)%left_snoc. done.
Qed.

Lemma env_ok_fresh w : env_ok (en (a_fresh w)).
Proof.
  split; simpl; [done|..]; intros r h; rewrite lookup_empty; (split; [done|]); intros H; exfalso; revert H;
    apply latest_nil; [intros [[z H] _]|intros [(z & H & _) _]]; by apply noted_nil in H.
Qed.

Lemma recall_recalls (memory : cls → Prop) m c : (∀ h, m !! region ch c = Some (Some h) ↔ memory h) →
  recalls memory c (recall ch m c).
Proof.
  intros H. unfold recall, recalls. destruct (m !! region ch c) as [[h|]|].
  - left. by apply H.
  - right. split; [done|]. intros h' ?%H. done.
  - right. split; [done|]. intros h' ?%H. done.
Qed.

(** ** The whole state *)
Record replays (s : S) : Prop := {
  rp_env : env_ok (en s);
  rp_ord : ord (core s) = order_of ch (trace (en s));
  rp_dfr p : p ∈ dfr (core s) ↔ ∃ c, lives (trace (en s)) (c, p) ∧ postponed (trace (en s)) (c, p);
  rp_known x : postponed (trace (en s)) x → OCtor x.2 x.1 ∈ map ob (trace (en s));
  rp_true : truthful ch (trace (en s));
  rp_rel : releases (trace (en s)) }.

Lemma truthful_snoc t b k : truthful ch t → entry_true ch t k → truthful ch (t ++ [Obs b k]).
Proof.
  intros Ht Hk t1 b' k' t2 H. apply snoc_split in H as [(-> & -> & [= -> ->])|(t2' & -> & ->)]; [done|].
  by eapply Ht.
Qed.
Definition plain (k : okind) : bool :=
  match k with ODispatch _ _ | OTake _ | ORelease | OResult _ _ RDefer | OHistS _ _ | OHistD _ _ => false | _ => true end.
Lemma plain_true t k : plain k = true → entry_true ch t k.
Proof. destruct k; try done. by destruct r. Qed.
Lemma truthful_app t u : truthful ch t → Forall (λ o, plain (ob o) = true) u → truthful ch (t ++ u).
Proof.
  intros Ht Hu. revert t Ht. induction u as [|[b k] u IH]; intros t Ht; [by rewrite app_nil_r|].
  apply Forall_cons in Hu as [Hk Hu]. rewrite cons_middle, app_assoc. apply IH; [done|].
  apply truthful_snoc; [done|]. by apply plain_true.
Qed.
Lemma releases_snoc t b k : releases t → (∀ p c, k ≠ ODtor p c) → releases (t ++ [Obs b k]).
Proof.
  intros Ht Hk t1 b' p c t2 H Hp. apply snoc_split in H as [(-> & -> & [= _ Hk'])|(t2' & -> & ->)]; [by destruct (Hk p c)|].
  destruct (Ht _ _ _ _ _ eq_refl Hp) as (u & b'' & t3 & -> & H1).
  exists u, b'', (t3 ++ [Obs b k]). rewrite <-!app_assoc. simpl. done.
Qed.
Lemma releases_app t u : releases t → Forall (λ o, ∀ p c, ob o ≠ ODtor p c) u → releases (t ++ u).
Proof.
  intros Ht Hu. revert t Ht. induction u as [|[b k] u IH]; intros t Ht; [by rewrite app_nil_r|].
  apply Forall_cons in Hu as [Hk Hu]. rewrite cons_middle, app_assoc. apply IH; [done|].
  by apply releases_snoc.
Qed.

Definition still_order (k : okind) : bool := match k with OCtor _ _ | OExit _ _ | ODtor _ _ => false | _ => true end.
Lemma order_app t u : Forall (λ o, still_order (ob o) = true) u → order_of ch (t ++ u) = order_of ch t.
Proof.
  unfold order_of. rewrite map_app, foldl_app. generalize (foldl (order_step ch) [] (map ob t)). intros l Hu.
  induction Hu as [|[b k] u Hk _ IH]; [done|]. simpl. assert (order_step ch l k = l) as -> by (by destruct k). done.
Qed.
Lemma order_snoc t b k : order_of ch (t ++ [Obs b k]) = order_step ch (order_of ch t) k.
Proof. unfold order_of. by rewrite map_app, foldl_app. Qed.

Lemma postponed_app t u x : Forall (λ o, ∀ p c, ob o ≠ OResult p c RDefer) u → postponed (t ++ u) x ↔ postponed t x.
Proof.
  intros Hu. unfold postponed. rewrite map_app, elem_of_app. split; [|by left].
  intros [H|H]; [done|]. apply elem_of_list_fmap in H as (o & E & Ho). rewrite Forall_forall in Hu. by destruct (Hu o Ho x.2 x.1).
Qed.

(** An address belongs to one class. *)
Lemma ctor_class t p c c' : orderly ch t → OCtor p c ∈ map ob t → OCtor p c' ∈ map ob t → c = c'.
Proof.
  intros Ht H1 H2. apply elem_of_list_fmap in H1 as ([b k] & E & H1). apply elem_of_list_split in H1 as (t1 & t2 & ->).
  simpl in E. subst k. rewrite map_app, elem_of_app in H2. destruct H2 as [H2|H2].
  - destruct (Ht t1 b _ t2 eq_refl) as (Hf & _). by destruct (Hf _ _ H2 eq_refl).
  - simpl in H2. apply elem_of_cons in H2 as [[= ->]|H2]; [done|].
    apply elem_of_list_fmap in H2 as ([b' k] & E & H2). apply elem_of_list_split in H2 as (t3 & t4 & ->). simpl in E. subst k.
    destruct (Ht (t1 ++ Obs b (OCtor p c) :: t3) b' (OCtor p c') t4) as (Hf & _); [by rewrite <-app_assoc|].
    exfalso. apply (Hf (OCtor p c) (c, p)); [|done|done]. rewrite map_app, elem_of_app. right. by left.
Qed.
Lemma lives_class t x y : orderly ch t → lives t x → lives t y → x.2 = y.2 → x = y.
Proof.
  intros Ht [H1 _] [H2 _] E. destruct x as [c p], y as [c' p']. simpl in *. subst p'. by rewrite (ctor_class t p c c').
Qed.

(** Appending entries that change nothing about states. *)
Lemma replays_app s a v u :
  replays s → ord a = ord (core s) → dfr a = dfr (core s) → trace v = trace (en s) ++ u →
  Forall (λ o, still_order (ob o) = true ∧ ∀ p c, ob o ≠ OResult p c RDefer) u →
  env_ok v → truthful ch (trace v) → replays (MSt a v).
Proof.
  intros [R1 R2 R3 R4 R5 R6] Ho Hd Ht Hu He Htr. apply Forall_and in Hu as [Hu1 Hu2].
  assert (∀ x, lives (trace v) x ↔ lives (trace (en s)) x) as Hl.
  { rewrite Ht. clear -Hu1. induction u as [|[b k] u IH] using rev_ind; intros x; [by rewrite app_nil_r|].
    apply Forall_app in Hu1 as [H1 H2]. apply Forall_cons in H2 as [H2 _]. simpl in H2.
    rewrite app_assoc, lives_snoc; [by apply IH|by intros p c ->..]. }
  split; cbn [core en]; try done.
  - rewrite Ho, R2, Ht. by rewrite order_app.
  - intros p. rewrite Hd, R3. apply exist_proper. intros c. rewrite Hl, Ht, postponed_app by done. done.
  - intros x. rewrite Ht. rewrite postponed_app by done. intros H%R4. rewrite map_app, elem_of_app. by left.
  - rewrite Ht. apply releases_app; [done|]. eapply Forall_impl; [exact Hu1|]. intros [b k] Hk p c E. simpl in *. by subst.
Qed.
Lemma user_plain u : Forall (λ o, user_call (ob o) = true) u →
  Forall (λ o, plain (ob o) = true) u ∧
  Forall (λ o, still_order (ob o) = true ∧ ∀ p c, ob o ≠ OResult p c RDefer) u.
Proof.
  intros Hu. split; (eapply Forall_impl; [exact Hu|]; intros [b k] Hk; simpl in *; by destruct k).
Qed.
Lemma usteps_user l (v v' : env W) : usteps l v v' →
  ∃ u, trace v' = trace v ++ u ∧ Forall (λ o, user_call (ob o) = true) u ∧ trig v' = trig v.
Proof.
  intros (H1 & _ & u & H2 & H3)%usteps_trace. exists u. split_and!; [done| |done].
  eapply Forall_impl; [exact H3|]. by intros ? [].
Qed.

(** Destroying an object. *)
Lemma replays_destroy s x pre u b v :
  tracks ch s → replays s → alive (core s) x → x ∉ ord (unlisted x (core s)) →
  trace v = trace (en s) ++ pre ++ Obs b (ODtor x.2 x.1) :: u →
  Forall (λ o, user_call (ob o) = true ∨ ob o = OExit x.2 x.1 ∨ (∃ y, ob o = OThrow y) ∨ ∃ a, ob o = ORefused a) pre →
  Forall (λ o, user_call (ob o) = true) u → env_ok v →
  replays (MSt (destroyed ch x (unlisted x (core s))) (rel_env x (core s) v)).
Proof.
  intros HT [R1 R2 R3 R4 R5 R6] Hx Hxo Ht Hpre Hu He.
  assert (lives (trace (en s)) x) as Hxl by by apply (tk_alive _ _ HT).
  assert (Forall (λ o, ∀ p c, ob o ≠ OResult p c RDefer) pre ∧ Forall (λ o, plain (ob o) = true) pre ∧
    Forall (λ o, ∀ p c, ob o ≠ ODtor p c) pre ∧ Forall (λ o, ∀ p c, ob o ≠ OCtor p c) pre) as (P1 & P2 & P3 & P4).
  { split_and!; (eapply Forall_impl; [exact Hpre|]; intros [b' k] Hk; simpl in *; destruct Hk as [Hk|[->|[[? ->]|[? ->]]]]; [by destruct k|done..]). }
  destruct (user_plain u Hu) as [U1 U2]. apply Forall_and in U2 as [U2 U3].
  assert (Forall (λ o, ∀ p c, ob o ≠ ODtor p c) u) as U4.
  { eapply Forall_impl; [exact Hu|]. intros [b' k] Hk p c E. simpl in *. by subst. }
  assert (∀ y, lives (trace v) y ↔ lives (trace (en s)) y ∧ y ≠ x) as Hl.
  { intros y. rewrite Ht, (cons_middle _ pre), app_assoc, app_assoc, lives_app by by apply user_call_about.
    rewrite lives_dtor. destruct x as [c p]. simpl. cut (lives (trace (en s) ++ pre) y ↔ lives (trace (en s)) y); [tauto|].
    clear -P3 P4. induction pre as [|[b k] pre IH] using rev_ind; [by rewrite app_nil_r|].
    apply Forall_app in P3 as [P3 K3]. apply Forall_cons in K3 as [K3 _]. 
    apply Forall_app in P4 as [P4 K4]. apply Forall_cons in K4 as [K4 _].
    rewrite app_assoc, lives_snoc; [by apply IH|done..]. }
  assert (∀ y, postponed (trace v) y ↔ postponed (trace (en s)) y) as Hp.
  { intros y. rewrite Ht. apply postponed_app. apply Forall_app. split; [done|]. by constructor. }
  assert (dfr (destroyed ch x (unlisted x (core s))) = dfr (core s) ∖ {[x.2]} ∧
          ord (destroyed ch x (unlisted x (core s))) = ord (unlisted x (core s))) as [Ed Eo].
  { unfold unlisted. by destruct (list_find _ _) as [[]|]. }
  assert (x.2 ∈ dfr (core s) ↔ postponed (trace (en s)) x) as Hdx.
  { rewrite R3. split.
    - intros (c & H1 & H2). by rewrite <-(lives_class _ (c, x.2) x (tk_orderly _ _ HT)).
    - intros H. exists (x.1). by destruct x. }
  assert (ord (unlisted x (core s)) = order_of ch (trace v)) as Hor.
  { rewrite Ht, (cons_middle _ pre), app_assoc, app_assoc, order_app, order_snoc by done. simpl.
    rewrite swap_out_unlisted in *. rewrite R2 in *.
    assert (order_of ch (trace (en s) ++ pre) = order_of ch (trace (en s)) ∨
            order_of ch (trace (en s) ++ pre) = swap_out x (order_of ch (trace (en s)))) as Hpo.
    { clear -Hpre Hxo. induction pre as [|[b k] pre IH] using rev_ind; [left; by rewrite app_nil_r|].
      apply Forall_app in Hpre as [Hpre Hk]. apply Forall_cons in Hk as [Hk _]. simpl in Hk.
      rewrite app_assoc, order_snoc. specialize (IH Hpre).
      destruct Hk as [Hk|[->|[[y ->]|[y ->]]]]; [by destruct k|..|done|done]. simpl. destruct x as [c p]. simpl in *.
      right. destruct IH as [-> | ->]; [done|]. by rewrite swap_out_none. }
    replace (x.1, x.2) with x by by destruct x.
    destruct Hpo as [-> | ->]; [done|]. by rewrite (swap_out_none x (swap_out _ _)). }
  assert (∀ p, p ∈ dfr (core s) ∖ {[x.2]} ↔ ∃ c, lives (trace v) (c, p) ∧ postponed (trace v) (c, p)) as Hdf.
  { intros p. rewrite elem_of_difference, elem_of_singleton, R3. split.
    - intros [(c & H1 & H2) H3]. exists c. rewrite Hl, Hp. split; [|done]. split; [done|]. intros <-. done.
    - intros (c & [H1 H2]%Hl & H3%Hp). split; [eauto|]. intros ->. apply H2.
      by apply (lives_class _ (c, x.2) x (tk_orderly _ _ HT)). }
  assert (truthful ch (trace v)) as Htr.
  { rewrite Ht. apply truthful_app; [done|]. apply Forall_app. split; [done|]. by constructor. }
  assert (∀ y, postponed (trace v) y → OCtor y.2 y.1 ∈ map ob (trace v)) as Hkn.
  { intros y Hy%Hp%R4. rewrite Ht, map_app, elem_of_app. by left. }
  assert (∀ t1 b' p c t2, trace v = t1 ++ Obs b' (ODtor p c) :: t2 → postponed t1 (c, p) →
    (∃ u b'' t3, t2 = u ++ Obs b'' ORelease :: t3 ∧ Forall (λ o, user_call (ob o) = true) u) ∨
    (c, p) = x ∧ t2 = u) as Hrl.
  { intros t1 b' p c t2 E Hpo.
    assert (OCtor p c ∈ map ob t1 ∨ True) as _ by by right.
    assert (releases (trace (en s) ++ pre)) as Hrp by by apply releases_app.
    rewrite Ht, app_assoc in E. clear -E Hrp Hpo U4.
    assert ((t1 = trace (en s) ++ pre ∧ Obs b' (ODtor p c) = Obs b (ODtor x.2 x.1) ∧ t2 = u) ∨
      ∃ t3, trace (en s) ++ pre = t1 ++ Obs b' (ODtor p c) :: t3 ∧ t2 = t3 ++ Obs b (ODtor x.2 x.1) :: u) as [(-> & [= _ -> ->] & ->)|(t3 & E1 & ->)].
    { revert t2 E. induction u as [|o u IH] using rev_ind; intros t2 E.
      - apply snoc_split in E as [(-> & -> & ->)|(t2' & -> & ->)]; [by left|]. right. eauto.
      - apply Forall_app in U4 as [U4 Ho]. apply Forall_cons in Ho as [Ho _].
        rewrite app_comm_cons, app_assoc in E. apply snoc_split in E as [(_ & _ & <-)|(t2' & -> & E)]; [by destruct (Ho p c)|].
        destruct (IH U4 t2' E) as [(-> & -> & ->)|(t3 & -> & ->)]; [by left|]. right. exists t3. split; [done|].
        by rewrite <-app_assoc. }
    - right. split; [by destruct x|done].
    - left. destruct (Hrp _ _ _ _ _ E1 Hpo) as (u' & b'' & t4 & -> & H). exists u', b'', (t4 ++ Obs b (ODtor x.2 x.1) :: u).
      split; [by rewrite <-app_assoc|done]. }
  unfold rel_env. case_bool_decide as Hd.
  - pose proof He as [E1 E2 E3].
    split; cbn [core en]; simpl.
    + split; simpl.
      * rewrite queues_snoc, <-E1. done.
      * intros r h. rewrite shallow_skip; [apply E2| |done..]. intros ? ?. by apply noted_only.
      * intros r h. rewrite deep_skip; [apply E3| |done..]. intros ? ?. by apply noted_only.
    + rewrite order_app by by repeat constructor. by rewrite <-Hor, <-Eo.
    + intros p. change (p ∈ dfr (destroyed ch x (unlisted x (core s))) ↔ ∃ c, lives (trace v ++ [Obs (trig v) ORelease]) (c, p) ∧
        postponed (trace v ++ [Obs (trig v) ORelease]) (c, p)).
      rewrite Ed, Hdf. apply exist_proper. intros c.
      rewrite lives_snoc, postponed_app by (done || by repeat constructor). done.
    + intros y. rewrite postponed_app by by repeat constructor. intros H%Hkn. rewrite map_app, elem_of_app. by left.
    + apply truthful_snoc; [done|]. exists (trace (en s) ++ pre), b, x.2, x.1, u. split_and!; [by rewrite Ht, <-app_assoc|done|].
      apply postponed_app; [done|]. apply Hdx in Hd. by destruct x.
    + intros t1 b' p c t2 E Hpo. apply snoc_split in E as [(-> & -> & ?)|(t2' & -> & E)]; [done|].
      destruct (Hrl _ _ _ _ _ E Hpo) as [(u' & b'' & t3 & -> & Hu')|[_ ->]].
      * exists u', b'', (t3 ++ [Obs (trig v) ORelease]). split; [by rewrite <-app_assoc|done].
      * exists u, (trig v), []. done.
  - split; cbn [core en]; try done.
    + intros p. rewrite Ed. apply Hdf.
    + intros t1 b' p c t2 E Hpo. destruct (Hrl _ _ _ _ _ E Hpo) as [?|[<- ->]]; [done|]. exfalso. apply Hd, Hdx.
      apply Hp. unfold postponed in *. rewrite E, map_app, elem_of_app. by left.
Qed.

Lemma replays_step s s' : tracks ch s → replays s → step s s' → replays s'.
Proof.
  intros HT HR Hs. destruct Hs as
    [s s' Hj|s v Hu|s u|s b|s b|s t|s k Hk Hok|s c|s c|s c v Ho Hq Hu|s c v y Ho Hq Hu|s x v Hx Hkd Hxo Hu|s x v v' Hx Hkd Hxo Hu Hu'|s x v g y v' Hx Hkd Hxo Hg Hu Hu'|s x Hx|s e q Hq|s e|s].
  - destruct Hj. apply HT.
  - pose proof (usteps_user _ _ _ Hu) as (u & Ht & Hcu & _). destruct (user_plain u Hcu) as [H1 H2].
    apply (replays_app s _ _ u); try done.
    + eapply env_ok_usteps; [done|apply HR].
    + rewrite Ht. apply truthful_app; [apply HR|done].
  - apply (replays_app s _ _ []); try done; [by rewrite app_nil_r|apply HR..].
  - apply (replays_app s _ _ []); try done; [by rewrite app_nil_r|eapply env_ok_same; [..|apply HR]; done|apply HR].
  - apply (replays_app s _ _ []); try done; [by rewrite app_nil_r|eapply env_ok_same; [..|apply HR]; done|apply HR].
  - apply (replays_app s _ _ []); try done; [by rewrite app_nil_r|eapply env_ok_same; [..|apply HR]; done|apply HR].
  - apply (replays_app s _ _ [Obs (trig (en s)) k]); try done.
    + constructor; [|done]. simpl. split; [by destruct k|]. intros p c ->. done.
    + apply env_ok_log; [destruct k; try done; match goal with a : asite |- _ => by destruct a end|apply HR].
    + apply truthful_snoc; [apply HR|]. destruct k; try done.
      * simpl in Hok |- *. rewrite Hok. unfold abs_leaves. by rewrite (rp_ord _ HR).
      * by destruct r.
  - apply (replays_app s _ _ [Obs (trig (en s)) (OHistS c (recall ch (shallow_map (en s)) c))]); try done.
    + by repeat constructor.
    + apply env_ok_log; [done|apply HR].
    + apply truthful_snoc; [apply HR|]. simpl. apply recall_recalls. intros h. apply (eo_shallow _ (rp_env _ HR)).
  - apply (replays_app s _ _ [Obs (trig (en s)) (OHistD c (recall ch (deep_map (en s)) c))]); try done.
    + by repeat constructor.
    + apply env_ok_log; [done|apply HR].
    + apply truthful_snoc; [apply HR|]. simpl. apply recall_recalls. intros h. apply (eo_deep _ (rp_env _ HR)).
  - (* constructor *)
    pose proof (usteps_user _ _ _ Hu) as (u & Ht & Hcu & _). destruct (user_plain u Hcu) as [H1 H2].
    assert (replays (MSt (core s) v)) as HR'.
    { apply (replays_app s _ _ u); try done.
      + eapply env_ok_usteps; [done|apply HR].
      + rewrite Ht. apply truthful_app; [apply HR|done]. }
    assert (tracks ch (MSt (core s) v)) as HT' by (rewrite <-(mst_eta s) in HT; by eapply tracks_usteps).
    clear HR HT. destruct HR' as [R1 R2 R3 R4 R5 R6]. cbn [core en] in *.
    set (x := (c, anxt (core s))) in *.
    assert (∀ k y, k ∈ map ob (trace v) → about k = Some y → y.2 ≠ anxt (core s)) as Hf.
    { intros k y Hk Hy. pose proof (tk_fresh _ _ HT' _ _ Hk Hy). simpl in *. lia. }
    split; cbn [core en]; simpl.
    + apply env_ok_log; [done|]. eapply (env_ok_usteps []); [|exact R1]. apply rtc_refl.
    + rewrite order_snoc, <-R2. simpl. unfold listed. simpl. by destruct (is_leaf ch c).
    + intros p. assert (dfr (listed ch x (created ch x (core s))) = dfr (core s)) as ->.
      { unfold listed. by destruct (is_leaf _ _). }
      rewrite R3. apply exist_proper. intros c'. rewrite lives_ctor by done. rewrite postponed_app by by repeat constructor.
      split; [tauto|]. intros [[?|[= -> ->]] Hp]; [done|]. exfalso. apply R4 in Hp. by apply (Hf _ _ Hp eq_refl).
    + intros y. rewrite postponed_app by by repeat constructor. intros H%R4. rewrite map_app, elem_of_app. by left.
    + apply truthful_snoc; done.
    + apply releases_snoc; done.
  - (* constructor throws *)
    pose proof (usteps_user _ _ _ Hu) as (u & Ht & Hcu & _). destruct (user_plain u Hcu) as [H1 H2].
    apply (replays_app s _ _ (u ++ [Obs (trig v) (OThrow y)] ++ [Obs (trig v) (OCtorThrow (anxt (core s)) c)])); try done.
    + simpl. rewrite Ht, <-!app_assoc. done.
    + apply Forall_app. split; [done|]. by repeat constructor.
    + apply env_ok_log; [done|]. apply env_ok_log; [done|]. eapply env_ok_usteps; [done|apply HR].
    + simpl. apply truthful_snoc; [|done]. apply truthful_snoc; [|done]. rewrite Ht. apply truthful_app; [apply HR|done].
  - pose proof (usteps_user _ _ _ Hu) as (u & Ht & Hcu & _). simpl in Ht.
    apply (replays_destroy s x [] u (trig (en s))); try done.
    + rewrite Ht, <-app_assoc. done.
    + eapply env_ok_usteps; [exact Hu|]. apply env_ok_log0; [|done|apply HR].
      intros h [z|]; [intros (t0 & b & [_ [=]]%app_inj_tail)|]. intros (t0 & b & p & u' & _ & E & Hu')%left_snoc.
      destruct (tk_exits _ _ HT _ _ _ _ _ E) as (u1 & th & b1 & t3 & -> & _).
      apply Forall_app in Hu' as [_ Hu']. apply Forall_app in Hu' as [_ Hu']. by apply Forall_cons in Hu' as [? _].
  - pose proof (usteps_user _ _ _ Hu) as (u & Ht & Hcu & Htg). simpl in Ht, Htg.
    pose proof (usteps_user _ _ _ Hu') as (u' & Ht' & Hcu' & _). simpl in Ht'.
    assert (trace (store_history ch x.1 v) = trace v ∧ trig (store_history ch x.1 v) = trig v) as [Hst Hstt].
    { unfold store_history, store_upto. by destruct (stores_shallow _ _), (stores_deep _ _). }
    apply (replays_destroy s x (Obs (trig (en s)) (OExit x.2 x.1) :: u) u' (trig v)); try done.
    + rewrite Ht', Hst, Hstt, Ht, <-!app_assoc. done.
    + constructor; [by right; left|]. eapply Forall_impl; [exact Hcu|]. by left.
    + eapply env_ok_usteps; [exact Hu'|]. apply (env_ok_leave x v (trace (en s)) (trig (en s)) u); [|done|].
      * by rewrite Ht, <-app_assoc.
      * eapply env_ok_usteps; [exact Hu|]. apply env_ok_log; [done|apply HR].
  - pose proof (usteps_user _ _ _ Hu) as (u & Ht & Hcu & Htg). simpl in Ht, Htg.
    pose proof (usteps_user _ _ _ Hu') as (u' & Ht' & Hcu' & _). simpl in Ht'.
    set (th := match g with Some a => [Obs (trig v) (ORefused a)] | None => [] end ++ [Obs (trig v) (OThrow y)]).
    apply (replays_destroy s x (Obs (trig (en s)) (OExit x.2 x.1) :: u ++ th) u' (trig v)); try done.
    + rewrite Ht'. destruct (refuse_fields ch g v) as (Eg & _ & _ & _ & _ & _ & Et). rewrite Eg, Et. unfold th.
      rewrite Ht, <-!app_assoc. simpl. rewrite <-?app_assoc. done.
    + constructor; [by right; left|]. apply Forall_app. split; [eapply Forall_impl; [exact Hcu|]; by left|].
      unfold th. destruct g; simpl; repeat (constructor; [right; right; eauto|]); constructor.
    + eapply env_ok_usteps; [exact Hu'|]. apply env_ok_log0; [|done|].
      * intros h [z|]; [intros (t0 & b & [_ [=]]%app_inj_tail)|].
        intros (t0 & b & p & u1 & _ & E & Hu1)%left_snoc. simpl in E.
        destruct u1 as [|o u1 _] using rev_ind.
        -- apply app_inj_tail in E as [_ E]. done.
        -- rewrite app_comm_cons, app_assoc in E. apply app_inj_tail in E as [_ <-].
           apply Forall_app in Hu1 as [_ Hu1]. by apply Forall_cons in Hu1 as [? _].
      * apply env_ok_log; [done|].
        assert (env_ok v) as Hv by (eapply env_ok_usteps; [exact Hu|]; apply env_ok_log; [done|apply HR]).
        by eapply env_ok_refuse.
  - (* a state defers *)
    pose proof HR as [R1 R2 R3 R4 R5 R6]. pose proof Hx as Hxl. apply (tk_alive _ _ HT) in Hxl.
    assert (∀ y, postponed (trace (en s) ++ [Obs (trig (en s)) (OResult x.2 x.1 RDefer)]) y ↔ postponed (trace (en s)) y ∨ y = x) as Hp.
    { intros y. unfold postponed. rewrite map_app, elem_of_app. cbn [map ob]. rewrite elem_of_list_singleton.
      destruct x, y. simpl. split; (intros [H|[=]]; [by left|right; congruence]). }
    split; cbn [core en]; simpl.
    + apply env_ok_log; [done|apply HR].
    + rewrite order_snoc. simpl. apply HR.
    + intros p. rewrite elem_of_union, elem_of_singleton, R3. split.
      * intros [(c & H1 & H2)| ->].
        -- exists c. rewrite lives_snoc, Hp by done. auto.
        -- exists x.1. rewrite lives_snoc, Hp by done. destruct x. auto.
      * intros (c & H1 & H2). rewrite lives_snoc in H1 by done. apply Hp in H2 as [H2| <-]; [left; eauto|by right].
    + intros y Hy. rewrite map_app, elem_of_app. left. apply Hp in Hy as [Hy| ->]; [by apply R4|]. apply Hxl.
    + apply truthful_snoc; done.
    + apply releases_snoc; done.
  - apply (replays_app s _ _ [Obs (trig (en s)) (OTake e)]); try done.
    + by repeat constructor.
    + destruct (rp_env _ HR) as [E1 E2 E3]. split; simpl.
      * rewrite queues_snoc, <-E1. simpl. by rewrite Hq.
      * intros r h. rewrite shallow_skip; [apply E2| |done..]. intros ? ?. by apply noted_only.
      * intros r h. rewrite deep_skip; [apply E3| |done..]. intros ? ?. by apply noted_only.
    + simpl. apply truthful_snoc; [apply HR|]. simpl. unfold pending. rewrite <-(eo_queues _ (rp_env _ HR)). simpl. by rewrite Hq.
  - apply (replays_app s _ _ [Obs (trig (en s)) (ODefer e)]); try done.
    + by repeat constructor.
    + destruct (rp_env _ HR) as [E1 E2 E3]. split; simpl.
      * rewrite queues_snoc, <-E1. done.
      * intros r h. rewrite shallow_skip; [apply E2| |done..]. intros ? ?. by apply noted_only.
      * intros r h. rewrite deep_skip; [apply E3| |done..]. intros ? ?. by apply noted_only.
    + simpl. apply truthful_snoc; [apply HR|done].
  - apply (replays_app s _ _ [Obs (trig (en s)) OReset]); try done.
    + by repeat constructor.
    + destruct (rp_env _ HR) as [E1 E2 E3]. split; simpl.
      * by rewrite queues_snoc.
      * intros r h. rewrite lookup_empty. split; [done|]. intros Hm. exfalso. revert Hm. apply latest_del.
        -- eexists _, _, _. split; [done|]. by left.
        -- intros h' [[? Hl] _]. revert Hl. by apply noted_only.
      * intros r h. rewrite lookup_empty. split; [done|]. intros Hm. exfalso. revert Hm. apply latest_del.
        -- eexists _, _, _. split; [done|]. by left.
        -- intros h' [(? & Hl & _) _]. revert Hl. by apply noted_only.
    + simpl. apply truthful_snoc; [apply HR|done].
Qed.

Lemma replays_steps s s' : tracks ch s → replays s → rtc step s s' → replays s'.
Proof.
  intros HT HR Hs. induction Hs as [s|s s1 s2 H1 _ IH]; [done|].
  apply IH; [by eapply tracks_step|by eapply replays_step].
Qed.
Lemma replays_fresh w : replays (a_fresh w).
Proof.
  split; simpl.
  - apply env_ok_fresh.
  - done.
  - intros p. split; [by intros ?%elem_of_empty|]. intros (c & [?%elem_of_nil _] & _). done.
  - intros x ?%elem_of_nil. done.
  - intros t1 b k t2 E. by destruct t1.
  - intros t1 b p c t2 E. by destruct t1.
Qed.
End replay.
