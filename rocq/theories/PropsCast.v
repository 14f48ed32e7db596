(** C30, C47: looking up active states and contexts. *)
From Verif Require Import Cast Replay Moves Demo.

Section casts.
Context {W : Type} (ch : chart) (U : user W).
Context (Hwf : wf_chart ch = true) (HU : user_ok ch U).
Notation S := (mst W heapst).
Notation T := (mst W acore).

(** The first class accepted on the way outward from [c]. *)
Definition first_out (t : cls → bool) (c : cls) : option cls := head (filter t (c :: outers ch c)).

Lemma first_out_unfold t c : first_out t c =
  if t c then Some c else match parent ch c with None => None | Some q => first_out t q end.
Proof.
  unfold first_out. rewrite filter_cons, (outers_unfold ch Hwf c). destruct (t c).
  - by rewrite decide_True by done.
  - rewrite decide_False by (intros []). by destruct (parent ch c) as [q|].
Qed.
Lemma first_out_none t c : first_out t c = None ↔ ∀ d, within ch d c → t d = false.
Proof.
  unfold first_out. split.
  - intros H d Hd. destruct (t d) eqn:Et; [|done]. exfalso.
    assert (d ∈ filter t (c :: outers ch c)) as Hin.
    { apply elem_of_list_filter. split; [by rewrite Et|]. destruct Hd as [->|Hd]; [by left|]. right.
      by apply (encloses_outers ch Hwf). }
    destruct (filter t _); [by apply elem_of_nil in Hin|done].
  - intros H. destruct (filter t _) as [|d l] eqn:E; [done|]. exfalso.
    assert (d ∈ filter t (c :: outers ch c)) as [Ht Hin]%elem_of_list_filter by (rewrite E; by left).
    apply elem_of_cons in Hin as [->|Hin]; [rewrite (H c) in Ht; [done|by left]|].
    apply (encloses_outers ch Hwf) in Hin. rewrite (H d) in Ht; [done|by right].
Qed.
Lemma first_out_some t c d : first_out t c = Some d →
  within ch d c ∧ t d = true ∧ ∀ e, within ch e c → encloses ch (Some d) e → t e = false.
Proof.
  revert d. induction (lt_wf c) as [c _ IH]; intros d. rewrite first_out_unfold. destruct (t c) eqn:Et.
  - intros [= <-]. split_and!; [by left|done|]. intros e [->|He] H.
    + apply (encloses_lt ch Hwf) in H. lia.
    + apply (encloses_lt ch Hwf) in He. apply (encloses_lt ch Hwf) in H. lia.
  - destruct (parent ch c) as [q|] eqn:Ep; [|done]. intros H.
    destruct (IH q (parent_lt ch Hwf _ _ Ep) d H) as (H1 & H2 & H3). split_and!; [|done|].
    + right. destruct H1 as [->|H1]; [rewrite <-Ep; apply encloses_direct|by eapply encloses_step].
    + intros e [->|He] Hd; [done|]. apply H3; [|done]. by eapply encloses_parent.
Qed.

Lemma R_deref (s : S) (a : acore) x : R ch [] (core s) a → alive ch a x →
  ∃ o, deref x.2 s = (Ret o, s) ∧ o_cls o = x.1 ∧ o_ctx o = Some (snd <$> ctx_of ch a x.1).
Proof.
  intros HR Hx. destruct (R_obj _ _ _ _ HR x Hx) as (lp & H & _). eexists. split; [|split].
  - unfold deref, hp, gets, bind. simpl. rewrite H. reflexivity.
  - done.
  - done.
Qed.

Lemma ctx_spec a x : wfa ch [] a → alive ch a x →
  match parent ch x.1 with
  | None => ctx_of ch a x.1 = None
  | Some q => ∃ p, ctx_of ch a x.1 = Some (q, p) ∧ alive ch a (q, p)
  end.
Proof.
  intros Hw Hx. unfold ctx_of. destruct (parent ch x.1) as [q|] eqn:Ep; [|done].
  destruct (wa_par _ _ _ Hw _ _ Hx Ep) as [p Hp]. exists p. split; [exact Hp|exact Hp].
Qed.

Lemma find_outward_spec (s : S) (a : acore) t : R ch [] (core s) a → ∀ n x, alive ch a x → x.1 < n →
  match first_out t x.1 with
  | None => find_outward ch n t (Some x.2) s = (Ret None, s)
  | Some d => ∃ p, alive ch a (d, p) ∧ find_outward ch n t (Some x.2) s = (Ret (Some p), s)
  end.
Proof.
  intros HR. induction n as [|n IH]; intros x Hx Hn; [lia|]. rewrite first_out_unfold.
  destruct (R_deref s a x HR Hx) as (o & Ho & Hc & Hctx).
  pose proof (ctx_spec a x (R_wf _ _ _ _ HR) Hx) as Hp.
  assert (find_outward ch (Datatypes.S n) t (Some x.2) s =
    if t x.1 then (Ret (Some x.2), s) else find_outward ch n t (snd <$> ctx_of ch a x.1) s) as ->.
  { cbn [find_outward]. unfold bind at 1. rewrite Ho, Hc. destruct (t x.1); [done|].
    unfold outer_state_ptr, bind. rewrite Ho, Hc, Hctx. destruct (parent ch x.1); [done|]. by rewrite Hp. }
  destruct (t x.1).
  { exists x.2. split; [by destruct x|done]. }
  destruct (parent ch x.1) as [q|] eqn:Ep.
  - destruct Hp as (p & -> & Hp). pose proof (parent_lt ch Hwf _ _ Ep).
    specialize (IH (q, p) Hp). simpl in *. apply IH. lia.
  - rewrite Hp. by destruct n.
Qed.

Lemma find_from_spec (s : S) (a : acore) t : R ch [] (core s) a →
  (∀ x, alive ch a x → x.1 < ncls ch) → ∀ n l1 l2, ord a = l1 ++ l2 → length l2 ≤ n →
  match head (omap (λ x, first_out t x.1) l2) with
  | None => find_from ch n t (length l1) s = (Ret None, s)
  | Some d => ∃ p, alive ch a (d, p) ∧ find_from ch n t (length l1) s = (Ret (Some p), s)
  end.
Proof.
  intros HR Hd. induction n as [|n IH]; intros l1 l2 E Hn.
  { destruct l2; [|simpl in *; lia]. simpl. unfold bind, gets. rewrite (R_send _ _ _ _ HR), E, app_nil_r, bool_decide_true; done. }
  destruct l2 as [|x l2].
  { simpl. unfold bind, gets. rewrite (R_send _ _ _ _ HR), E, app_nil_r, bool_decide_true; done. }
  assert (ord a !! length l1 = Some x) as Hx by (rewrite E; by apply list_lookup_middle).
  assert (alive ch a x) as Hal.
  { apply (wa_ord _ _ _ (R_wf _ _ _ _ HR)). by eapply elem_of_list_lookup_2. }
  pose proof (find_outward_spec s a t HR (depth_fuel ch) x Hal) as H.
  assert (x.1 < depth_fuel ch) as Hf by (specialize (Hd x Hal); unfold depth_fuel; lia). specialize (H Hf).
  assert (find_from ch (Datatypes.S n) t (length l1) s =
    (let! r := find_outward ch (depth_fuel ch) t (Some x.2) in
     match r with Some q => ret (Some q) | None => find_from ch n t (Datatypes.S (length l1)) end) s) as ->.
  { cbn [find_from]. unfold bind at 1, gets. rewrite (R_send _ _ _ _ HR), E, app_length. simpl length.
    rewrite bool_decide_false by (simpl; lia). by rewrite (R_slots _ _ _ _ HR _ _ Hx). }
  unfold bind. simpl. destruct (first_out t x.1) as [d|].
  - destruct H as (p & Hp & H). exists p. split; [done|]. by rewrite H.
  - rewrite H. specialize (IH (l1 ++ [x]) l2). rewrite <-app_assoc, app_length in IH. simpl in IH.
    replace (length l1 + 1) with (Datatypes.S (length l1)) in IH by lia. apply IH; [done|simpl in Hn; lia].
Qed.

Lemma cast_spec s t : seen ch U s →
  match head (omap (first_out t) (leaves s)) with
  | None => state_cast_ptr ch t s = (Ret None, s)
  | Some d => ∃ p, active s (d, p) ∧ state_cast_ptr ch t s = (Ret (Some p), s)
  end.
Proof.
  intros (a & Ha & _)%(seen_tracks ch U Hwf HU). pose proof (bk_R _ _ _ Ha) as [HR _].
  pose proof (cm_good _ _ (sb_calm _ _ (bk_stable _ _ _ Ha))) as Hg.
  pose proof (find_from_spec s (core a) t HR (gd_decl _ _ _ Hg) (length (slots (core s))) [] (ord (core a)) eq_refl
    (R_len _ _ _ _ HR)) as H.
  rewrite (leaves_ord ch _ _ Ha). unfold abs_leaves.
  replace (omap (first_out t) (map fst (ord (core a)))) with (omap (λ x : nat * nat, first_out t x.1) (ord (core a))).
  2: { clear. induction (ord (core a)) as [|x l IH]; [done|]. cbn. destruct (first_out t x.1); [f_equal|]; exact IH. }
  unfold state_cast_ptr, bind, gets. simpl in H. destruct (head _) as [d|]; [|done].
  destruct H as (p & Hp & H). exists p. split; [by eapply active_alive|done].
Qed.

(** Every active state is an outer state of an innermost one, or innermost itself. *)
Lemma above_leaf s : seen ch U s → ∀ n c p, ncls ch - c ≤ n → active s (c, p) → ∃ l, l ∈ leaves s ∧ within ch c l.
Proof.
  intros Hs. destruct (seen_tracks ch U Hwf HU s Hs) as (a & Ha & _).
  pose proof (cm_good _ _ (sb_calm _ _ (bk_stable _ _ _ Ha))) as Hg.
  destruct (seen_leaves ch U Hwf HU s Hs) as [_ Hl].
  induction n as [|n IH]; intros c p Hc Hx.
  - apply (active_alive ch _ _ _ Ha) in Hx. pose proof (gd_decl _ _ _ Hg _ Hx). simpl in *. lia.
  - destruct (is_leaf ch c) eqn:El.
    + exists c. split; [|by left]. apply Hl. eauto.
    + destruct (seen_inner ch U Hwf HU s c p Hs Hx El) as (c' & p' & Hx' & Hp).
      destruct (IH c' p') as (l & H1 & H2); [pose proof (parent_lt ch Hwf _ _ Hp); lia|done|].
      exists l. split; [done|]. right. by eapply within_kid.
Qed.
Lemma leaf_outer s c l : seen ch U s → l ∈ leaves s → within ch c l → ∃ p, active s (c, p).
Proof.
  intros Hs Hl Hw. destruct (seen_leaves ch U Hwf HU s Hs) as [_ H]. apply H in Hl as [_ [p Hp]].
  destruct Hw as [->|Hw]; [by eexists|].
  apply (seen_active ch U Hwf HU s _ Hs) in Hp.
  destruct (orderly_outers ch _ _ _ (seen_orderly ch U Hwf HU s Hs) Hp Hw) as [p' Hp'].
  exists p'. by apply (seen_active ch U Hwf HU s _ Hs).
Qed.
End casts.

(** ** C30: state_cast and state_downcast *)
Theorem C30_downcast {W} (ch : chart) (U : user W) s c :
  wf_chart ch = true → user_ok ch U → seen ch U s →
  ∃ r, state_downcast_ptr ch c s = (Ret r, s) ∧ ∀ p, r = Some p ↔ active s (c, p).
Proof.
  intros Hwf HU Hs. pose proof (cast_spec ch U Hwf HU s (λ c', bool_decide (c' = c)) Hs) as H.
  unfold state_downcast_ptr. destruct (head _) as [d|] eqn:E.
  - destruct H as (p & Hp & H). exists (Some p). split; [done|].
    assert (d = c) as ->.
    { destruct (omap _ (leaves s)) as [|d' k] eqn:Eo; [done|]. simpl in E. injection E as ->.
      assert (d ∈ omap (first_out ch (λ c', bool_decide (c' = c))) (leaves s)) as Hd by (rewrite Eo; by left).
      apply elem_of_list_omap in Hd as (l & _ & Hd). apply (first_out_some ch Hwf) in Hd as (_ & Hd & _).
      by apply bool_decide_eq_true in Hd. }
    intros p'. split; [by intros [= <-]|]. intros Hp'.
    pose proof (seen_region ch U Hwf HU s _ _ Hs Hp Hp' eq_refl) as [= ->]. done.
  - exists None. split; [done|]. intros p. split; [done|]. intros Hp. exfalso.
    destruct (above_leaf ch U Hwf HU s Hs _ c p (le_n _) Hp) as (l & Hl & Hw).
    destruct (first_out ch (λ c', bool_decide (c' = c)) l) as [d|] eqn:Ef.
    + assert (d ∈ omap (first_out ch (λ c', bool_decide (c' = c))) (leaves s)) as Hd.
      { apply elem_of_list_omap. eauto. }
      destruct (omap _ (leaves s)); [by apply elem_of_nil in Hd|done].
    + apply (first_out_none ch Hwf) with (d := c) in Ef; [|done]. by rewrite bool_decide_true in Ef.
Qed.
Print Assumptions C30_downcast.

Theorem C30_downcast_ref {W} (ch : chart) (U : user W) s c bad_cast :
  wf_chart ch = true → user_ok ch U → seen ch U s →
  (∃ p, active s (c, p) ∧ state_downcast_ref ch bad_cast c s = (Ret p, s)) ∨
  ((∀ p, ¬ active s (c, p)) ∧ state_downcast_ref ch bad_cast c s = (Exn bad_cast, s)).
Proof.
  intros Hwf HU Hs. destruct (C30_downcast ch U s c Hwf HU Hs) as (r & Hr & H).
  unfold state_downcast_ref, state_cast_ref. change (state_cast_ptr ch _) with (state_downcast_ptr (W:=W) ch c).
  unfold bind. rewrite Hr. destruct r as [p|].
  - left. exists p. split; [by apply H|done].
  - right. split; [|done]. intros p Hp. by apply H in Hp.
Qed.
Print Assumptions C30_downcast_ref.

(** [t] tells which classes can be converted to the target type. *)
Theorem C30_cast {W} (ch : chart) (U : user W) s t :
  wf_chart ch = true → user_ok ch U → seen ch U s →
  (state_cast_ptr ch t s = (Ret None, s) ∧ ∀ c p, active s (c, p) → t c = false) ∨
  ∃ p c l1 l l2, state_cast_ptr ch t s = (Ret (Some p), s) ∧ active s (c, p) ∧ t c = true ∧
    leaves s = l1 ++ l :: l2 ∧ within ch c l ∧
    (∀ d, within ch d l → encloses ch (Some c) d → t d = false) ∧
    (∀ l' d, l' ∈ l1 → within ch d l' → t d = false).
Proof.
  intros Hwf HU Hs. pose proof (cast_spec ch U Hwf HU s t Hs) as H.
  destruct (head _) as [c|] eqn:E.
  - right. destruct H as (p & Hp & H). exists p, c. revert E. generalize (leaves s) as ls. intros ls.
    induction ls as [|l ls IH]; [done|]. simpl. destruct (first_out ch t l) as [d|] eqn:Ef; simpl.
    + intros [= ->]. destruct (first_out_some ch Hwf _ _ _ Ef) as (H1 & H2 & H3). exists [], l, ls. split_and!; try done.
      intros l' d' Hl'. by apply elem_of_nil in Hl'.
    + intros E. destruct (IH E) as (l1 & l' & l2 & H1 & H2 & H3 & -> & H5 & H6 & H7). exists (l :: l1), l', l2.
      split_and!; try done. intros l'' d [->|Hin]%elem_of_cons Hd; [|by eapply H7].
      by apply (first_out_none ch Hwf _ _) with (d := d) in Ef.
  - left. split; [done|]. intros c p Hp.
    destruct (above_leaf ch U Hwf HU s Hs _ c p (le_n _) Hp) as (l & Hl & Hw).
    destruct (first_out ch t l) as [d|] eqn:Ef; [|by eapply (first_out_none ch Hwf)].
    assert (d ∈ omap (first_out ch t) (leaves s)) as Hd by (apply elem_of_list_omap; eauto).
    destruct (omap _ (leaves s)); [by apply elem_of_nil in Hd|done].
Qed.
Print Assumptions C30_cast.

(** In the machine of Demo.v states 0, 1, 2, 3 and 4 are active, 5 is not; both 3 and 2 can be converted to the
    target type "2 or 3", and 2 is found because it is the first innermost state. *)
Example C30_example :
  seen Demo.chart5 Demo.U Demo.demo ∧
  (state_downcast_ptr Demo.chart5 1 Demo.demo).1 = Ret (Some 14) ∧
  (state_downcast_ptr Demo.chart5 5 Demo.demo).1 = Ret None ∧
  (state_downcast_ref Demo.chart5 77 5 Demo.demo).1 = Exn 77 ∧
  (state_cast_ptr Demo.chart5 (λ c, bool_decide (c = 2 ∨ c = 3)) Demo.demo).1 = Ret (Some 11).
Proof.
  split; [apply seen_reach, Demo.demo_reach|]. split_and!; vm_compute; reflexivity.
Qed.

(** ** C47: context and outermost_context *)
Lemma context_spec {W} (ch : chart) (Hwf : wf_chart ch = true) (s : mst W heapst) a x :
  R ch [] (core s) a → ∀ n c p, alive ch a (c, p) → c < n →
  match x with
  | None => context_impl ch n c p x s = (Ret ToMachine, s)
  | Some q => within ch q c → ∃ p', alive ch a (q, p') ∧ context_impl ch n c p x s = (Ret (ToState p'), s)
  end.
Proof.
  intros HR. induction n as [|n IH]; intros c p Hx Hn; [lia|].
  destruct (R_deref ch s a (c, p) HR Hx) as (o & Ho & _ & Hctx). simpl in Ho, Hctx.
  pose proof (ctx_spec ch a (c, p) (R_wf _ _ _ _ HR) Hx) as Hp. simpl in Hp.
  destruct x as [q|].
  - intros Hw. cbn [context_impl]. destruct (decide (q = c)) as [->|Hne].
    + rewrite bool_decide_true by done. by exists p.
    + rewrite bool_decide_false by congruence. unfold bind. rewrite Ho, Hctx. destruct Hw as [->|Hw]; [done|].
      destruct (parent ch c) as [d|] eqn:Ep.
      * destruct Hp as (p' & -> & Hp). pose proof (parent_lt ch Hwf _ _ Ep). simpl.
        specialize (IH d p' Hp). simpl in IH. apply IH; [lia|]. by eapply encloses_parent.
      * exfalso. inversion Hw; subst; congruence.
  - cbn [context_impl]. rewrite bool_decide_false by done. unfold bind. rewrite Ho, Hctx.
    destruct (parent ch c) as [d|] eqn:Ep.
    + destruct Hp as (p' & -> & Hp). pose proof (parent_lt ch Hwf _ _ Ep). simpl. apply (IH d p' Hp). lia.
    + rewrite Hp. done.
Qed.

Theorem C47_context {W} (ch : chart) (U : user W) s c p q :
  wf_chart ch = true → user_ok ch U → seen ch U s → active s (c, p) → within ch q c →
  ∃ p', active s (q, p') ∧ context ch c p (Some q) s = (Ret (ToState p'), s).
Proof.
  intros Hwf HU Hs Hx Hw. destruct (seen_tracks ch U Hwf HU s Hs) as (a & Ha & _). pose proof (bk_R _ _ _ Ha) as [HR _].
  pose proof (cm_good _ _ (sb_calm _ _ (bk_stable _ _ _ Ha))) as Hg. apply (active_alive ch _ _ _ Ha) in Hx.
  destruct (context_spec ch Hwf s (core a) (Some q) HR (depth_fuel ch) c p Hx) as (p' & Hp & H); [|done|].
  { pose proof (gd_decl _ _ _ Hg _ Hx). unfold depth_fuel. simpl in *. lia. }
  exists p'. split; [by eapply active_alive|done].
Qed.
Print Assumptions C47_context.
Theorem C47_outermost {W} (ch : chart) (U : user W) s c p :
  wf_chart ch = true → user_ok ch U → seen ch U s → active s (c, p) →
  outermost_context ch c p s = (Ret ToMachine, s).
Proof.
  intros Hwf HU Hs Hx. destruct (seen_tracks ch U Hwf HU s Hs) as (a & Ha & _). pose proof (bk_R _ _ _ Ha) as [HR _].
  pose proof (cm_good _ _ (sb_calm _ _ (bk_stable _ _ _ Ha))) as Hg. apply (active_alive ch _ _ _ Ha) in Hx.
  apply (context_spec ch Hwf s (core a) None HR (depth_fuel ch) c p Hx).
  pose proof (gd_decl _ _ _ Hg _ Hx). unfold depth_fuel. simpl in *. lia.
Qed.
Print Assumptions C47_outermost.
Example C47_example :
  seen Demo.chart5 Demo.U Demo.demo ∧ active Demo.demo (4, 16) ∧ within Demo.chart5 1 4 ∧
  (context Demo.chart5 4 16 (Some 1) Demo.demo).1 = Ret (ToState 14).
Proof.
  split; [apply seen_reach, Demo.demo_reach|]. split; [eexists; split; vm_compute; reflexivity|].
  split; [|vm_compute; reflexivity]. right.
  apply (encloses_step _ _ _ 3); [vm_compute; reflexivity|]. apply (encloses_direct Demo.chart5 3).
Qed.
