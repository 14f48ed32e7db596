(** How the coupling relation moves with the elementary heap operations. *)
From Verif Require Export RefineBase.

Section steps.
Context (ch : chart) (Hwf : wf_chart ch = true).
Notation alive := (alive ch).
Notation R := (R ch).
Notation wfa := (wfa ch).
Notation refs := (refs ch).
Notation kids := (kids ch).

Lemma R_heap_eq H s a x o : R H s a → alive a x → heap s !! x.2 = Some o →
  o = absobj ch H a x (o_lpos o) ∧ lpos_ok a x (o_lpos o).
Proof.
  intros HR Hx Ho. destruct (R_obj _ _ _ _ HR x Hx) as (lp & Hl & Hlp).
  rewrite Hl in Ho. injection Ho as <-. done.
Qed.

Lemma wfa_setH H H' a : wfa H a → (∀ y, y ∈ H' → alive a y) → wfa H' a.
Proof. intros [] ?. constructor; assumption. Qed.

(** Changing the references held on the stack. *)
Lemma R_setH H H' s a x o :
  R H s a → alive a x → heap s !! x.2 = Some o →
  (∀ y, y ≠ x → count_in y H = count_in y H') →
  (∀ y, y ∈ H' → alive a y) →
  R H' (set_heap (<[x.2 := set_rc (refs H' a x) o]> (heap s)) s) a.
Proof.
  intros HR Hx Ho Hc HH. pose proof (R_heap_eq _ _ _ _ _ HR Hx Ho) as [Ho' Hlp].
  pose proof (R_wf _ _ _ _ HR) as Hw.
  destruct HR as [_ ? ? ? ? ? ? ? Hobj Hdom].
  constructor; try assumption.
  - by eapply wfa_setH.
  - intros y Hy. simpl. destruct (decide (y = x)) as [->|Hne].
    + exists (o_lpos o). split; [|done]. rewrite lookup_insert. f_equal. by rewrite Ho' at 1.
    + destruct (Hobj y Hy) as (lp & Hl & Hlp'). exists lp. split; [|done].
      rewrite lookup_insert_ne.
      * rewrite Hl. f_equal. unfold absobj, refs. by rewrite (Hc y Hne).
      * intros Heq. apply Hne. by apply (wfa_alive_inj _ _ _ _ _ Hw).
  - simpl. intros p o'. destruct (decide (p = x.2)) as [->|Hne].
    + rewrite lookup_insert. intros [= <-]. simpl. rewrite Ho'. simpl. by destruct x.
    + rewrite lookup_insert_ne by done. apply Hdom.
Qed.

(** References moving between stack, list and unstable-state pointer. *)
Lemma R_move H H' s a a' :
  R H s a →
  occ a' = occ a → dfr a' = dfr a → anxt a' = anxt a → ord a' = ord a →
  (∀ x, aunst a' = Some x → alive a x) →
  (∀ y, y ∈ H' → alive a y) →
  (∀ x, alive a x → refs H a x = refs H' a' x) →
  R H' (set_unst (snd <$> aunst a') s) a'.
Proof.
  intros HR Ho Hd Hn Hor Hu HH Hr. destruct a as [oc df orr un nx], a' as [oc' df' or' un' nx'].
  simpl in *; subst. destruct HR as [[] ? ? ? ? ? ? ? Hobj Hdom]; simpl in *.
  constructor; try assumption; [by constructor|done|].
  intros x Hx. destruct (Hobj x Hx) as (lp & Hl & Hlp). exists lp. split; [|done].
  simpl. rewrite Hl. f_equal. unfold absobj. rewrite (Hr x Hx). done.
Qed.

Lemma omap_cons_eq {A B} (f : A → option B) x (l : list A) :
  omap f (x :: l) = match f x with Some y => y :: omap f l | None => omap f l end.
Proof. done. Qed.

Lemma omap_ext_in {A B} (f g : A → option B) (l : list A) :
  (∀ k, k ∈ l → f k = g k) → omap f l = omap g l.
Proof.
  intros H. induction l as [|x l IH]; [done|]. rewrite !omap_cons_eq, H by left.
  rewrite IH; [done|]. intros k Hk. apply H. by right.
Qed.

Lemma omap_length_change {A} (f g : nat → option A) (l : list nat) k v :
  NoDup l → k ∈ l → f k = None → g k = Some v → (∀ j, j ≠ k → f j = g j) →
  length (omap g l) = S (length (omap f l)).
Proof.
  intros Hnd Hk Hf Hg Heq. induction l as [|j l IH]; [by apply elem_of_nil in Hk|].
  apply NoDup_cons in Hnd as [Hj Hnd]. rewrite !omap_cons_eq.
  apply elem_of_cons in Hk as [<-|Hk].
  - rewrite Hf, Hg. simpl. f_equal. f_equal. apply omap_ext_in.
    intros i Hi. symmetry. apply Heq. by intros ->.
  - rewrite (Heq j) by (by intros ->). destruct (g j); simpl; rewrite IH by done; done.
Qed.

Lemma kids_other a a' c :
  (∀ k, occ a' !! (Some c, k) = occ a !! (Some c, k)) → kids a' c = kids a c.
Proof. intros H. unfold kids. apply omap_ext_in. intros k _. apply H. Qed.

Lemma kids_change a a' q k x :
  k < nreg ch q →
  occ a !! (Some q, k) = None → occ a' !! (Some q, k) = Some x →
  (∀ j, j ≠ k → occ a !! (Some q, j) = occ a' !! (Some q, j)) →
  length (kids a' q) = S (length (kids a q)).
Proof.
  intros Hk H1 H2 H3. unfold kids.
  apply (omap_length_change _ _ _ k x); try done.
  - apply NoDup_seq.
  - apply elem_of_seq. lia.
Qed.

Lemma inner_of_change a a' q k x :
  k < nreg ch q →
  occ a' !! (Some q, k) = x →
  (∀ j, j ≠ k → occ a !! (Some q, j) = occ a' !! (Some q, j)) →
  inner_of ch a' q = <[k := snd <$> x]> (inner_of ch a q).
Proof.
  intros Hk H2 H3. unfold inner_of. apply list_eq. intros i.
  destruct (decide (i = k)) as [->|Hne].
  - rewrite list_lookup_insert by (by rewrite fmap_length, seq_length).
    rewrite list_lookup_fmap, lookup_seq_lt by done. simpl. by rewrite H2.
  - rewrite list_lookup_insert_ne by done. rewrite !list_lookup_fmap.
    destruct (seq 0 (nreg ch q) !! i) as [j|] eqn:E; [|done]. simpl.
    apply lookup_seq in E as [-> Hi]. simpl. by rewrite H3.
Qed.

Lemma inner_of_other a a' c :
  (∀ k, occ a' !! (Some c, k) = occ a !! (Some c, k)) → inner_of ch a' c = inner_of ch a c.
Proof.
  intros H. unfold inner_of. apply list_fmap_ext. intros i k _. by rewrite H.
Qed.

Lemma kids_nil a c : kids a c = [] ↔ ∀ k, k < nreg ch c → occ a !! (Some c, k) = None.
Proof.
  unfold kids. split.
  - intros H k Hk. destruct (occ a !! (Some c, k)) as [x|] eqn:E; [|done].
    assert (x ∈ omap (λ k, occ a !! (Some c, k)) (seq 0 (nreg ch c))) as Hx.
    { apply elem_of_list_omap. exists k. split; [|done]. apply elem_of_seq. lia. }
    rewrite H in Hx. by apply elem_of_nil in Hx.
  - intros H. destruct (omap _ _) as [|x l] eqn:E; [done|].
    assert (x ∈ omap (λ k, occ a !! (Some c, k)) (seq 0 (nreg ch c))) as Hx.
    { rewrite E. left. }
    apply elem_of_list_omap in Hx as (k & Hk & Hx). apply elem_of_seq in Hk.
    rewrite H in Hx by lia. done.
Qed.

Lemma elem_of_kids H a c x : wfa H a →
  (x ∈ kids a c ↔ alive a x ∧ parent ch x.1 = Some c).
Proof.
  intros Hw. unfold kids. rewrite elem_of_list_omap. split.
  - intros (k & Hk & Hx). pose proof (wa_reg _ _ _ Hw _ _ Hx) as Hr. unfold region in Hr.
    injection Hr as Hp Hpos. split; [|done]. unfold Abs.alive, region. by rewrite Hp, Hpos.
  - intros [Hx Hp]. exists (pos ch x.1). split.
    + apply elem_of_seq. pose proof (pos_lt _ Hwf _ _ Hp). lia.
    + unfold Abs.alive, region in Hx. by rewrite Hp in Hx.
Qed.

(** The context's occupant does not change when another region changes. *)
Lemma ctx_of_other a a' c : (∀ q, parent ch c = Some q → occ a' !! region ch q = occ a !! region ch q) →
  ctx_of ch a' c = ctx_of ch a c.
Proof. unfold ctx_of. destruct (parent ch c); auto. Qed.

(** The configuration after the destruction of [x]. *)
Definition destroyed (x : aid) (a : acore) : acore :=
  set_dfr (dfr a ∖ {[x.2]}) (set_occ (delete (region ch x.1) (occ a)) a).

Lemma destroyed_alive H a x y : wfa H a → alive a x →
  (alive (destroyed x a) y ↔ alive a y ∧ y ≠ x).
Proof.
  intros Hw Hx. unfold Abs.alive, destroyed. simpl. split.
  - intros Hy. apply lookup_delete_Some in Hy as [Hne Hy]. split; [done|].
    intros ->. done.
  - intros [Hy Hne]. apply lookup_delete_Some. split; [|done].
    intros Heq. rewrite <-Heq in Hy. unfold Abs.alive in Hx. rewrite Hx in Hy. congruence.
Qed.

Lemma region_self_ne c k : parent ch c ≠ None ∨ True → ∀ q, parent ch c = Some q → (Some c, k) ≠ region ch c.
Proof.
  intros _ q Hp Heq. unfold region in Heq. injection Heq as Hc _. rewrite Hp in Hc.
  injection Hc as ->. apply (parent_lt _ Hwf) in Hp. lia.
Qed.

Lemma wfa_destroyed H a x :
  wfa (x :: H) a → alive a x → busy ch H a x = false →
  wfa (opt_list (ctx_of ch a x.1) ++ H) (destroyed x a).
Proof.
  intros Hw Hx Hb. pose proof (λ y, destroyed_alive _ _ x y Hw Hx) as Hal.
  assert (x ∉ H ∧ x ∉ ord a ∧ aunst a ≠ Some x ∧ kids a x.1 = []) as (HxH & Hxo & Hxu & Hxk).
  { unfold busy in Hb. rewrite !orb_false_iff, !bool_decide_eq_false in Hb.
    destruct Hb as [[[H1 H2] H3] H4]. split_and!; try done.
    destruct (kids a x.1); [done|]. exfalso. by apply H1. }
  split.
  - intros r y Hy. unfold destroyed in Hy. simpl in Hy. apply lookup_delete_Some in Hy as [_ Hy].
    by apply (wa_reg _ _ _ Hw).
  - intros y q Hy Hp. apply Hal in Hy as [Hy Hne].
    destruct (wa_par _ _ _ Hw y q Hy Hp) as [pq Hq]. exists pq.
    apply Hal. split; [done|]. intros <-.
    assert (y ∈ kids a q) as Hk by by apply (elem_of_kids _ _ _ _ Hw).
    simpl in Hxk. rewrite Hxk in Hk. by apply elem_of_nil in Hk.
  - intros c c' p [Hc _]%Hal [Hc' _]%Hal. by eapply (wa_inj _ _ _ Hw).
  - intros y [Hy _]%Hal. by apply (wa_fresh _ _ _ Hw).
  - apply (wa_dup _ _ _ Hw).
  - intros y Hy. destruct (wa_ord _ _ _ Hw y Hy) as [Hay Hl]. split; [|done].
    apply Hal. split; [done|]. by intros ->.
  - intros y Hy. apply Hal. split; [by apply (wa_unst _ _ _ Hw)|]. intros ->. done.
  - intros y [Hy|Hy]%elem_of_app.
    + destruct (ctx_of ch a x.1) as [q|] eqn:Hc; simpl in Hy; [|by apply elem_of_nil in Hy].
      apply elem_of_list_singleton in Hy as ->.
      destruct x as [c p]. destruct (ctx_of_alive _ _ _ _ _ _ Hw Hx Hc) as [Hq Hp].
      apply Hal. split; [done|]. intros ->. simpl in *.
      apply (parent_lt _ Hwf) in Hp. lia.
    + apply Hal. split; [apply (wa_H _ _ _ Hw); by right|]. by intros ->.
  - intros p Hp. unfold destroyed in Hp. simpl in Hp. apply elem_of_difference in Hp as [Hp _].
    by apply (wa_dfr _ _ _ Hw).
Qed.

(** Reference counts after the destruction: the context's reference from [x] is now held. *)
Lemma refs_destroyed H a x y :
  wfa (x :: H) a → alive a x → kids a x.1 = [] → alive a y → y ≠ x →
  refs (opt_list (ctx_of ch a x.1) ++ H) (destroyed x a) y = refs (x :: H) a y.
Proof.
  intros Hw Hx Hk Hy Hne. unfold RefineBase.refs. rewrite count_in_cons.
  rewrite (bool_decide_false (y = x)) by done. simpl.
  assert (∀ j, (Some y.1, j) ≠ region ch x.1 → occ (destroyed x a) !! (Some y.1, j) = occ a !! (Some y.1, j)) as Hoth.
  { intros j Hj. simpl. by rewrite lookup_delete_ne. }
  destruct (decide (parent ch x.1 = Some y.1)) as [Hp|Hp].
  - assert (ctx_of ch a x.1 = Some y) as ->.
    { unfold ctx_of. rewrite Hp. exact Hy. }
    simpl. rewrite count_in_cons, (bool_decide_true (y = y)) by done. simpl.
    assert (length (kids a y.1) = S (length (kids (destroyed x a) y.1))) as ->.
    { apply (kids_change _ _ _ (pos ch x.1) x).
      - by apply (pos_lt _ Hwf).
      - simpl. unfold region. rewrite Hp. apply lookup_delete.
      - unfold Abs.alive, region in Hx. by rewrite Hp in Hx.
      - intros j Hj. apply Hoth. unfold region. rewrite Hp. congruence. }
    lia.
  - assert (kids (destroyed x a) y.1 = kids a y.1) as ->.
    { apply kids_other. intros k. apply Hoth. unfold region. intros Heq. injection Heq as Heq _. congruence. }
    assert (count_in y (opt_list (ctx_of ch a x.1) ++ H) = count_in y H) as ->; [|done].
    destruct (ctx_of ch a x.1) as [q|] eqn:Hc; [|done]. simpl. rewrite count_in_cons.
    rewrite (bool_decide_false (y = q)); [done|]. intros ->.
    destruct x as [c p]. destruct (ctx_of_alive _ _ _ _ _ _ Hw Hx Hc) as [_ Hp']. done.
Qed.

Lemma destroyed_ctx H a x y : wfa (x :: H) a → alive a x → kids a x.1 = [] → alive a y →
  ctx_of ch (destroyed x a) y.1 = ctx_of ch a y.1.
Proof.
  intros Hw Hx Hk Hy. apply ctx_of_other. intros q Hq. simpl.
  apply lookup_delete_ne. intros Heq.
  destruct (wa_par _ _ _ Hw y q Hy Hq) as [pq Hq']. unfold Abs.alive in Hq'. simpl in Hq'.
  rewrite <-Heq in Hq'. unfold Abs.alive in Hx. rewrite Hx in Hq'. injection Hq' as ->. simpl in *.
  assert (y ∈ kids a q) as Hin by by apply (elem_of_kids _ _ _ _ Hw).
  rewrite Hk in Hin. by apply elem_of_nil in Hin.
Qed.

Lemma R_destroyed H s a x h' t' :
  R (x :: H) s a → alive a x → busy ch H a x = false →
  h' !! x.2 = None →
  (∀ p, p ≠ x.2 → h' !! p =
     match ctx_of ch a x.1 with
     | Some q => if decide (p = q.2)
                 then (λ o, set_inner (<[pos ch x.1 := None]> (o_inner o)) o) <$> heap s !! p
                 else heap s !! p
     | None => heap s !! p
     end) →
  t' = match ctx_of ch a x.1 with Some _ => outermost s | None => None end →
  R (opt_list (ctx_of ch a x.1) ++ H)
    (HeapSt h' (nxt s) (slots s) (send s) t' (unst s)) (destroyed x a).
Proof.
  intros HR Hx Hb Hh1 Hh2 Ht. pose proof (R_wf _ _ _ _ HR) as Hw.
  assert (kids a x.1 = []) as Hk.
  { unfold busy in Hb. rewrite !orb_false_iff, !bool_decide_eq_false in Hb.
    destruct Hb as [[[H1 _] _] _]. destruct (kids a x.1); [done|]. exfalso. by apply H1. }
  pose proof (λ y, destroyed_alive _ _ x y Hw Hx) as Hal.
  destruct HR as [_ Hn Htop Hu Hs Hlen Hsl Hnull Hobj Hdom].
  constructor; simpl; try assumption.
  - by apply wfa_destroyed.
  - destruct (ctx_of ch a x.1) as [q|] eqn:Hc; subst t'.
    + rewrite Htop. f_equal. symmetry. apply lookup_delete_ne. unfold region. intros Heq.
      injection Heq as Heq _. unfold ctx_of in Hc. rewrite Heq in Hc. done.
    + destruct x as [c p]. simpl in *.
      pose proof (ctx_of_None _ _ _ _ _ Hw Hx Hc) as Hp.
      unfold region. rewrite Hp, (pos_top _ Hwf _ Hp). by rewrite lookup_delete.
  - intros y [Hy Hne]%Hal.
    assert (y.2 ≠ x.2) as Hp.
    { intros Heq. apply Hne. by apply (wfa_alive_inj _ _ _ _ _ Hw). }
    destruct (Hobj y Hy) as (lp & Hl & Hlp). exists lp. split; [|done].
    rewrite Hh2, Hl by done.
    assert (absobj ch (x :: H) a y lp =
      set_inner (inner_of ch a y.1) (absobj ch (opt_list (ctx_of ch a x.1) ++ H) (destroyed x a) y lp)) as Habs.
    { unfold absobj, set_inner. simpl.
      rewrite refs_destroyed, (destroyed_ctx H) by done. f_equal. apply bool_decide_ext.
      rewrite elem_of_difference, elem_of_singleton. naive_solver. }
    rewrite Habs.
    destruct (ctx_of ch a x.1) as [q|] eqn:Hc.
    + destruct x as [c p]. simpl in Hc, Hp, Hh2, Habs. simpl.
      destruct (ctx_of_alive _ _ _ _ _ _ Hw Hx Hc) as [Hq Hpar].
      destruct (decide (y.2 = q.2)) as [Heq|Hneq]; simpl; f_equal.
      * assert (y = q) as -> by (by apply (wfa_alive_inj _ _ _ _ _ Hw)).
        unfold set_inner, absobj. simpl. f_equal. symmetry.
        apply (inner_of_change _ _ _ _ None).
        -- by apply (pos_lt _ Hwf).
        -- simpl. unfold region. rewrite Hpar. apply lookup_delete.
        -- intros j Hj. simpl. rewrite lookup_delete_ne; [done|]. unfold region. rewrite Hpar. congruence.
      * unfold set_inner, absobj. simpl. f_equal. symmetry. apply inner_of_other.
        intros k. simpl. apply lookup_delete_ne. unfold region. rewrite Hpar. intros Heq.
        injection Heq as Heq _. apply Hneq. f_equal.
        destruct y as [cy py], q as [cq pq]; simpl in *; subst. unfold Abs.alive in *; simpl in *. congruence.
    + f_equal. unfold set_inner, absobj. simpl. f_equal. symmetry. apply inner_of_other.
      intros k. simpl. apply lookup_delete_ne. unfold region.
      destruct x as [c p]. pose proof (ctx_of_None _ _ _ _ _ Hw Hx Hc) as Hpar. simpl. by rewrite Hpar.
  - intros p o Ho. destruct (decide (p = x.2)) as [->|Hne]; [by rewrite Hh1 in Ho|].
    rewrite Hh2 in Ho by done. apply Hal. split.
    + destruct (ctx_of ch a x.1) as [q|]; [|by apply Hdom].
      destruct (decide (p = q.2)); [|by apply Hdom].
      destruct (heap s !! p) as [o'|] eqn:E; [|done]. simpl in Ho. injection Ho as <-. simpl.
      by apply Hdom.
    + intros <-. done.
Qed.

(** The configuration after the construction of an object [x]. *)
Definition created (x : aid) (a : acore) : acore :=
  set_occ (<[region ch x.1 := x]> (occ a)) (set_anxt (x.2 + 1) a).

Lemma created_alive H a x y : wfa H a → occ a !! region ch x.1 = None →
  (alive (created x a) y ↔ alive a y ∨ y = x).
Proof.
  intros Hw Hx. unfold Abs.alive, created. simpl. split.
  - destruct (decide (region ch x.1 = region ch y.1)) as [Heq|Hne].
    + rewrite <-Heq, lookup_insert. intros [= ->]. by right.
    + rewrite lookup_insert_ne by done. by left.
  - intros [Hy| ->].
    + rewrite lookup_insert_ne; [done|]. intros Heq. rewrite <-Heq, Hx in Hy. done.
    + by rewrite lookup_insert.
Qed.

Lemma wfa_created H a c ctx :
  wfa H a → occ a !! region ch c = None → ctx_ok ch H a c ctx →
  wfa ((c, anxt a) :: H) (created (c, anxt a) a).
Proof.
  intros Hw Hx Hctx. set (x := (c, anxt a)).
  pose proof (λ y, created_alive _ _ x y Hw Hx) as Hal.
  assert (∀ y, alive a y → y.2 ≠ anxt a) as Hfr.
  { intros y Hy. pose proof (wa_fresh _ _ _ Hw y Hy). lia. }
  constructor; simpl.
  - intros r y Hy. apply lookup_insert_Some in Hy as [[<- <-]|[_ Hy]]; [done|].
    by apply (wa_reg _ _ _ Hw).
  - intros y q [Hy| ->]%Hal Hp.
    + destruct (wa_par _ _ _ Hw y q Hy Hp) as [pq Hq]. exists pq. apply Hal. by left.
    + simpl in Hp. unfold ctx_ok in Hctx. rewrite Hp in Hctx.
      destruct ctx as [[q' pq]|]; [|done]. destruct Hctx as (Heq & Hq & _). simpl in Heq. subst q'.
      exists pq. apply Hal. by left.
  - intros c1 c2 p [H1|H1]%Hal [H2|H2]%Hal.
    + by eapply (wa_inj _ _ _ Hw).
    + injection H2 as -> ->. by apply Hfr in H1.
    + injection H1 as -> ->. by apply Hfr in H2.
    + congruence.
  - intros y [Hy| ->]%Hal; [|simpl; lia]. pose proof (wa_fresh _ _ _ Hw y Hy). lia.
  - apply (wa_dup _ _ _ Hw).
  - intros y Hy. destruct (wa_ord _ _ _ Hw y Hy). split; [|done]. apply Hal. by left.
  - intros y Hy. apply Hal. left. by apply (wa_unst _ _ _ Hw).
  - intros y [->|Hy]%elem_of_cons; apply Hal; [by right|left]. by apply (wa_H _ _ _ Hw).
  - intros p Hp. pose proof (wa_dfr _ _ _ Hw p Hp). lia.
Qed.

Lemma created_kids_nil H a c : wfa H a → occ a !! region ch c = None →
  kids (created (c, anxt a) a) c = [].
Proof.
  intros Hw Hx. apply kids_nil. intros k Hk. simpl.
  rewrite lookup_insert_ne.
  - destruct (occ a !! (Some c, k)) as [y|] eqn:E; [|done].
    pose proof (wa_reg _ _ _ Hw _ _ E) as Hr.
    assert (alive a y) as Hy by (unfold Abs.alive; by rewrite Hr).
    destruct (wa_par _ _ _ Hw y c Hy) as [pc Hc]; [unfold region in Hr; congruence|].
    unfold Abs.alive in Hc. simpl in Hc. congruence.
  - unfold region. intros Heq. injection Heq as Heq _.
    apply (parent_lt _ Hwf) in Heq. lia.
Qed.

Lemma R_created H s a c ctx h' :
  R H s a → occ a !! region ch c = None → ctx_ok ch H a c ctx →
  h' !! anxt a = Some (Obj c 1 (Some (snd <$> ctx)) (replicate (nreg ch c) None) None false) →
  (∀ p, p ≠ anxt a → h' !! p =
     match ctx with
     | Some q => if decide (p = q.2)
                 then (λ o, set_inner (<[pos ch c := Some (anxt a)]> (o_inner o)) (set_rc (o_rc o + 1) o)) <$> heap s !! p
                 else heap s !! p
     | None => heap s !! p
     end) →
  R ((c, anxt a) :: H)
    (HeapSt h' (nxt s + 1) (slots s) (send s)
       (match ctx with Some _ => outermost s | None => Some (anxt a) end) (unst s))
    (created (c, anxt a) a).
Proof.
  intros HR Hx Hctx Hh1 Hh2. pose proof (R_wf _ _ _ _ HR) as Hw. set (x := (c, anxt a)).
  pose proof (λ y, created_alive _ _ x y Hw Hx) as Hal.
  assert (∀ y, alive a y → y.2 ≠ anxt a) as Hfr.
  { intros y Hy. pose proof (wa_fresh _ _ _ Hw y Hy). lia. }
  pose proof (wfa_created _ _ _ _ Hw Hx Hctx) as Hw'.
  destruct HR as [_ Hn Htop Hu Hs Hlen Hsl Hnull Hobj Hdom].
  assert (ctx_of ch a c = ctx) as Hcc.
  { unfold ctx_ok in Hctx. unfold ctx_of. destruct (parent ch c), ctx as [[q pq]|]; try done.
    destruct Hctx as (<- & Hq & _). done. }
  assert (∀ y, alive a y → ctx_of ch (created x a) y.1 = ctx_of ch a y.1) as Hcy.
  { intros y Hy. apply ctx_of_other. intros q Hq. simpl. apply lookup_insert_ne. intros Heq.
    destruct (wa_par _ _ _ Hw y q Hy Hq) as [pq Hq']. unfold Abs.alive in Hq'. simpl in Hq'.
    rewrite <-Heq, Hx in Hq'. done. }
  constructor; simpl; try assumption.
  - congruence.
  - unfold ctx_ok in Hctx. destruct ctx as [q|].
    + rewrite Htop. f_equal. symmetry. apply lookup_insert_ne. unfold region.
      destruct (parent ch c); [congruence|done].
    + unfold region. destruct (parent ch c) eqn:Hp; [done|].
      rewrite (pos_top _ Hwf _ Hp). by rewrite lookup_insert.
  - intros y [Hy| ->]%Hal.
    + destruct (Hobj y Hy) as (lp & Hl & Hlp). exists lp. split; [|done].
      rewrite Hh2, Hl by by apply Hfr.
      assert (bool_decide (y = x) = false) as Hyx.
      { apply bool_decide_false. intros ->. by apply (Hfr x Hy). }
      assert (∀ q k, region ch c ≠ (q, k) → occ (created x a) !! (q, k) = occ a !! (q, k)) as Hoth.
      { intros q k Hqk. simpl. by rewrite lookup_insert_ne. }
      assert (parent ch c ≠ Some y.1 →
              absobj ch (x :: H) (created x a) y lp = absobj ch H a y lp) as Hother.
      { intros Hpar. unfold absobj. rewrite Hcy by done.
        assert (∀ k, occ (created x a) !! (Some y.1, k) = occ a !! (Some y.1, k)) as Ho.
        { intros k. apply Hoth. unfold region. congruence. }
        f_equal.
        - unfold RefineBase.refs. rewrite count_in_cons, Hyx. simpl. by rewrite (kids_other a).
        - by apply inner_of_other. }
      destruct ctx as [q|].
      * unfold ctx_ok in Hctx. destruct (parent ch c) as [q0|] eqn:Hp; [|done].
        destruct Hctx as (<- & Hq & HqH).
        destruct (decide (y.2 = q.2)) as [Heq|Hneq]; simpl; f_equal.
        -- assert (y = q) as -> by (by apply (wfa_alive_inj _ _ _ _ _ Hw)).
           unfold set_inner, set_rc, absobj. simpl. f_equal.
           ++ unfold RefineBase.refs. rewrite count_in_cons, Hyx. simpl.
              rewrite (kids_change a (created x a) _ (pos ch c) x).
              ** lia.
              ** by apply (pos_lt _ Hwf).
              ** unfold region in Hx. by rewrite Hp in Hx.
              ** simpl. unfold region. rewrite Hp. by rewrite lookup_insert.
              ** intros j Hj. symmetry. apply Hoth. unfold region. rewrite Hp. congruence.
           ++ f_equal. f_equal. symmetry. by apply Hcy.
           ++ symmetry. apply (inner_of_change a (created x a) _ _ (Some x)).
              ** by apply (pos_lt _ Hwf).
              ** simpl. unfold region. rewrite Hp. by rewrite lookup_insert.
              ** intros j Hj. symmetry. apply Hoth. unfold region. rewrite Hp. congruence.
        -- symmetry. apply Hother. intros Heq. apply Hneq.
           destruct y as [cy py], q as [cq pq]; simpl in *. unfold Abs.alive in *; simpl in *.
           congruence.
      * f_equal. symmetry. apply Hother. unfold ctx_ok in Hctx. by destruct (parent ch c).
    + exists None. split.
      * change (x.2) with (anxt a). rewrite Hh1. f_equal. unfold absobj. simpl. f_equal.
        -- assert (kids (created x a) x.1 = []) as Hk0 by exact (created_kids_nil H a c Hw Hx).
           unfold RefineBase.refs. rewrite count_in_cons, Hk0. simpl.
           rewrite (bool_decide_true (x = x)), (bool_decide_false (x ∈ ord a)), (bool_decide_false (aunst a = Some x));
             try done.
           ++ simpl. assert (count_in x H = 0) as ->; [|done]. apply count_in_0.
              intros Hin. apply (wa_H _ _ _ Hw) in Hin. by apply (Hfr x Hin).
           ++ intros Hun. apply (wa_unst _ _ _ Hw) in Hun. by apply (Hfr x Hun).
           ++ intros Hin. apply (wa_ord _ _ _ Hw) in Hin as [Hin _]. by apply (Hfr x Hin).
        -- f_equal. f_equal. rewrite <-Hcc. symmetry. apply ctx_of_other. intros q Hq. simpl.
           apply lookup_insert_ne. unfold ctx_ok in Hctx. rewrite Hq in Hctx.
           destruct ctx as [[q' pq]|]; [|done]. destruct Hctx as (Heq & Hq' & _). simpl in Heq. subst q'.
           intros Heq. unfold Abs.alive in Hq'. simpl in Hq'. rewrite <-Heq, Hx in Hq'. done.
        -- pose proof (created_kids_nil H a c Hw Hx) as Hk. rewrite kids_nil in Hk.
           apply list_eq. intros i. unfold inner_of. rewrite list_lookup_fmap.
           destruct (decide (i < nreg ch c)).
           ++ rewrite lookup_replicate_2, lookup_seq_lt by done.
              change (Some (@None nat) = Some (snd <$> occ (created (c, anxt a) a) !! (Some c, i))).
              rewrite (Hk i) by done. done.
           ++ rewrite (lookup_ge_None_2 (replicate _ _)), (lookup_ge_None_2 (seq _ _)); [done| |].
              ** rewrite seq_length. lia.
              ** rewrite replicate_length. lia.
        -- symmetry. apply bool_decide_false. intros Hin. apply (wa_dfr _ _ _ Hw) in Hin. lia.
      * intros i Hi. exfalso. apply elem_of_list_lookup_2 in Hi.
        apply (wa_ord _ _ _ Hw) in Hi as [Hi _]. by apply (Hfr x Hi).
  - intros p o Ho. apply Hal. destruct (decide (p = anxt a)) as [->|Hne].
    + rewrite Hh1 in Ho. injection Ho as <-. by right.
    + left. rewrite Hh2 in Ho by done. destruct ctx as [q|]; [|by apply Hdom].
      destruct (decide (p = q.2)); [|by apply Hdom].
      destruct (heap s !! p) as [o'|] eqn:E; [|done]. simpl in Ho. injection Ho as <-. simpl.
      by apply Hdom.
Qed.

End steps.
