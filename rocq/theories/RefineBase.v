(** Relational reasoning about two machines, and the coupling relation between heap and abstract
    configuration. *)
From Verif Require Export Abs ChartFacts.

(** [sim P m m' Q E]: from [P]-related states, unless [m'] faults, [m] ends the same way in related
    states. *)
Definition sim {S T A B} (P : S → T → Prop) (m : M S A) (m' : M T B)
    (Q : A → B → S → T → Prop) (E : S → T → Prop) : Prop :=
  ∀ s t, P s t →
    match m' t with
    | (Ret b, t') => ∃ a s', m s = (Ret a, s') ∧ Q a b s' t'
    | (Exn x, t') => ∃ s', m s = (Exn x, s') ∧ E s' t'
    | (Fault _, _) => True
    | (Div, t') => ∃ s', m s = (Div, s') ∧ E s' t'
    end.

Local Ltac sim_fin :=
  match goal with H : ?m = _ ∧ _ |- _ => destruct H as [-> ?]; eauto end.

Section rules.
Context {S T : Type}.
Implicit Types P : S → T → Prop.
Implicit Types E : S → T → Prop.

Lemma sim_weaken {A B} P P' (m : M S A) (m' : M T B) (Q Q' : A → B → S → T → Prop) E E' :
  sim P' m m' Q' E' →
  (∀ s t, P s t → P' s t) →
  (∀ a b s t, Q' a b s t → Q a b s t) →
  (∀ s t, E' s t → E s t) →
  sim P m m' Q E.
Proof.
  intros H HP HQ HE s t Hst. specialize (H s t (HP _ _ Hst)).
  destruct (m' t) as [[b|x|f|] t']; naive_solver.
Qed.

Lemma sim_ret {A B} P (a : A) (b : B) (Q : A → B → S → T → Prop) E :
  (∀ s t, P s t → Q a b s t) → sim P (ret a) (ret b) Q E.
Proof. intros H s t Hst. simpl. eauto. Qed.

Lemma sim_throw {A B} P x (Q : A → B → S → T → Prop) E :
  (∀ s t, P s t → E s t) → sim P (throw x) (throw x) Q E.
Proof. intros H s t Hst. simpl. eauto. Qed.

Lemma sim_diverge {A B} P (Q : A → B → S → T → Prop) E :
  (∀ s t, P s t → E s t) → sim P diverge diverge Q E.
Proof. intros H s t Hst. simpl. eauto. Qed.

Lemma sim_faulty {A B} P (m : M S A) f (Q : A → B → S → T → Prop) E :
  sim P m (faulty f) Q E.
Proof. intros s t Hst. simpl. done. Qed.

Lemma sim_bind {A B A' B'} P (m : M S A) (m' : M T B) (k : A → M S A') (k' : B → M T B')
    (R : A → B → S → T → Prop) (Q : A' → B' → S → T → Prop) E :
  sim P m m' R E →
  (∀ a b, sim (R a b) (k a) (k' b) Q E) →
  sim P (bind m k) (bind m' k') Q E.
Proof.
  intros Hm Hk s t Hst. specialize (Hm s t Hst). unfold bind.
  destruct (m' t) as [[b|x|f|] t'].
  - destruct Hm as (a & s' & -> & HR). apply (Hk a b _ _ HR).
  - destruct Hm as (s' & -> & HE). eauto.
  - done.
  - destruct Hm as (s' & -> & HE). eauto.
Qed.

(** A step of the left machine alone. *)
Lemma sim_bind_l {A A' B'} P (m : M S A) (k : A → M S A') (m' : M T B')
    (R : A → S → T → Prop) (Q : A' → B' → S → T → Prop) E :
  (∀ s t, P s t → ∃ a s', m s = (Ret a, s') ∧ R a s' t) →
  (∀ a, sim (R a) (k a) m' Q E) →
  sim P (bind m k) m' Q E.
Proof.
  intros Hm Hk s t Hst. destruct (Hm s t Hst) as (a & s' & Heq & HR).
  specialize (Hk a s' t HR). unfold bind. rewrite Heq. done.
Qed.

(** A step of the right machine alone. *)
Lemma sim_bind_r {A B A'} P (m : M S A) (m' : M T B) (k' : B → M T A')
    (R : B → S → T → Prop) (Q : A → A' → S → T → Prop) E :
  (∀ s t, P s t →
     match m' t with (Ret b, t') => R b s t' | (Fault _, _) => True | _ => False end) →
  (∀ b, sim (R b) m (k' b) Q E) →
  sim P m (bind m' k') Q E.
Proof.
  intros Hm Hk s t Hst. specialize (Hm s t Hst). unfold bind.
  destruct (m' t) as [[b|x|f|] t']; try done. apply (Hk b _ _ Hm).
Qed.

Lemma sim_gets_r {A B A'} P (f : T → B) (m : M S A) (k' : B → M T A') (Q : A → A' → S → T → Prop) E :
  (∀ b, sim (λ s t, P s t ∧ b = f t) m (k' b) Q E) →
  sim P m (bind (gets f) k') Q E.
Proof.
  intros H. eapply (sim_bind_r _ _ _ _ (λ b s t, P s t ∧ b = f t)); [|apply H].
  intros s t Hst. simpl. done.
Qed.

Lemma sim_gets_l {A B A'} P (f : S → B) (m : M T A) (k : B → M S A') (Q : A' → A → S → T → Prop) E :
  (∀ b, sim (λ s t, P s t ∧ b = f s) (k b) m Q E) →
  sim P (bind (gets f) k) m Q E.
Proof.
  intros H. eapply (sim_bind_l _ _ _ _ (λ b s t, P s t ∧ b = f s)); [|apply H].
  intros s t Hst. simpl. eauto.
Qed.

Lemma sim_check_r {A B} P b f (m : M S A) (k : unit → M T B) (Q : A → B → S → T → Prop) E :
  (b = true → sim P m (k tt) Q E) → sim P m (bind (check b f) k) Q E.
Proof.
  intros H. destruct b; simpl.
  - intros s t Hst. unfold bind, ret. simpl. by apply H.
  - intros s t Hst. simpl. done.
Qed.

Lemma sim_finally {A B} P (m : M S A) (m' : M T B) c c' (R Q : A → B → S → T → Prop) E0 E :
  sim P m m' R E0 →
  (∀ a b, sim (R a b) c c' (λ _ _, Q a b) E) →
  sim E0 c c' (λ _ _, E) E →
  (∀ s t, P s t → match m' t with (Div, _) => False | _ => True end) →
  sim P (finally m c) (finally m' c') Q E.
Proof.
  intros Hm HQ HE HD s t Hst. pose proof (Hm s t Hst) as Hm'. specialize (HD s t Hst).
  unfold finally. destruct (m' t) as [[b|x|f|] t'].
  - destruct Hm' as (a & s' & -> & HR). specialize (HQ a b s' t' HR).
    destruct (c' t') as [[[]|y|g|] t'']; try done;
      repeat match goal with H : ∃ _, _ |- _ => destruct H as [? H] end; sim_fin.
  - destruct Hm' as (s' & -> & HR). specialize (HE s' t' HR).
    destruct (c' t') as [[[]|y|g|] t'']; try done;
      repeat match goal with H : ∃ _, _ |- _ => destruct H as [? H] end; sim_fin.
  - done.
  - done.
Qed.

Lemma sim_on_exn {A B} P (m : M S A) (m' : M T B) c c' (Q : A → B → S → T → Prop) E0 E :
  sim P m m' Q E0 →
  sim E0 c c' (λ _ _, E) E →
  (∀ s t, P s t → match m' t with (Div, _) => False | _ => True end) →
  sim P (on_exn m c) (on_exn m' c') Q E.
Proof.
  intros Hm HE HD s t Hst. pose proof (Hm s t Hst) as Hm'. specialize (HD s t Hst).
  unfold on_exn. destruct (m' t) as [[b|x|f|] t'].
  - destruct Hm' as (a & s' & -> & HR). eauto.
  - destruct Hm' as (s' & -> & HR). specialize (HE s' t' HR).
    destruct (c' t') as [[[]|y|g|] t'']; try done;
      repeat match goal with H : ∃ _, _ |- _ => destruct H as [? H] end; sim_fin.
  - done.
  - done.
Qed.

Lemma sim_catching {A B} P (m : M S A) (m' : M T B) h h' (Q : A → B → S → T → Prop) E0 E :
  sim P m m' Q E0 →
  (∀ x, sim E0 (h x) (h' x) Q E) →
  (∀ s t, P s t → match m' t with (Div, _) => False | _ => True end) →
  sim P (catching m h) (catching m' h') Q E.
Proof.
  intros Hm HE HD s t Hst. pose proof (Hm s t Hst) as Hm'. specialize (HD s t Hst).
  unfold catching. destruct (m' t) as [[b|x|f|] t'].
  - destruct Hm' as (a & s' & -> & HR). eauto.
  - destruct Hm' as (s' & -> & HR). apply (HE x s' t' HR).
  - done.
  - done.
Qed.

Lemma sim_iter {A B} P (f : A → M S unit) (g : B → M T unit) l l' E :
  Forall2 (λ a b, sim P (f a) (g b) (λ _ _, P) E) l l' →
  sim P (iter f l) (iter g l') (λ _ _, P) E.
Proof.
  induction 1 as [|a b l l' Hab _ IH]; simpl.
  - by apply sim_ret.
  - eapply sim_bind; [exact Hab|]. intros ? ?. apply IH.
Qed.
End rules.

(** ** The configuration invariants that hold at every moment *)
Section wfa.
Context (ch : chart).

Record wfa (H : list aid) (a : acore) : Prop := {
  wa_reg r x : occ a !! r = Some x → region ch x.1 = r;
  wa_par x q : alive ch a x → parent ch x.1 = Some q → ∃ pq, alive ch a (q, pq);
  wa_inj c c' p : alive ch a (c, p) → alive ch a (c', p) → c = c';
  wa_fresh x : alive ch a x → x.2 < anxt a;
  wa_dup : NoDup (ord a);
  wa_ord x : x ∈ ord a → alive ch a x ∧ is_leaf ch x.1 = true;
  wa_unst x : aunst a = Some x → alive ch a x;
  wa_H x : x ∈ H → alive ch a x;
  wa_dfr p : p ∈ dfr a → p < anxt a }.

Definition count_in (x : aid) (H : list aid) : nat := length (filter (eq x) H).
Definition b2n (b : bool) : nat := if b then 1 else 0.

(** The reference count [x] must have. *)
Definition refs (H : list aid) (a : acore) (x : aid) : nat :=
  length (kids ch a x.1) + b2n (bool_decide (x ∈ ord a))
  + b2n (bool_decide (aunst a = Some x)) + count_in x H.

Definition inner_of (a : acore) (c : cls) : list (option ptr) :=
  (λ k, snd <$> occ a !! (Some c, k)) <$> seq 0 (nreg ch c).

Definition absobj (H : list aid) (a : acore) (x : aid) (lp : option nat) : obj :=
  Obj x.1 (refs H a x) (Some (snd <$> ctx_of ch a x.1)) (inner_of a x.1) lp
      (bool_decide (x.2 ∈ dfr a)).

Definition lpos_ok (a : acore) (x : aid) (lp : option nat) : Prop :=
  ∀ i, ord a !! i = Some x → lp = Some i.

Record R (H : list aid) (s : heapst) (a : acore) : Prop := {
  R_wf : wfa H a;
  R_nxt : nxt s = anxt a;
  R_top : outermost s = snd <$> occ a !! (None, 0);
  R_unst : unst s = snd <$> aunst a;
  R_send : send s = length (ord a);
  R_len : length (ord a) ≤ length (slots s);
  R_slots i x : ord a !! i = Some x → slots s !! i = Some (Some x.2);
  R_null i y : length (ord a) ≤ i → slots s !! i = Some y → y = None;
  R_obj x : alive ch a x →
    ∃ lp, heap s !! x.2 = Some (absobj H a x lp) ∧ lpos_ok a x lp;
  R_dom p o : heap s !! p = Some o → alive ch a (o_cls o, p) }.

Lemma count_in_cons x y H : count_in x (y :: H) = b2n (bool_decide (x = y)) + count_in x H.
Proof.
  unfold count_in. rewrite filter_cons. destruct (decide (x = y)).
  - by rewrite bool_decide_true.
  - by rewrite bool_decide_false.
Qed.

Lemma count_in_nil x : count_in x [] = 0.
Proof. done. Qed.

Lemma count_in_0 x H : count_in x H = 0 ↔ x ∉ H.
Proof.
  induction H as [|y H IH]; [split; [by intros _ ?%elem_of_nil|done]|].
  rewrite count_in_cons, not_elem_of_cons, <-IH. unfold b2n.
  case_bool_decide; simpl; [split; [lia|by intros []]|split; [by intros|by intros []]].
Qed.

Lemma busy_refs H a x : busy ch H a x = false ↔ refs H a x = 0.
Proof.
  unfold busy, refs. rewrite !orb_false_iff.
  assert (bool_decide (x ∈ H) = false ↔ count_in x H = 0) as ->.
  { by rewrite bool_decide_eq_false, count_in_0. }
  assert (bool_decide (kids ch a x.1 ≠ []) = false ↔ length (kids ch a x.1) = 0) as ->.
  { rewrite bool_decide_eq_false. destruct (kids ch a x.1); simpl; [by split; auto|].
    split; [intros Hn; exfalso; by apply Hn|lia]. }
  unfold b2n. destruct (bool_decide (x ∈ ord a)), (bool_decide (aunst a = Some x)); simpl;
    split; intros; repeat split; try lia; intuition (try done; try lia).
Qed.

Lemma busy_refs_pos H a x : busy ch H a x = true ↔ 1 ≤ refs H a x.
Proof.
  pose proof (busy_refs H a x) as Hb. destruct (busy ch H a x).
  - split; [intros _|done]. destruct (refs H a x); [|lia]. destruct Hb as [_ Hb]. by specialize (Hb eq_refl).
  - split; [done|]. rewrite (proj1 Hb) by done. lia.
Qed.

Lemma busy_cons H a x : busy ch (x :: H) a x = true.
Proof.
  unfold busy. rewrite (bool_decide_true (x ∈ x :: H)); [by rewrite orb_true_r|]. left.
Qed.

Lemma R_lookup H s a x : R H s a → alive ch a x →
  ∃ o, heap s !! x.2 = Some o ∧ o_cls o = x.1 ∧ o_rc o = refs H a x
       ∧ o_ctx o = Some (snd <$> ctx_of ch a x.1) ∧ o_inner o = inner_of a x.1
       ∧ o_defer o = bool_decide (x.2 ∈ dfr a) ∧ lpos_ok a x (o_lpos o).
Proof.
  intros HR Hx. destruct (R_obj _ _ _ HR x Hx) as (lp & Hl & Hlp).
  eexists. split; [exact Hl|]. simpl. done.
Qed.

Lemma wfa_alive_inj H a x y : wfa H a → alive ch a x → alive ch a y → x.2 = y.2 → x = y.
Proof.
  destruct x as [c p], y as [c' p']; simpl. intros Hw Hx Hy <-.
  by rewrite (wa_inj _ _ Hw c c' p Hx Hy).
Qed.

Lemma ctx_of_alive H a c p q : wfa H a → alive ch a (c, p) → ctx_of ch a c = Some q →
  alive ch a q ∧ parent ch c = Some q.1.
Proof.
  unfold ctx_of. intros Hw Hx Hc. destruct (parent ch c) as [q0|] eqn:Hp; [|done].
  destruct (wa_par _ _ Hw (c, p) q0 Hx Hp) as [pq Hq]. unfold alive in Hq. simpl in Hq.
  rewrite Hq in Hc. injection Hc as <-. done.
Qed.

Lemma ctx_of_None H a c p : wfa H a → alive ch a (c, p) → ctx_of ch a c = None → parent ch c = None.
Proof.
  unfold ctx_of. intros Hw Hx Hc. destruct (parent ch c) as [q0|] eqn:Hp; [|done].
  destruct (wa_par _ _ Hw (c, p) q0 Hx Hp) as [pq Hq]. unfold alive in Hq. simpl in Hq.
  by rewrite Hq in Hc.
Qed.

Lemma leaves_eq H s a : R H s a → heap_leaves s = abs_leaves a.
Proof.
  intros HR. unfold heap_leaves, abs_leaves.
  assert (take (send s) (slots s) = (λ x : aid, Some x.2) <$> ord a) as ->.
  { apply list_eq. intros i. rewrite list_lookup_fmap.
    destruct (ord a !! i) as [x|] eqn:E; simpl.
    - rewrite lookup_take by (rewrite (R_send _ _ _ HR); by eapply lookup_lt_Some).
      by apply (R_slots _ _ _ HR).
    - apply lookup_ge_None_2. rewrite take_length, (R_send _ _ _ HR).
      apply lookup_ge_None in E. lia. }
  assert (∀ x, x ∈ ord a → o_cls <$> heap s !! x.2 = Some x.1) as Hl.
  { intros x Hx. apply (wa_ord _ _ (R_wf _ _ _ HR)) in Hx as [Hx _].
    destruct (R_lookup _ _ _ _ HR Hx) as (o & -> & Hc & _). simpl. by rewrite Hc. }
  induction (ord a) as [|x l IH]; simpl; [done|].
  rewrite Hl by left. simpl. f_equal. apply IH. intros y Hy. apply Hl. by right.
Qed.

End wfa.
