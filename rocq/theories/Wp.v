(** Weakest preconditions for computations that must end by returning or throwing, and the effect of
    calls to user code. *)
From Verif Require Export Abs Spec CommonContext.

Definition wp {S A} (m : M S A) (Q : A → S → Prop) (E : exn → S → Prop) (s : S) : Prop :=
  match m s with
  | (Ret a, s') => Q a s'
  | (Exn x, s') => E x s'
  | _ => False
  end.

Section rules.
Context {S : Type}.

Lemma wp_mono {A} (m : M S A) (Q Q' : A → S → Prop) (E E' : exn → S → Prop) s :
  wp m Q E s → (∀ a s', Q a s' → Q' a s') → (∀ x s', E x s' → E' x s') → wp m Q' E' s.
Proof. unfold wp. destruct (m s) as [[] ?]; auto. Qed.
Lemma wp_ret {A} (a : A) (Q : A → S → Prop) E s : Q a s → wp (ret a) Q E s.
Proof. done. Qed.
Lemma wp_throw {A} x (Q : A → S → Prop) (E : exn → S → Prop) s : E x s → wp (throw x) Q E s.
Proof. done. Qed.
Lemma wp_gets {A} (f : S → A) (Q : A → S → Prop) E s : Q (f s) s → wp (gets f) Q E s.
Proof. done. Qed.
Lemma wp_modify (f : S → S) (Q : unit → S → Prop) E s : Q tt (f s) → wp (modify f) Q E s.
Proof. done. Qed.
Lemma wp_bind {A B} (m : M S A) (k : A → M S B) Q E s :
  wp m (λ a s', wp (k a) Q E s') E s → wp (bind m k) Q E s.
Proof. unfold wp, bind. destruct (m s) as [[] ?]; auto. Qed.
Lemma wp_bind' {A B} (m : M S A) (k : A → M S B) (Q : A → S → Prop) Q' E s :
  wp m Q E s → (∀ a s', Q a s' → wp (k a) Q' E s') → wp (bind m k) Q' E s.
Proof. intros H Hk. apply wp_bind. eapply wp_mono; [exact H| |]; auto. Qed.
Lemma wp_seq {A B} (m : M S A) (k : A → M S B) (Q : A → S → Prop) (E : exn → S → Prop) Q' E' s :
  wp m Q E s → (∀ a s', Q a s' → wp (k a) Q' E' s') → (∀ x s', E x s' → E' x s') →
  wp (bind m k) Q' E' s.
Proof. intros H Hk HE. apply wp_bind. eapply wp_mono; [exact H| |]; auto. Qed.
Lemma wp_check b f (Q : unit → S → Prop) E s : b = true → Q tt s → wp (check b f) Q E s.
Proof. intros ->. done. Qed.
Lemma wp_when b (m : M S unit) (Q : unit → S → Prop) E s :
  (b = true → wp m Q E s) → (b = false → Q tt s) → wp (when b m) Q E s.
Proof. intros H1 H2. destruct b; [by apply H1|by apply H2]. Qed.
Lemma wp_catching {A} (m : M S A) h Q (E : exn → S → Prop) s :
  wp m Q (λ x s', wp (h x) Q E s') s → wp (catching m h) Q E s.
Proof. unfold wp, catching. destruct (m s) as [[] ?]; auto. Qed.
Lemma wp_finally {A} (m : M S A) c Q (E : exn → S → Prop) s :
  wp m (λ a s', wp c (λ _, Q a) E s') (λ x s', wp c (λ _, E x) (λ _ _, False) s') s →
  wp (finally m c) Q E s.
Proof.
  unfold wp, finally. destruct (m s) as [[] s']; auto; destruct (c s') as [[] ?]; auto.
Qed.
Lemma wp_on_exn {A} (m : M S A) c Q (E : exn → S → Prop) s :
  wp m Q (λ x s', wp c (λ _, E x) (λ _ _, False) s') s →
  wp (on_exn m c) Q E s.
Proof.
  unfold wp, on_exn. destruct (m s) as [[] s']; auto; destruct (c s') as [[] ?]; auto.
Qed.
Lemma wp_iter_nil {A} (f : A → M S unit) (Q : unit → S → Prop) E s : Q tt s → wp (iter f []) Q E s.
Proof. done. Qed.
Lemma wp_iter_cons {A} (f : A → M S unit) a l Q E s :
  wp (f a) (λ _ s', wp (iter f l) Q E s') E s → wp (iter f (a :: l)) Q E s.
Proof. apply wp_bind. Qed.

Lemma wp_and {A} (m : M S A) Q Q' (E E' : exn → S → Prop) s :
  wp m Q E s → wp m Q' E' s → wp m (λ a s', Q a s' ∧ Q' a s') (λ x s', E x s' ∧ E' x s') s.
Proof. unfold wp. destruct (m s) as [[] ?]; auto. Qed.
Lemma wp_ret_inv {A} (m : M S A) Q E s a s' : wp m Q E s → m s = (Ret a, s') → Q a s'.
Proof. unfold wp. intros H Heq. by rewrite Heq in H. Qed.
Lemma wp_exn_inv {A} (m : M S A) Q E s x s' : wp m Q E s → m s = (Exn x, s') → E x s'.
Proof. unfold wp. intros H Heq. by rewrite Heq in H. Qed.
Lemma wp_eq {A} (m m' : M S A) Q E s : m s = m' s → wp m' Q E s → wp m Q E s.
Proof. unfold wp. by intros ->. Qed.

Lemma iter_app {A} (f : A → M S unit) l l' s : iter f (l ++ l') s = (iter f l ;! iter f l') s.
Proof.
  revert s. induction l as [|a l IH]; intros s; [done|]. simpl. unfold bind.
  destruct (f a s) as [[] s1]; try done. rewrite IH. unfold bind. done.
Qed.
End rules.

Section env_rules.
Context {W X : Type}.
Notation S := (mst W X).
Lemma wp_on_env (f : env W → env W) (Q : unit → S → Prop) E s :
  Q tt (MSt (core s) (f (en s))) → wp (on_env f) Q E s.
Proof. done. Qed.
Lemma wp_on_core (f : X → X) (Q : unit → S → Prop) E s :
  Q tt (MSt (f (core s)) (en s)) → wp (on_core f) Q E s.
Proof. done. Qed.
Lemma wp_emit k (Q : unit → S → Prop) E s :
  Q tt (MSt (core s) (log k (en s))) → wp (emit k) Q E s.
Proof. done. Qed.
Lemma mst_eta (s : S) : MSt (core s) (en s) = s.
Proof. by destruct s. Qed.
End env_rules.

Lemma wp_assert {W} (P : Prop) `{Decision P} (Q : unit → mst W acore → Prop) E s :
  P → Q tt s → wp (assert P) Q E s.
Proof. intros HP HQ. unfold assert. apply wp_check; [by apply bool_decide_eq_true|done]. Qed.

(** ** Calls and callbacks that change the configuration *)
Definition is_life (k : okind) : bool :=
  match k with
  | OCtor _ _ | OCtorThrow _ _ | OExit _ _ | ODtor _ _ | OAction _ _ _ | OHistS _ _ | OHistD _ _ => true
  | _ => false
  end.
(** The constructors, exit functions, destructors, transition actions and history lookups in a trace. *)
Definition life (t : list obs) : list okind := filter (λ k, is_life k = true) (map ob t).

Lemma life_app t t' : life (t ++ t') = life t ++ life t'.
Proof. unfold life. by rewrite map_app, filter_app. Qed.
Lemma life_snoc t b k : life (t ++ [Obs b k]) = life t ++ (if is_life k then [k] else []).
Proof.
  rewrite life_app. f_equal. unfold life. cbn [map ob]. rewrite filter_cons.
  destruct (is_life k) eqn:E.
  - rewrite decide_True by done. done.
  - rewrite decide_False by done. done.
Qed.

Section evo.
Context {W : Type} (ch : chart).

(** Recorded history names states of the region it is recorded for. *)
Definition hist_ok (v : env W) : Prop :=
  (∀ r h, shallow_map v !! r = Some (Some h) → region ch h = r) ∧
  (∀ r l, deep_map v !! r = Some (Some l) →
    encloses ch r.1 l ∧ region ch (hd l (path_below ch r.1 l)) = r).

(** What is recorded while states are entered and left without an exception. *)
Definition quiet (k : okind) : bool :=
  match k with
  | OPost _ | ORelease | OClearS _ _ | OClearD _ _ => true
  | _ => is_life k
  end.

(** The environment evolves without an exception; [L] are the new lifecycle entries. *)
Record evo (L : list okind) (v v' : env W) : Prop := {
  evo_ext : ∃ T, trace v' = trace v ++ T ∧ life T = L ∧
    Forall (λ o, ob_trig o = trig v ∧ quiet (ob o) = true) T;
  evo_trig : trig v' = trig v;
  evo_full : full v' = full v;
  evo_hist : hist_ok v → hist_ok v' }.

Lemma evo_life L v v' : evo L v v' → life (trace v') = life (trace v) ++ L.
Proof. intros [(T & -> & <- & _) _ _ _]. apply life_app. Qed.
Lemma evo_same v v' : trace v' = trace v → trig v' = trig v → full v' = full v →
  (hist_ok v → hist_ok v') → evo [] v v'.
Proof. intros Ht. split; [|done..]. exists []. by rewrite app_nil_r. Qed.
Lemma evo_refl v : evo [] v v.
Proof. by apply evo_same. Qed.
Lemma evo_trans L L' v v1 v2 : evo L v v1 → evo L' v1 v2 → evo (L ++ L') v v2.
Proof.
  intros [(T & Ht & Hl & HT) H1 H2 H3] [(T' & Ht' & Hl' & HT') H1' H2' H3'].
  split; [|congruence|congruence|auto]. exists (T ++ T'). split_and!.
  - by rewrite Ht', Ht, app_assoc.
  - by rewrite life_app, Hl, Hl'.
  - apply Forall_app. split; [done|]. by rewrite H1 in HT'.
Qed.
Lemma evo_trans_l L v v1 v2 : evo [] v v1 → evo L v1 v2 → evo L v v2.
Proof. intros H1 H2. apply (evo_trans [] L _ _ _ H1 H2). Qed.
Lemma evo_trans_r L v v1 v2 : evo L v v1 → evo [] v1 v2 → evo L v v2.
Proof. intros H1 H2. rewrite <-(app_nil_r L). by eapply evo_trans. Qed.
Lemma evo_log k v : quiet k = true → evo (if is_life k then [k] else []) v (log k v).
Proof.
  intros Hk. split; [|done..]. exists [Obs (trig v) k]. split_and!; [done| |by repeat constructor].
  apply (life_snoc []).
Qed.
Lemma evo_log0 k v : quiet k = true → is_life k = false → evo [] v (log k v).
Proof. intros Hq Hk. pose proof (evo_log k v Hq) as H. by rewrite Hk in H. Qed.
Lemma evo_log1 k v : is_life k = true → evo [k] v (log k v).
Proof.
  intros Hk. assert (quiet k = true) as Hq by by destruct k.
  pose proof (evo_log k v Hq) as H. by rewrite Hk in H.
Qed.

(** What is recorded for state objects after an exception was thrown. *)
Definition fading (k : okind) : bool :=
  match k with ODtor _ _ | OCtorThrow _ _ => true | _ => false end.

(** An allocator throws, if at all; history may have been recorded in part. *)
Definition refuse (g : option asite) (v : env W) : env W :=
  match g with
  | None => v
  | Some (ARecord c x) => log (ORefused (ARecord c x)) (store_part ch c x v)
  | Some a => log (ORefused a) v
  end.
Lemma store_part_fields c x (v : env W) : trace (store_part ch c x v) = trace v ∧ trig (store_part ch c x v) = trig v ∧
  full (store_part ch c x v) = full v ∧ ico (store_part ch c x v) = ico v ∧
  queue (store_part ch c x v) = queue v ∧ deferred (store_part ch c x v) = deferred v ∧
  world (store_part ch c x v) = world v ∧ sights (store_part ch c x v) = sights v.
Proof. destruct x; [|done]. unfold store_part, store_upto. by destruct (stores_shallow _ _), (stores_deep _ _). Qed.
Lemma refuse_fields g (v : env W) : trig (refuse g v) = trig v ∧ full (refuse g v) = full v ∧ ico (refuse g v) = ico v ∧
  queue (refuse g v) = queue v ∧ deferred (refuse g v) = deferred v ∧ sights (refuse g v) = sights v ∧
  trace (refuse g v) = trace v ++ match g with None => [] | Some a => [Obs (trig v) (ORefused a)] end.
Proof.
  destruct g as [[c|c|c x|e]|]; [done|done| |done|simpl; by rewrite app_nil_r].
  unfold refuse. destruct (store_part_fields c x v) as (E1 & E2 & E3 & E4 & E5 & E6 & E7 & E8).
  unfold log. simpl. by rewrite E1, E2.
Qed.
Lemma refuse_trace g k (v : env W) : trace (log k (refuse g v)) =
  trace v ++ match g with None => [] | Some a => [Obs (trig v) (ORefused a)] end ++ [Obs (trig v) k].
Proof.
  destruct (refuse_fields g v) as (E1 & _ & _ & _ & _ & _ & E2). unfold log. simpl. by rewrite E1, E2, <-app_assoc.
Qed.

(** The environment evolves until the exception [x] is thrown, by the allocator if [g] says so; after that state
    objects are only destroyed. *)
Definition evx (x : exn) (g : option asite) (L L' : list okind) (v v' : env W) : Prop :=
  ∃ v1, evo L v v1 ∧ evo L' (log (OThrow x) (refuse g v1)) v' ∧ Forall (λ k, fading k = true) L'.

Lemma evx_throw x g v : evx x g [] [] v (log (OThrow x) (refuse g v)).
Proof. exists v. split_and!; [apply evo_refl..|constructor]. Qed.
Lemma evx_before x g L0 L L' v0 v v' : evo L0 v0 v → evx x g L L' v v' → evx x g (L0 ++ L) L' v0 v'.
Proof. intros H0 (v1 & H1 & H2 & H3). exists v1. split_and!; [by eapply evo_trans|done..]. Qed.
Lemma evx_before0 x g L L' v0 v v' : evo [] v0 v → evx x g L L' v v' → evx x g L L' v0 v'.
Proof. intros H0 H1. apply (evx_before _ _ _ _ _ _ _ _ H0 H1). Qed.
Lemma evx_after x g L L' L0 v v' v0 : evx x g L L' v v' → evo L0 v' v0 →
  Forall (λ k, fading k = true) L0 → evx x g L (L' ++ L0) v v0.
Proof.
  intros (v1 & H1 & H2 & H3) H0 HL. exists v1. split_and!; [done|by eapply evo_trans|].
  by apply Forall_app.
Qed.
Lemma evx_trig x g L L' v v' : evx x g L L' v v' → trig v' = trig v.
Proof. intros (v1 & H1 & H2 & _). rewrite (evo_trig _ _ _ H2). simpl. rewrite (proj1 (refuse_fields g v1)). apply (evo_trig _ _ _ H1). Qed.
Lemma evx_full x g L L' v v' : evx x g L L' v v' → full v' = full v.
Proof. intros (v1 & H1 & H2 & _). rewrite (evo_full _ _ _ H2). simpl. rewrite (proj1 (proj2 (refuse_fields g v1))). apply (evo_full _ _ _ H1). Qed.
Lemma evx_life x g L L' v v' : evx x g L L' v v' → life (trace v') = life (trace v) ++ L ++ L'.
Proof.
  intros (v1 & H1 & H2 & _). rewrite (evo_life _ _ _ H2). simpl.
  assert (life (trace (refuse g v1)) = life (trace v1)) as E.
  { destruct (refuse_fields g v1) as (_ & _ & _ & _ & _ & _ & ->). rewrite life_app. destruct g; simpl; [|by rewrite app_nil_r].
    unfold life. simpl. by rewrite app_nil_r. }
  rewrite life_snoc, E, (evo_life _ _ _ H1). simpl. by rewrite app_nil_r, app_assoc.
Qed.

(** What a piece of user code can do to the environment. *)
Record ustep (v v' : env W) : Prop := {
  us_evo : evo [] v v';
  us_ico : ico v' = ico v;
  us_def : deferred v' = deferred v }.

Lemma ustep_refl v : ustep v v.
Proof. split; [apply evo_refl|done..]. Qed.
Lemma ustep_trans v v1 v2 : ustep v v1 → ustep v1 v2 → ustep v v2.
Proof. intros [] []. split; [by eapply evo_trans_l|congruence|congruence]. Qed.
Lemma ustep_log k v : quiet k = true → is_life k = false → ustep v (log k v).
Proof. split; [by apply evo_log0|done..]. Qed.

Lemma hist_ok_clear_shallow r v :
  hist_ok v → hist_ok (set_shallow (<[r := None]> (shallow_map v)) v).
Proof.
  intros [H1 H2]. split; simpl; [|done]. intros r' h Hr.
  destruct (decide (r' = r)) as [->|]; [by rewrite lookup_insert in Hr|].
  rewrite lookup_insert_ne in Hr by done. by apply H1.
Qed.
Lemma hist_ok_clear_deep r v :
  hist_ok v → hist_ok (set_deep (<[r := None]> (deep_map v)) v).
Proof.
  intros [H1 H2]. split; simpl; [done|]. intros r' h Hr.
  destruct (decide (r' = r)) as [->|]; [by rewrite lookup_insert in Hr|].
  rewrite lookup_insert_ne in Hr by done. by apply H2.
Qed.

Context {X : Type}.
Notation S := (mst W X).

Lemma wp_do_cmd x (s : S) :
  cmd_ok ch x = true →
  wp (do_cmd ch x) (λ _ s', core s' = core s ∧ ustep (en s) (en s')) (λ _ _, False) s.
Proof.
  destruct x as [e|c k|c k]; cbn [cmd_ok do_cmd]; intros Hok.
  - apply wp_on_env. split; [done|]. unfold do_post. simpl. destruct s as [x v]. simpl.
    split; [|done..]. eapply evo_trans_l; [by apply (evo_log0 (OPost e))|]. by apply evo_same.
  - rewrite Hok. apply wp_on_env. split; [done|]. simpl. split; [|done..].
    eapply evo_trans_l; [by apply (evo_log0 (OClearS c k))|]. apply evo_same; [done..|].
    intros Hh. by apply (hist_ok_clear_shallow _ _ Hh).
  - rewrite Hok. apply wp_on_env. split; [done|]. simpl. split; [|done..].
    eapply evo_trans_l; [by apply (evo_log0 (OClearD c k))|]. apply evo_same; [done..|].
    intros Hh. by apply (hist_ok_clear_deep _ _ Hh).
Qed.

Lemma wp_cmds l (s : S) :
  forallb (cmd_ok ch) l = true →
  wp (iter (do_cmd ch) l) (λ _ s', core s' = core s ∧ ustep (en s) (en s')) (λ _ _, False) s.
Proof.
  revert s. induction l as [|x l IH]; intros s Hl.
  - split; [done|]. apply ustep_refl.
  - cbn [forallb] in Hl. apply andb_true_iff in Hl as [Hx Hl]. apply wp_iter_cons.
    eapply wp_mono; [by apply wp_do_cmd| |done]. intros [] s1 [Hc1 Hu1].
    eapply wp_mono; [by apply IH| |done]. intros [] s2 [Hc2 Hu2].
    split; [congruence|]. by eapply ustep_trans.
Qed.

Context (lv : X → list cls).

Lemma wp_ucall {A} (f : view → W → W * list cmd * A) (s : S) :
  (∀ v w, forallb (cmd_ok ch) (f v w).1.2 = true) →
  wp (ucall ch lv f)
    (λ r s', core s' = core s ∧ ustep (en s) (en s') ∧
             r = (f (View (trig (en s)) (lv (core s))) (world (en s))).2)
    (λ _ _, False) s.
Proof.
  intros Hok. unfold ucall. apply wp_bind, wp_gets. unfold id.
  specialize (Hok (View (trig (en s)) (lv (core s))) (world (en s))).
  destruct (f _ _) as [[w cs] r]. simpl in Hok. apply wp_bind, wp_on_env, wp_bind.
  eapply wp_mono; [by apply wp_cmds| |done]. intros [] s2 [Hc2 Hu2]. apply wp_ret.
  split; [done|]. split; [|done]. eapply ustep_trans; [|exact Hu2]. simpl.
  split; [|done..]. by apply evo_same.
Qed.

Lemma wp_ucall_x f (s : S) :
  (∀ v w, forallb (cmd_ok ch) (f v w).1.2 = true) →
  wp (ucall_x ch lv f)
    (λ _ s', core s' = core s ∧ ustep (en s) (en s'))
    (λ x s', core s' = core s ∧ ∃ v, ustep (en s) v ∧ en s' = log (OThrow x) v) s.
Proof.
  intros Hok. unfold ucall_x. eapply wp_seq; [by apply wp_ucall| |by intros ? ? []].
  intros [x|] s1 (Hc & Hu & _).
  - apply wp_bind, wp_emit, wp_throw. simpl. eauto.
  - by apply wp_ret.
Qed.
Lemma wp_alloc (U : user W) a (s : S) :
  wp (alloc U a)
    (λ _ s', core s' = core s ∧ ustep (en s) (en s'))
    (λ x s', core s' = core s ∧ ∃ v, ustep (en s) v ∧ en s' = log (OThrow x) (log (ORefused a) v)) s.
Proof.
  unfold alloc. apply wp_bind, wp_gets. unfold id. destruct (u_alloc U a _) as [w [x|]].
  - apply wp_bind, wp_on_env, wp_bind, wp_emit, wp_bind, wp_emit, wp_throw. simpl. split; [done|].
    eexists. split; [|done]. split; [|done..]. by apply evo_same.
  - apply wp_bind, wp_on_env, wp_ret. split; [done|]. split; [|done..]. by apply evo_same.
Qed.
Lemma wp_new_element (U : user W) c x (s : S) :
  wp (new_element ch U c x)
    (λ _ s', core s' = core s ∧ ustep (en s) (en s'))
    (λ y s', core s' = core s ∧ ∃ v, ustep (en s) v ∧ en s' = log (OThrow y) (refuse (Some (ARecord c x)) v)) s.
Proof.
  unfold new_element. apply wp_bind, wp_gets. unfold id. destruct (u_alloc U _ _) as [w [y|]].
  - apply wp_bind, wp_on_env, wp_bind, wp_on_env, wp_bind, wp_emit, wp_bind, wp_emit, wp_throw. simpl. split; [done|].
    eexists. split; [|done]. split; [|done..]. by apply evo_same.
  - apply wp_bind, wp_on_env, wp_ret. split; [done|]. split; [|done..]. by apply evo_same.
Qed.
Lemma wp_new_elements (U : user W) c xs (s : S) :
  wp (iter (new_element ch U c) xs)
    (λ _ s', core s' = core s ∧ ustep (en s) (en s'))
    (λ y s', core s' = core s ∧ ∃ v x, x ∈ xs ∧ ustep (en s) v ∧ en s' = log (OThrow y) (refuse (Some (ARecord c x)) v)) s.
Proof.
  revert s. induction xs as [|x xs IH]; intros s; simpl; [apply wp_ret; split; [done|apply ustep_refl]|].
  eapply wp_seq; [apply wp_new_element|..].
  - intros [] s1 [Hc1 Hu1]. eapply wp_mono; [apply IH|..].
    + intros [] s2 [Hc2 Hu2]. split; [congruence|]. by eapply ustep_trans.
    + intros y s2 (Hc2 & v & z & Hz & Hu2 & He). split; [congruence|]. exists v, z. split; [by constructor|]. split; [by eapply ustep_trans|done].
  - intros y s1 (Hc1 & v & Hu1 & He1). split; [done|]. exists v, x. split; [by constructor|]. done.
Qed.
End evo.
