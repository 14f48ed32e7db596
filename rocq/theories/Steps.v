(** Every execution of the abstract machine is a sequence of elementary steps.  Invariants that relate the
    configuration, the queues and the history to the recorded trace are proved step by step. *)
From stdpp Require Import relations.
From Verif Require Export WpBuild.

Section steps.
Context {W : Type} (ch : chart) (U : user W) (Hwf : wf_chart ch = true).
Notation S := (mst W acore).
Notation MM := (M S).
Notation alive := (alive ch).

(** What one library call by user code does to the environment. *)
Definition cmd_env (x : cmd) (v : env W) : env W :=
  match x with
  | CPost e => do_post e v
  | CClearShallow c k => set_shallow (<[(Some c, k) := None]> (shallow_map v)) (log (OClearS c k) v)
  | CClearDeep c k => set_deep (<[(Some c, k) := None]> (deep_map v)) (log (OClearD c k) v)
  end.
(** User code that sees the innermost states [l]. *)
Inductive ustep1 (l : list cls) : env W → env W → Prop :=
| us_world w v : ustep1 l v (set_world w (saw l v))
| us_ask w v : ustep1 l v (set_world w v)
| us_cmd x v : ustep1 l v (cmd_env x v).
Notation usteps l := (rtc (ustep1 l)).

Definition rel_env (x : aid) (a : acore) (v : env W) : env W :=
  if bool_decide (x.2 ∈ dfr a)
  then set_deferred [] (set_queue (deferred v ++ queue v) (log ORelease v)) else v.

(** Entries that only mark what the machine does next. *)
Definition mark (k : okind) : bool :=
  match k with
  | OAction _ _ _ | OInState _ _ | OReact _ _ _ _ | OUnconsumed _ | OThrow _ | ORefused (AState _ | AEntry _ | ADefer _) | OCatch _
  | ODispatch _ _ | OVisit _ _ _
  | OResult _ _ _ | OHandle _ _ | OTransit _ _ _ | OTerminate _ _ | OProcess _ | ODone | OHandled
  | OUnhandled => true
  | _ => false
  end.
Definition mark_ok (a : acore) (k : okind) : Prop :=
  match k with
  | OVisit p c _ | OReact p c _ _ | OTransit p c _ | OTerminate p c => alive a (c, p)
  | ODispatch _ ls => ls = abs_leaves a
  | OResult _ _ r => r ≠ RDefer
  | _ => True
  end.

Definition recall (m : hist) (c : cls) : cls := match m !! region ch c with Some (Some h) => h | _ => c end.

(** Every object is in the region of its class. *)
Definition regs (a : acore) : Prop := ∀ r y, occ a !! r = Some y → region ch y.1 = r.

(** The outer states of active states are active; innermost active states are listed, and not twice. *)
Record sane (a : acore) : Prop := {
  sn_regs : regs a;
  sn_outer x q : alive a x → parent ch x.1 = Some q → ∃ p, alive a (q, p);
  sn_listed x : x ∈ ord a → is_leaf ch x.1 = true ∧ alive a x;
  sn_dup : NoDup (ord a) }.
Definition listed (x : aid) (a : acore) : acore :=
  if is_leaf ch x.1 then set_ord (ord a ++ [x]) a else a.

Inductive step : S → S → Prop :=
| st_junk s s' : ¬ sane (core s) → step s s'
| st_user s v : usteps (abs_leaves (core s)) (en s) v → step s (MSt (core s) v)
| st_unst s u : step s (MSt (set_aunst u (core s)) (en s))
| st_ico s b : step s (MSt (core s) (set_ico b (en s)))
| st_full s b : step s (MSt (core s) (set_full b (en s)))
| st_trig s t : step s (MSt (core s) (set_trig t (en s)))
| st_mark s k : mark k = true → mark_ok (core s) k → step s (MSt (core s) (log k (en s)))
| st_hist_s s c : step s (MSt (core s) (log (OHistS c (recall (shallow_map (en s)) c)) (en s)))
| st_hist_d s c : step s (MSt (core s) (log (OHistD c (recall (deep_map (en s)) c)) (en s)))
| st_ctor s c v : occ (core s) !! region ch c = None →
    (∀ q, parent ch c = Some q → ∃ p, alive (core s) (q, p)) →
    usteps (abs_leaves (core s)) (en s) v →
    step s (MSt (listed (c, anxt (core s)) (created ch (c, anxt (core s)) (core s)))
      (log (OCtor (anxt (core s)) c) v))
| st_ctor_x s c v y : occ (core s) !! region ch c = None →
    (∀ q, parent ch c = Some q → ∃ p, alive (core s) (q, p)) →
    usteps (abs_leaves (core s)) (en s) v →
    step s (MSt (set_anxt (anxt (core s) + 1) (core s))
      (log (OCtorThrow (anxt (core s)) c) (log (OThrow y) v)))
| st_dtor s x v : alive (core s) x → kids ch (core s) x.1 = [] → x ∉ ord (unlisted x (core s)) →
    usteps (abs_leaves (unlisted x (core s))) (log (ODtor x.2 x.1) (en s)) v →
    step s (MSt (destroyed ch x (unlisted x (core s))) (rel_env x (core s) v))
| st_leave s x v v' : alive (core s) x → kids ch (core s) x.1 = [] → x ∉ ord (unlisted x (core s)) →
    usteps (abs_leaves (unlisted x (core s))) (log (OExit x.2 x.1) (en s)) v →
    usteps (abs_leaves (unlisted x (core s))) (log (ODtor x.2 x.1) (store_history ch x.1 v)) v' →
    step s (MSt (destroyed ch x (unlisted x (core s))) (rel_env x (core s) v'))
| st_exit_x s x v g y v' : alive (core s) x → kids ch (core s) x.1 = [] → x ∉ ord (unlisted x (core s)) →
    (g = None ∨ ∃ z, z ∈ record_parts ch x.1 ∧ g = Some (ARecord x.1 z)) →
    usteps (abs_leaves (unlisted x (core s))) (log (OExit x.2 x.1) (en s)) v →
    usteps (abs_leaves (unlisted x (core s))) (log (ODtor x.2 x.1) (log (OThrow y) (refuse ch g v))) v' →
    step s (MSt (destroyed ch x (unlisted x (core s))) (rel_env x (core s) v'))
| st_postpone s x : alive (core s) x →
    step s (MSt (set_dfr (dfr (core s) ∪ {[x.2]}) (core s)) (log (OResult x.2 x.1 RDefer) (en s)))
| st_take s e q : queue (en s) = e :: q → step s (MSt (core s) (set_queue q (log (OTake e) (en s))))
| st_defer s e : step s (MSt (core s) (set_deferred (deferred (en s) ++ [e]) (log (ODefer e) (en s))))
| st_reset s : step s (MSt (core s) (a_clear (en s))).
Notation steps := (rtc step).

Lemma depth_fuel_S : depth_fuel ch = Datatypes.S (2 * ncls ch + 1).
Proof. unfold depth_fuel. lia. Qed.

(** The steps from [s0] when [m] is run in [s]. *)
Definition from (s0 : S) {A} (m : MM A) (s : S) : Prop :=
  match m s with (Fault _, _) => True | (_, s') => steps s0 s' end.
Definition to {A} (m : MM A) (s : S) : Prop := from s m s.
Lemma from_steps s0 s1 {A} (m : MM A) s : steps s0 s1 → from s1 m s → from s0 m s.
Proof. unfold from. intros H. destruct (m s) as [[] s']; try done; intros H'; by etrans. Qed.

(** ** Rules *)
Lemma to_ret {A} (a : A) s : to (ret a) s.
Proof. apply rtc_refl. Qed.
Lemma to_throw {A} x s : to (A:=A) (throw x) s.
Proof. apply rtc_refl. Qed.
Lemma to_faulty {A} f s : to (A:=A) (faulty f) s.
Proof. done. Qed.
Lemma to_diverge {A} s : to (A:=A) diverge s.
Proof. apply rtc_refl. Qed.
Lemma to_gets {A} (f : S → A) s : to (gets f) s.
Proof. apply rtc_refl. Qed.
Lemma to_step {A} (m : MM A) s s' r : m s = (r, s') → step s s' → to m s.
Proof. intros E H. unfold to, from. rewrite E. destruct r; try done; by apply rtc_once. Qed.
Lemma to_bind {A B} (m : MM A) (k : A → MM B) s :
  to m s → (∀ a s', m s = (Ret a, s') → steps s s' → to (k a) s') → to (bind m k) s.
Proof.
  unfold to, from, bind. intros H Hk. destruct (m s) as [[a|x|f|] s1]; try done.
  specialize (Hk a s1 eq_refl H). destruct (k a s1) as [[] s2]; try done; by eapply rtc_transitive.
Qed.
Lemma to_bind0 {A B} (m : MM A) (k : A → MM B) s :
  to m s → (∀ a s', to (k a) s') → to (bind m k) s.
Proof. intros H Hk. apply to_bind; auto. Qed.
Lemma to_check b f s : to (check b f) s.
Proof. destruct b; [apply to_ret|done]. Qed.
Lemma to_when b (m : MM unit) s : (b = true → to m s) → to (when b m) s.
Proof. destruct b; intros H; [by apply H|apply to_ret]. Qed.
Lemma to_iter {A} (f : A → MM unit) l s : (∀ a s', to (f a) s') → to (iter f l) s.
Proof.
  intros H. revert s. induction l as [|a l IH]; intros s; [apply to_ret|].
  apply to_bind0; [apply H|]. intros _. apply IH.
Qed.
Lemma to_finally {A} (m : MM A) c s : to m s → (∀ s', to c s') → to (finally m c) s.
Proof.
  unfold to, from, finally. intros H Hc. destruct (m s) as [[] s1]; try done; specialize (Hc s1);
    destruct (c s1) as [[] s2]; try done; by eapply rtc_transitive.
Qed.
Lemma to_on_exn {A} (m : MM A) c s : to m s → (∀ s', to c s') → to (on_exn m c) s.
Proof.
  unfold to, from, on_exn. intros H Hc. destruct (m s) as [[] s1]; try done; specialize (Hc s1);
    destruct (c s1) as [[] s2]; try done; by eapply rtc_transitive.
Qed.
Lemma to_catching {A} (m : MM A) h s : to m s → (∀ x s', to (h x) s') → to (catching m h) s.
Proof.
  unfold to, from, catching. intros H Hh. destruct (m s) as [[a|x|f|] s1]; try done. specialize (Hh x s1).
  destruct (h x s1) as [[] s2]; try done; by eapply rtc_transitive.
Qed.
Lemma to_assert (P : Prop) `{Decision P} {B} (k : unit → MM B) s : (P → to (k tt) s) → to (bind (assert P) k) s.
Proof.
  intros Hk. apply to_bind; [apply to_check|]. intros [] s' E _. unfold assert, check in E.
  case_bool_decide as HP; [|done]. injection E as <-. by apply Hk.
Qed.
Lemma to_get {A B} (f : S → A) (k : A → MM B) s : to (k (f s)) s → to (bind (gets f) k) s.
Proof. unfold to, from, bind, gets. done. Qed.

(** ** User code *)
Lemma cmds_usteps lv l (s : S) :
  match iter (do_cmd ch) l s with
  | (Ret _, s') => core s' = core s ∧ usteps lv (en s) (en s')
  | (Fault _, _) => True
  | _ => False
  end.
Proof.
  revert s. induction l as [|x l IH]; intros s; [done|]. simpl. unfold bind.
  assert (match do_cmd ch x s with
          | (Ret _, s') => core s' = core s ∧ usteps lv (en s) (en s') | (Fault _, _) => True | _ => False end) as Hx.
  { destruct x as [e|c k|c k]; simpl; [|destruct (clear_ok _ _ _ _); [|done]..];
      (split; [done|]; simpl; apply rtc_once).
    - exact (us_cmd lv (CPost e) (en s)).
    - exact (us_cmd lv (CClearShallow c k) (en s)).
    - exact (us_cmd lv (CClearDeep c k) (en s)). }
  destruct (do_cmd ch x s) as [[] s1]; try done. destruct Hx as [Hc Hu]. specialize (IH s1).
  destruct (iter (do_cmd ch) l s1) as [[] s2]; try done. destruct IH as [Hc' Hu'].
  split; [congruence|]. by eapply rtc_transitive.
Qed.

Lemma ucall_usteps {A} (f : view → W → W * list cmd * A) (s : S) :
  match ucall ch abs_leaves f s with
  | (Ret _, s') => core s' = core s ∧ usteps (abs_leaves (core s)) (en s) (en s')
  | (Fault _, _) => True
  | _ => False
  end.
Proof.
  unfold ucall, bind, gets, id, on_env, modify. destruct (f _ _) as [[w cs] r].
  pose proof (cmds_usteps (abs_leaves (core s)) cs (MSt (core s) (set_world w (saw (abs_leaves (core s)) (en s))))) as H.
  destruct (iter _ _ _) as [[] s1]; try done. simpl in *. destruct H as [Hc Hu]. split; [done|].
  eapply rtc_l; [|exact Hu]. constructor.
Qed.

Lemma steps_user (s s' : S) : core s' = core s → usteps (abs_leaves (core s)) (en s) (en s') → step s s'.
Proof. intros Hc Hu. destruct s' as [a v]. simpl in Hc. subst. by constructor. Qed.

Lemma to_ucall {A} (f : view → W → W * list cmd * A) s : to (ucall ch abs_leaves f) s.
Proof.
  unfold to, from. pose proof (ucall_usteps f s) as H. destruct (ucall _ _ f s) as [[] s1]; try done.
  apply rtc_once. destruct H. by apply steps_user.
Qed.
Lemma ucall_ret {A} (f : view → W → W * list cmd * A) (s : S) a s' :
  ucall ch abs_leaves f s = (Ret a, s') → core s' = core s.
Proof. intros E. pose proof (ucall_usteps f s) as H. rewrite E in H. by destruct H. Qed.

Lemma to_mark k s : mark k = true → mark_ok (core s) k → to (emit k) s.
Proof. intros H1 H2. eapply to_step; [done|]. by constructor. Qed.
Lemma alloc_usteps a (s : S) :
  match alloc U a s with
  | (Ret _, s') => core s' = core s ∧ ∃ w, en s' = set_world w (en s)
  | (Exn y, s') => core s' = core s ∧ ∃ w, en s' = log (OThrow y) (log (ORefused a) (set_world w (en s)))
  | _ => False
  end.
Proof.
  unfold alloc, bind, gets, id, on_env, modify, emit. destruct (u_alloc U a _) as [w [y|]]; simpl; eauto.
Qed.
Lemma record_usteps c xs (s : S) :
  match iter (new_element ch U c) xs s with
  | (Ret _, s') => core s' = core s ∧ usteps (abs_leaves (core s)) (en s) (en s')
  | (Exn y, s') => core s' = core s ∧ ∃ v z, z ∈ xs ∧ usteps (abs_leaves (core s)) (en s) v ∧
      en s' = log (OThrow y) (refuse ch (Some (ARecord c z)) v)
  | _ => False
  end.
Proof.
  revert s. induction xs as [|z xs IH]; intros s; [done|]. simpl. unfold bind at 1.
  unfold new_element at 1, bind, gets, id, on_env, modify, emit. destruct (u_alloc U _ _) as [w [y|]]; simpl.
  - split; [done|]. eexists _, z. split; [by constructor|]. split; [|done]. apply rtc_once, us_ask.
  - specialize (IH (MSt (core s) (set_world w (en s)))). destruct (iter _ _ _) as [[[]| | |] s']; try done; simpl in IH.
    + destruct IH as [H1 H2]. split; [done|]. eapply rtc_l; [apply us_ask|exact H2].
    + destruct IH as (H1 & v & z' & Hz & H2 & H3). split; [done|]. exists v, z'. split; [by constructor|]. split; [|done].
      eapply rtc_l; [apply us_ask|exact H2].
Qed.
Lemma exit_usteps x (s : S) :
  match a_user_exit ch U x s with
  | (Ret _, s') => core s' = core s ∧ usteps (abs_leaves (core s)) (log (OExit x.2 x.1) (en s)) (en s')
  | (Exn y, s') => core s' = core s ∧ ∃ v g, (g = None ∨ ∃ z, z ∈ record_parts ch x.1 ∧ g = Some (ARecord x.1 z)) ∧
      usteps (abs_leaves (core s)) (log (OExit x.2 x.1) (en s)) v ∧ en s' = log (OThrow y) (refuse ch g v)
  | (Fault _, _) => True
  | (Div, _) => False
  end.
Proof.
  unfold a_user_exit, ucall_x. unfold bind at 1. unfold emit at 1, on_env, modify. unfold bind at 1. unfold bind at 1.
  pose proof (ucall_usteps (u_exit U x.1) (MSt (core s) (log (OExit x.2 x.1) (en s)))) as Hu.
  destruct (ucall _ _ _ _) as [[[y|]| | |] s2]; try done; destruct Hu as [Hc Hu]; simpl in Hc, Hu.
  - unfold bind at 1. unfold emit, on_env, modify, throw. split; [done|]. exists (en s2), None. auto.
  - unfold ret. unfold new_record.
    pose proof (record_usteps x.1 (record_parts ch x.1) s2) as Ha. destruct (iter _ _ s2) as [[[]| | |] s3]; try done.
    + destruct Ha as [Hc3 Ha]. split; [congruence|]. rewrite Hc in Ha. by etrans.
    + destruct Ha as (Hc3 & v & z & Hz & Ha & He). split; [congruence|]. rewrite Hc in Ha.
      exists v, (Some (ARecord x.1 z)). split; [right; eauto|]. split; [|done]. by etrans.
Qed.
Lemma to_alloc a s : mark (ORefused a) = true → to (alloc U a) s.
Proof.
  intros Hm.
  unfold to, from. pose proof (alloc_usteps a s) as H. destruct (alloc U a s) as [[] s1]; try done.
  - destruct H as (Hc & w & He). apply rtc_once, steps_user; [done|]. rewrite He. apply rtc_once, us_ask.
  - destruct H as (Hc & w & He). destruct s1 as [a1 v1]. simpl in *. subst.
    eapply rtc_l; [apply (st_user s (set_world w (en s))), rtc_once, us_ask|].
    eapply rtc_l; [by apply (st_mark _ (ORefused a))|]. apply rtc_once.
    by apply (st_mark (MSt (core s) (log (ORefused a) (set_world w (en s)))) (OThrow x)).
Qed.
Lemma to_ucall_x f s : to (ucall_x ch abs_leaves f) s.
Proof.
  unfold ucall_x. apply to_bind0; [apply to_ucall|]. intros [x|] s1; [|apply to_ret].
  apply to_bind0; [by apply to_mark|]. intros. apply to_throw.
Qed.

(** ** Leaving states *)
Lemma destroy_step x (s : S) (v : env W → Prop) :
  (∀ v', usteps (abs_leaves (core s)) (log (ODtor x.2 x.1) (en s)) v' → v (rel_env x (core s) v')) →
  match a_destroy ch U x s with
  | (Ret _, s') => core s' = destroyed ch x (core s) ∧ v (en s')
  | (Fault _, _) => True
  | _ => False
  end.
Proof.
  intros Hv. unfold a_destroy, emit, on_env, on_core, modify, gets, a_user_dtor. unfold bind at 1.
  unfold bind at 1. cbn iota.
  set (f := λ _ _, _).
  pose proof (ucall_usteps f (MSt (core s) (log (ODtor x.2 x.1) (en s)))) as H.
  destruct (ucall _ _ _ _) as [[] s1]; try done. destruct H as [Hc Hu]. simpl in Hc, Hu.
  unfold bind. specialize (Hv _ Hu). unfold rel_env in Hv. rewrite Hc.
  case_bool_decide as Hd; simpl; rewrite ?Hc; split; try done.
Qed.

(** [s1] is [s] with [x] taken off the list of innermost states. *)
Definition off (x : aid) (s s1 : S) : Prop :=
  alive (core s) x ∧ kids ch (core s) x.1 = [] ∧ x ∉ ord (core s1) ∧ core s1 = unlisted x (core s) ∧ en s1 = en s.
Lemma off_refl x s : alive (core s) x → kids ch (core s) x.1 = [] → x ∉ ord (core s) → off x s s.
Proof. intros H1 H2 H3. split_and!; try done. by rewrite unlisted_notin. Qed.

Lemma from_destroy x s s1 : off x s s1 → from s (a_destroy ch U x) s1.
Proof.
  intros (Hx & Hk & Ho & Hc1 & He1). unfold from.
  pose proof (destroy_step x s1 (λ v, step s (MSt (destroyed ch x (core s1)) v))) as H.
  assert (∀ v', usteps (abs_leaves (core s1)) (log (ODtor x.2 x.1) (en s1)) v' →
    step s (MSt (destroyed ch x (core s1)) (rel_env x (core s1) v'))) as Hv.
  { intros v' Hv'. assert (rel_env x (core s1) v' = rel_env x (core s) v') as ->.
    { unfold rel_env. rewrite Hc1. by destruct (unlisted_fields x (core s)) as (_ & -> & _). }
    rewrite Hc1 in *. rewrite He1 in Hv'. by apply st_dtor. }
  destruct (a_destroy ch U x s1) as [[] s2]; try done; specialize (H Hv); try done.
  destruct H as [Hc Hs]. rewrite <-Hc, mst_eta in Hs. by apply rtc_once.
Qed.
Lemma to_destroy x s : alive (core s) x → kids ch (core s) x.1 = [] → x ∉ ord (core s) → to (a_destroy ch U x) s.
Proof. intros H1 H2 H3. by apply from_destroy, off_refl. Qed.

Lemma to_drop n H x s : to (a_drop ch U n H x) s.
Proof.
  revert x s. induction n as [|n IH]; intros x s; [done|]. cbn [a_drop]. apply to_get, to_assert. intros Hx.
  destruct (busy _ _ _ _) eqn:Hb; [apply to_ret|]. apply busy_false in Hb as (Hk & Ho & _).
  apply to_bind0; [by apply to_destroy|]. intros _ s'.
  destruct (ctx_of _ _ _); [apply IH|apply to_ret].
Qed.
Lemma to_drop_ H x s : to (drop_ ch U H x) s.
Proof. apply to_drop. Qed.
Lemma to_drop_opt H x s : to (drop_opt ch U H x) s.
Proof. destruct x; [apply to_drop_|apply to_ret]. Qed.

Lemma to_set_unst H u s : to (a_set_unst ch H u) s.
Proof.
  unfold a_set_unst. apply to_get, to_assert. intros _.
  apply to_bind0; [eapply to_step; [done|]; apply st_unst|].
  intros _ s'. apply to_get. destruct (aunst (core s)); [apply to_check|apply to_ret].
Qed.
Lemma set_unst_core H u (s s' : S) :
  a_set_unst ch H u s = (Ret tt, s') → core s' = set_aunst u (core s).
Proof.
  unfold a_set_unst, bind, gets, assert, check, on_core, modify, faulty, ret.
  case_bool_decide; [|done]. destruct (aunst (core s)); [|by intros [= <-]].
  destruct (busy _ _ _ _); [|done]. by intros [= <-].
Qed.

Lemma ctx_of_ne a x : regs a → ctx_of ch a x.1 ≠ Some x.
Proof.
  unfold ctx_of. intros Hr Hc. destruct (parent ch x.1) as [q|] eqn:Hp; [|done].
  apply Hr in Hc. unfold region in Hc. injection Hc as Hc _. rewrite Hp in Hc. symmetry in Hc.
  apply (parent_lt ch Hwf) in Hc. lia.
Qed.

Lemma set_unst_en H u (s s' : S) : a_set_unst ch H u s = (Ret tt, s') → en s' = en s.
Proof.
  unfold a_set_unst, bind, gets, assert, check, on_core, modify, faulty, ret.
  case_bool_decide; [|done]. destruct (aunst (core s)); [|by intros [= <-]].
  destruct (busy _ _ _ _); [|done]. by intros [= <-].
Qed.
Lemma set_unst_only H u (s : S) : match a_set_unst ch H u s with (Ret _, _) | (Fault _, _) => True | _ => False end.
Proof.
  unfold a_set_unst, bind, gets, assert, check, on_core, modify, faulty, ret.
  case_bool_decide; [|done]. destruct (aunst (core s)); [|done]. by destruct (busy _ _ _ _).
Qed.
Lemma unlisted_unst x u a : unlisted x (set_aunst u a) = set_aunst u (unlisted x a).
Proof. unfold unlisted. simpl. by destruct (list_find _ _) as [[]|]. Qed.
Lemma off_unst x u s s1 : off x s s1 →
  off x (MSt (set_aunst u (core s)) (en s)) (MSt (set_aunst u (core s1)) (en s1)).
Proof.
  intros (Hx & Hk & Ho & Hc & He). split_and!; try done. cbn [core]. by rewrite unlisted_unst, Hc.
Qed.
Lemma off_sane x s s1 : off x s s1 → sane (core s) → sane (core s1).
Proof.
  intros (_ & _ & _ & -> & _) [H1 H2 H2' H3]. destruct (unlisted_fields x (core s)) as (E & _). split.
  - unfold regs. by rewrite E.
  - intros y q. rewrite unlisted_alive. intros Hy Hq. destruct (H2 y q Hy Hq) as [p Hp]. exists p. by apply unlisted_alive.
  - intros y. rewrite unlisted_ord, unlisted_alive by done. intros [Hy _]. by apply H2'.
  - by apply NoDup_unlisted.
Qed.

Lemma from_exit1 H x fe s s1 : off x s s1 → x ∉ H → from s (a_exit1 ch U H x fe) s1.
Proof.
  intros Hoff HH. destruct (decide (ctx_of ch (core s1) x.1 = Some x)) as [Hcx|Hcx].
  { unfold from. destruct (a_exit1 _ _ _ _ _ _) as [[] s']; try done; apply rtc_once, st_junk;
      intros Hr; apply (off_sane _ _ _ Hoff), sn_regs in Hr; by apply (ctx_of_ne _ _ Hr) in Hcx. }
  unfold from, a_exit1. unfold bind at 1, gets. unfold bind at 1.
  assert (match (if bool_decide (aunst (core s1) = None ∨ aunst (core s1) = Some x)
                 then a_set_unst ch (x :: H) (ctx_of ch (core s1) x.1) else ret tt) s1 with
          | (Ret _, s2) => ∃ s', steps s s' ∧ off x s' s2 ∧ aunst (core s2) ≠ Some x
          | (Fault _, _) => True
          | _ => False
          end) as Hu.
  { case_bool_decide as Hu.
    - pose proof (set_unst_only (x :: H) (ctx_of ch (core s1) x.1) s1) as Ho.
      destruct (a_set_unst _ _ _ _) as [[[]| | |] s2] eqn:E; try done. clear Ho.
      apply set_unst_core in E as Ec. apply set_unst_en in E. destruct s2 as [a2 v2]. simpl in *. subst.
      eexists. split; [apply rtc_once, st_unst|]. split; [by apply off_unst|done].
    - exists s. split_and!; [done|done|]. tauto. }
  destruct ((if bool_decide (aunst (core s1) = None ∨ aunst (core s1) = Some x)
    then a_set_unst ch (x :: H) (ctx_of ch (core s1) x.1) else ret tt) s1) as [[[]| | |] s2]; try done.
  destruct Hu as (s' & Hst & Hoff2 & Hne). clear Hoff Hcx s1. rename s2 into s1. 
  match goal with |- context [bind ?f ?g s1] => change (from s (bind f g) s1) end.
  eapply from_steps; [exact Hst|]. clear Hst s. rename s' into s. rename Hoff2 into Hoff.
  destruct fe; cbn [when].
  2:{ unfold from, bind, ret. exact (from_destroy x s s1 Hoff). }
  pose proof Hoff as (Hx & Hk & Ho & Hc1 & He1).
  assert (alive (core s1) x) as Hx1 by by rewrite Hc1, unlisted_alive.
  assert (busy ch H (core s1) x = false) as Hb1.
  { rewrite busy_false. by rewrite Hc1, unlisted_kids, <-Hc1. }
  assert (∀ v, rel_env x (core s1) v = rel_env x (core s) v) as Hre.
  { intros v. unfold rel_env. rewrite Hc1. by destruct (unlisted_fields x (core s)) as (_ & -> & _). }
  (* exit(), history and destruction are one step *)
  unfold from. set (m := on_exn _ _). unfold bind at 1 2.
  assert (match m s1 with
          | (Ret _, s2) => core s2 = core s1 ∧ usteps (abs_leaves (core s1)) (log (OExit x.2 x.1) (en s1)) (en s2)
          | (Fault _, _) => True
          | (_, s2) => steps s s2
          end) as Hm.
  { unfold m, on_exn. pose proof (exit_usteps x s1) as Hu.
    destruct (a_user_exit ch U x s1) as [[[]|y| |] s2]; try done. destruct Hu as (Hc & v & g & Hg & Hu & He).
    destruct s2 as [a2 v2]. simpl in Hc, He. subst a2 v2.
    unfold drop_. rewrite depth_fuel_S. cbn [a_drop].
    unfold bind at 1. unfold gets. unfold bind at 1. unfold assert, check. cbn [core].
    rewrite bool_decide_true by done. rewrite Hb1. unfold ret. unfold bind at 1.
    set (s3 := MSt (core s1) _).
    pose proof (destroy_step x s3 (λ v, step s (MSt (destroyed ch x (core s1)) v))) as Hs.
    assert (∀ v', usteps (abs_leaves (core s1)) (log (ODtor x.2 x.1) (en s3)) v' →
      step s (MSt (destroyed ch x (core s1)) (rel_env x (core s3) v'))) as Hv.
    { intros v' Hv'. unfold s3. cbn [core]. rewrite Hre, Hc1. rewrite Hc1 in Ho. rewrite He1, Hc1 in Hu. rewrite Hc1 in Hv'.
      exact (st_exit_x s x v g y v' Hx Hk Ho Hg Hu Hv'). }
    destruct (a_destroy ch U x s3) as [[] s4]; try done; specialize (Hs Hv); try done.
    destruct Hs as [Hc4 Hs]. simpl in Hc4. rewrite <-Hc4, mst_eta in Hs.
    destruct (ctx_of ch (core s1) x.1) as [q|]; [|by apply rtc_once].
    match goal with |- context [a_drop ch U ?n H q s4] => pose proof (to_drop n H q s4) as Hd end.
    unfold to, from in Hd. destruct (a_drop _ _ _ _ _ _) as [[] s5]; try done; by eapply rtc_l. }
  destruct (m s1) as [[a| | |] s2]; try done. destruct Hm as [Hc Hu].
  unfold on_env, modify.
  set (s3 := MSt (core s2) (store_history ch x.1 (en s2))).
  pose proof (destroy_step x s3 (λ v, step s (MSt (destroyed ch x (core s1)) v))) as Hs.
  assert (∀ v', usteps (abs_leaves (core s3)) (log (ODtor x.2 x.1) (en s3)) v' →
    step s (MSt (destroyed ch x (core s1)) (rel_env x (core s3) v'))) as Hv.
  { intros v' Hv'. simpl in *. rewrite Hc, Hre, Hc1. rewrite Hc1 in Ho. rewrite He1, Hc1 in Hu. rewrite Hc, Hc1 in Hv'. by eapply st_leave. }
  destruct (a_destroy ch U x s3) as [[] s4]; try done; specialize (Hs Hv); try done.
  destruct Hs as [Hc4 Hs]. simpl in Hc4. rewrite Hc in Hc4. rewrite <-Hc4, mst_eta in Hs. by apply rtc_once.
Qed.

Lemma from_bind {A B} s0 (m : MM A) (k : A → MM B) s :
  from s0 m s → (∀ a s', to (k a) s') → from s0 (bind m k) s.
Proof.
  unfold to, from, bind. intros H Hk. destruct (m s) as [[a|x|f|] s1]; try done.
  specialize (Hk a s1). destruct (k a s1) as [[] s2]; try done; by etrans.
Qed.
Lemma to_exit n H x fe s : to (a_exit ch U n H x fe) s.
Proof.
  revert x s. induction n as [|n IH]; intros x s; [done|]. cbn [a_exit]. apply to_get, to_assert. intros Hx.
  destruct (bool_decide (kids ch (core s) x.1 ≠ [])) eqn:H1; [apply to_ret|].
  destruct (bool_decide (x ∈ ord (core s))) eqn:H2; [apply to_ret|].
  destruct (bool_decide (x ∈ H)) eqn:H3; [apply to_ret|]. cbn [orb].
  apply bool_decide_eq_false in H1, H2, H3. apply to_bind0.
  { apply from_exit1; [|done]. apply off_refl; try done. destruct (kids ch (core s) x.1); [done|]. by destruct H1. }
  intros _ s'. destruct (ctx_of _ _ _); [apply IH|apply to_ret].
Qed.
(** The references held are to states with regions. *)
Definition held_ok (H : list aid) : Prop := ∀ y, y ∈ H → is_leaf ch y.1 = false.
Lemma leaf_kids a c : is_leaf ch c = true → kids ch a c = [].
Proof. unfold is_leaf, kids. intros ->%bool_decide_eq_true. done. Qed.
Lemma to_unlist_exit H x fe s : held_ok H → is_leaf ch x.1 = true → alive (core s) x →
  to (a_unlist x ;! exit_ ch U H x fe) s.
Proof.
  intros HH Hl Hx. destruct (decide (NoDup (ord (core s)))) as [Hnd|Hnd].
  2:{ unfold to, from. destruct (bind _ _ s) as [[] s']; try done; apply rtc_once, st_junk; by intros []. }
  unfold to, from. unfold bind at 1. unfold a_unlist. unfold bind at 1, gets.
  destruct (list_find (eq x) (ord (core s))) as [[i y]|] eqn:E; [|done]. unfold on_core, modify.
  set (s1 := MSt _ _).
  assert (off x s s1) as Hoff.
  { assert (core s1 = unlisted x (core s)) as Hc by (unfold unlisted; by rewrite E).
    split_and!; [done|by apply leaf_kids| |done|done]. rewrite Hc, unlisted_ord by done. tauto. }
  unfold exit_. rewrite depth_fuel_S. cbn [a_exit].
  match goal with |- context [bind ?f ?g s1] => change (from s (bind f g) s1) end.
  pose proof Hoff as (_ & Hk & Ho & Hc & _).
  unfold from. unfold bind at 1, gets. unfold bind at 1. unfold assert, check.
  rewrite bool_decide_true by by rewrite Hc, unlisted_alive. unfold ret at 1.
  rewrite (bool_decide_false (kids _ _ _ ≠ [])) by (rewrite Hc, unlisted_kids, Hk; auto).
  rewrite (bool_decide_false (x ∈ ord _)) by done.
  rewrite (bool_decide_false (x ∈ H)) by (intros Hin; apply HH in Hin; congruence). cbn [orb].
  match goal with |- context [bind ?f ?g s1] => change (from s (bind f g) s1) end.
  apply from_bind; [apply from_exit1; [done|]; intros Hin; apply HH in Hin; congruence|].
  intros _ s'. destruct (ctx_of _ _ _); [apply to_exit|apply to_ret].
Qed.

Lemma to_remove n H x fe s : held_ok H → to (a_remove ch U n H x fe) s.
Proof.
  intros HH. revert x s. induction n as [|n IH]; intros x s; [done|]. cbn [a_remove]. apply to_get, to_assert. intros Hx.
  destruct (is_leaf _ _) eqn:Hl. { by apply to_unlist_exit. }
  destruct (list_find _ _) as [[f ?]|].
  - apply to_iter. intros k s'. apply to_get, to_assert. intros _.
    destruct (occ _ !! _); [apply IH|apply to_ret].
  - apply to_assert. intros _. apply to_exit.
Qed.

Lemma to_ico b s : to (on_env (set_ico b)) s.
Proof. eapply to_step; [done|]. by constructor. Qed.
Lemma to_full b s : to (on_env (set_full b)) s.
Proof. eapply to_step; [done|]. by constructor. Qed.
Lemma to_trig b s : to (on_env (set_trig b)) s.
Proof. eapply to_step; [done|]. by constructor. Qed.

Lemma to_terminate_state H x fe s : held_ok H → to (a_terminate_state ch U H x fe) s.
Proof.
  intros HH. unfold a_terminate_state. apply to_bind0; [apply to_ico|]. intros _ s1. apply to_get.
  destruct (aunst (core s1)); [by apply to_remove|].
  destruct (ord (core s1)) as [|y [|]] eqn:Eo; [done| |by apply to_remove].
  destruct (decide (is_leaf ch y.1 = true ∧ alive (core s1) y)) as [[H1 H2]|Hn]; [by apply to_unlist_exit|].
  unfold to, from. destruct (bind _ _ s1) as [[] s']; try done; apply rtc_once, st_junk; intros Hs;
    apply Hn, (sn_listed _ Hs); rewrite Eo; by left.
Qed.
Lemma held_nil : held_ok [].
Proof. by intros y ?%elem_of_nil. Qed.
Lemma to_terminate_machine fe s : to (a_terminate_machine ch U fe) s.
Proof.
  unfold a_terminate_machine. apply to_bind0; [apply to_full|]. intros _ s1. apply to_get. apply to_bind0.
  - destruct (occ _ !! _); [apply to_terminate_state, held_nil|apply to_ret].
  - intros _ s2. eapply to_step; [done|]. apply st_reset.
Qed.
Lemma to_terminate_as_reaction x s : to (a_terminate_as_reaction ch U x) s.
Proof.
  unfold a_terminate_as_reaction. apply to_get. apply to_bind0; [apply to_terminate_state, held_nil|].
  intros. apply to_set_unst.
Qed.

(** ** Entering states *)
(** The outcome of a constructor call. *)
Lemma new_step H c ctx s : let p := anxt (core s) in
  match a_new ch U H c ctx s with
  | (Ret x, s') => x = (c, p) ∧ ∃ v, occ (core s) !! region ch c = None ∧
      (∀ q, parent ch c = Some q → ∃ p, alive (core s) (q, p)) ∧ usteps (abs_leaves (core s)) (en s) v ∧
      s' = MSt (created ch (c, p) (core s)) (log (OCtor p c) v)
  | (Fault _, _) => True
  | (Exn _, s') => steps s s'
  | (Div, _) => False
  end.
Proof.
  intros p. unfold a_new. unfold bind at 1. pose proof (to_alloc (AState c) s eq_refl) as Hta.
  pose proof (alloc_usteps (AState c) s) as Ha. unfold to, from in Hta.
  destruct (alloc U (AState c) s) as [[[]| | |] sa]; try done. destruct Ha as (Hca & wa & Hea).
  assert (usteps (abs_leaves (core s)) (en s) (en sa)) as Hua by (rewrite Hea; apply rtc_once, us_ask). clear Hta Hea.
  destruct sa as [a_ va]. simpl in Hca, Hua. subst a_.
  unfold bind at 1, gets. cbn [core]. unfold bind at 1, assert, check.
  case_bool_decide as Hx; [|done]. unfold ret at 1. unfold bind at 1, check.
  case_bool_decide as Ho; [|done]. unfold ret at 1.
  assert (∀ q, parent ch c = Some q → ∃ p, alive (core s) (q, p)) as Hq.
  { intros q Hq. unfold ctx_ok in Hx. rewrite Hq in Hx. destruct ctx as [[q' p']|]; [|done].
    destruct Hx as (Hx & Hx' & _). simpl in Hx. subst q'. eauto. }
  fold p. set (m := if cd_state (cd ch c) then a_user_ctor ch U p c else a_simple_ctor ch U p c).
  unfold bind at 1. unfold on_core at 1, modify. unfold bind at 1.
  set (s1 := MSt _ _).
  assert (match m s1 with
          | (Ret _, s2) => core s2 = core s1 ∧ ∃ v, usteps (abs_leaves (core s1)) (en s1) v ∧ en s2 = log (OCtor p c) v
          | (Exn _, s2) => core s2 = core s1 ∧ ∃ v y, usteps (abs_leaves (core s1)) (en s1) v ∧ en s2 = log (OCtorThrow p c) (log (OThrow y) v)
          | (Fault _, _) => True
          | _ => False
          end) as Hm.
  { assert (∀ (m' : MM unit), m' = a_user_ctor ch U p c → match m' s1 with
          | (Ret _, s2) => core s2 = core s1 ∧ ∃ v, usteps (abs_leaves (core s1)) (en s1) v ∧ en s2 = log (OCtor p c) v
          | (Exn _, s2) => core s2 = core s1 ∧ ∃ v y, usteps (abs_leaves (core s1)) (en s1) v ∧ en s2 = log (OCtorThrow p c) (log (OThrow y) v)
          | (Fault _, _) => True
          | _ => False
          end) as Huc.
    { intros m' ->. unfold a_user_ctor. unfold bind at 1. pose proof (ucall_usteps (u_ctor U c) s1) as Hu.
      destruct (ucall _ _ _ _) as [[[y|]| | |] s2]; try done; destruct Hu as [Hc Hu]; simpl; eauto. }
    unfold m. destruct (cd_state _); [by apply Huc|]. unfold a_simple_ctor, bind at 1, gets, id.
    unfold bind at 1, check. destruct (u_ctor _ _ _ _) as [[w cs] r]. destruct cs; [|done]. by apply Huc. }
  destruct (m s1) as [[a|y| |] s2]; try done.
  - destruct Hm as [Hc (v & Hu & Hv)]. unfold bind, on_core, modify, ret. split; [done|]. exists v. split_and!; try done.
    + etrans; [exact Hua|exact Hu].
    + rewrite Hv, Hc. done.
  - destruct Hm as [Hc (v & y' & Hu & Hv)]. destruct s2 as [a2 v2]. simpl in *. subst.
    unfold s1. apply rtc_once. apply (st_ctor_x s c v y' Ho Hq). etrans; [exact Hua|exact Hu].
Qed.

Lemma unlisted_listed x a : is_leaf ch x.1 = true → x ∉ ord a → unlisted x (listed x a) = a.
Proof.
  intros Hl Hx. unfold listed, unlisted. rewrite Hl. cbn [set_ord ord].
  destruct (list_find_eq_in x (ord a ++ [x])) as (i & -> & Hi); [apply elem_of_app; right; by apply elem_of_list_singleton|].
  assert (i = length (ord a)) as ->.
  { apply lookup_app_Some in Hi as [Hi|[Hle Hi]]; [by apply elem_of_list_lookup_2 in Hi|].
    apply list_lookup_singleton_Some in Hi as [? _]. lia. }
  unfold swap_remove. rewrite app_length. simpl. replace (length (ord a) + 1 - 1) with (length (ord a)) by lia.
  rewrite list_lookup_middle by done. rewrite list_insert_id by by apply list_lookup_middle.
  rewrite take_app. by destruct a.
Qed.

(** No place in the list of innermost states: the new object is destroyed. *)
Lemma entry_steps s c v y v' : occ (core s) !! region ch c = None →
  (∀ q, parent ch c = Some q → ∃ p, alive (core s) (q, p)) → is_leaf ch c = true →
  usteps (abs_leaves (core s)) (en s) v →
  usteps (abs_leaves (core s))
    (log (ODtor (anxt (core s)) c) (log (OThrow y) (log (ORefused (AEntry c)) (log (OCtor (anxt (core s)) c) v)))) v' →
  steps s (MSt (destroyed ch (c, anxt (core s)) (created ch (c, anxt (core s)) (core s)))
    (rel_env (c, anxt (core s)) (core s) v')).
Proof.
  intros Ho Hq Hl Hu Hu'. set (x := (c, anxt (core s))). destruct (decide (x ∈ ord (core s))) as [Hx|Hx].
  { apply rtc_once, st_junk. intros Hs. apply (sn_listed _ Hs) in Hx as [_ Hx]. unfold Abs.alive in Hx. simpl in Hx. congruence. }
  assert (unlisted x (listed x (created ch x (core s))) = created ch x (core s)) as Eu by by apply unlisted_listed.
  eapply rtc_l; [by apply (st_ctor s c v)|]. fold x.
  eapply rtc_l; [by apply (st_mark _ (ORefused (AEntry c)))|].
  eapply rtc_l; [by apply (st_mark _ (OThrow y))|]. apply rtc_once. cbn [core en].
  pose proof (st_dtor (MSt (listed x (created ch x (core s)))
    (log (OThrow y) (log (ORefused (AEntry c)) (log (OCtor (anxt (core s)) c) v)))) x v') as Hd. cbn [core en] in Hd.
  rewrite Eu in Hd.
  assert (rel_env x (listed x (created ch x (core s))) v' = rel_env x (core s) v') as Er.
  { unfold rel_env, listed. by destruct (is_leaf ch x.1). }
  rewrite Er in Hd. apply Hd; [|by apply leaf_kids|done|done].
  unfold Abs.alive, listed. destruct (is_leaf ch x.1); simpl; apply lookup_insert.
Qed.

Lemma to_shallow H c ctx s : to (a_shallow ch U H c ctx) s.
Proof.
  unfold a_shallow, to, from. unfold bind at 1. pose proof (new_step H c ctx s) as Hn. cbn zeta in Hn.
  destruct (a_new _ _ _ _ _ s) as [[x|y| |] s1]; try done.
  destruct Hn as (-> & v & Ho & Hq & Hu & ->). set (x := (c, anxt (core s))).
  pose proof (st_ctor s c v Ho Hq Hu) as Hst. fold x in Hst.
  set (s0 := MSt (created ch x (core s)) _).
  assert (match a_entry ch U x s0 with
          | (Ret _, s') => core s' = core s0 ∧ ∀ l, usteps l (en s0) (en s')
          | (Exn _, s') => steps s s'
          | (Fault _, _) => True
          | _ => False end) as Hen.
  { unfold a_entry. destruct (is_leaf ch x.1) eqn:Hl; [|by split]. cbn [when]. unfold on_exn.
    pose proof (alloc_usteps (AEntry c) s0) as Ha. change (AEntry x.1) with (AEntry c).
    destruct (alloc U (AEntry c) s0) as [[[]|y'| |] s2]; try done.
    - destruct Ha as (Hc & w & He). split; [done|]. intros l. rewrite He. apply rtc_once, us_ask.
    - destruct Ha as (Hc & w & He).
      pose proof (destroy_step x s2 (λ v', steps s (MSt (destroyed ch x (created ch x (core s))) v'))) as Hd.
      destruct (a_destroy ch U x s2) as [[] s3]; try done; (assert (∀ v', usteps (abs_leaves (core s2)) (log (ODtor x.2 x.1) (en s2)) v' → 
        steps s (MSt (destroyed ch x (created ch x (core s))) (rel_env x (core s2) v'))) as Hv;
        [|specialize (Hd Hv); try done]).
      all: try (intros v' Hv'; rewrite Hc, He in Hv'; rewrite Hc; apply (entry_steps s c (set_world w v) y' v' Ho Hq Hl);
        [eapply rtc_r; [exact Hu|apply us_ask]|exact Hv']).
      destruct Hd as [Hc3 Hd]. destruct s3 as [a3 v3]. simpl in *. subst a3. rewrite Hc. exact Hd. }
  unfold bind at 1. destruct (a_entry ch U x s0) as [[[]| | |] s2]; try done. destruct Hen as [Hc2 Hu2].
  destruct s2 as [a2 v2]. simpl in Hc2, Hu2. subst a2.
  set (s1 := MSt (listed x (created ch x (core s))) v2).
  assert (steps s s1) as Hst1.
  { eapply rtc_l; [exact Hst|]. apply rtc_once.
    apply (st_user (MSt (listed x (created ch x (core s))) (log (OCtor (anxt (core s)) c) v)) v2).
    apply Hu2. }
  match goal with |- context [bind ?f ?g ?s'] => change (from s (bind f g) s') end.
  unfold a_add. unfold from. unfold bind at 1. unfold bind at 1.
  assert ((if is_leaf ch x.1 then on_core (λ a, set_ord (ord a ++ [x]) a) else ret tt)
    (MSt (created ch x (core s)) v2) = (Ret tt, s1)) as ->.
  { unfold s1, listed. by destruct (is_leaf ch x.1). }
  match goal with |- context [bind ?f ?g s1] => set (m := bind f g) end.
  assert (to m s1) as Hm.
  { apply to_get. destruct (_ || _); [|apply to_ret]. apply to_bind0; [apply to_ico|]. intros. apply to_set_unst. }
  unfold to, from in Hm. destruct (m s1) as [[] s2]; try done; by eapply rtc_transitive.
Qed.

Lemma to_construct n H path d ctx s : to (a_construct ch U n H path d ctx) s.
Proof.
  revert H path d ctx s. induction n as [|n IH]; intros H path d ctx s; [done|]. cbn [a_construct].
  destruct path as [|c path].
  - destruct d as [c|c|c].
    + apply to_bind0; [apply to_shallow|]. intros x s1. apply to_finally; [|intros; apply to_drop_].
      apply to_iter. intros. apply IH.
    + apply to_get. assert (to (emit (OHistS c (recall (shallow_map (en s)) c))) s) as Hh.
      { eapply to_step; [done|]. apply st_hist_s. }
      unfold recall in Hh.
      destruct (shallow_map (en s) !! region ch c) as [[h|]|]; (apply to_bind0; [exact Hh|intros; apply IH]).
    + apply to_get. assert (to (emit (OHistD c (recall (deep_map (en s)) c))) s) as Hh.
      { eapply to_step; [done|]. apply st_hist_d. }
      unfold recall in Hh.
      destruct (deep_map (en s) !! region ch c) as [[h|]|]; (apply to_bind0; [exact Hh|intros; apply IH]).
  - apply to_bind0; [apply to_shallow|]. intros x s1. apply to_finally; [|intros; apply to_drop_].
    apply to_bind0; [apply to_iter; intros; apply IH|]. intros _ s2.
    apply to_bind0; [apply IH|]. intros _ s3. apply to_iter. intros. apply IH.
Qed.

(** ** Reactions *)
Lemma to_outward n x s : to (a_outward (W:=W) ch n x) s.
Proof.
  revert x s. induction n as [|n IH]; intros x s; [apply to_ret|]. cbn [a_outward]. apply to_get, to_assert.
  intros _. destruct (ctx_of _ _ _); [apply IH|done].
Qed.
Lemma to_user_action x act e s : to (a_user_action ch U x act e) s.
Proof.
  unfold a_user_action. destruct act; [|apply to_ret]. apply to_bind0; [by apply to_mark|].
  intros. apply to_ucall_x.
Qed.

Lemma ctx_held x q a : alive a x → ctx_of ch a x.1 = Some q → is_leaf ch q.1 = false ∨ ¬ sane a.
Proof.
  intros Hx Hc. unfold ctx_of in Hc. destruct (parent ch x.1) as [c|] eqn:Hp; [|done].
  destruct (decide (q.1 = c)) as [<-|Hy].
  - left. apply bool_decide_eq_false. pose proof (pos_lt ch Hwf _ _ Hp). lia.
  - right. intros Hs. destruct (sn_outer _ Hs x c Hx Hp) as [p Hq]. unfold Abs.alive in Hq. cbn [fst] in Hq.
    rewrite Hc in Hq. injection Hq as ->. done.
Qed.
Lemma outward_held n x (s s' : S) w : a_outward (W:=W) ch (Datatypes.S n) x s = (Ret w, s') →
  s' = s ∧ (is_leaf ch w.1 = false ∨ ¬ sane (core s)).
Proof.
  revert x. induction n as [|n IH]; intros x E; cbn [a_outward] in E; unfold bind at 1, gets at 1 in E;
    unfold bind at 1, assert, check in E; case_bool_decide as Hx; try done; cbn [ret] in E;
    destruct (ctx_of ch (core s) x.1) as [q|] eqn:Hc; try done.
  - injection E as -> ->. split; [done|]. by eapply ctx_held.
  - by apply (IH q).
Qed.

Lemma to_depart H ctx t x i act e s : held_ok H → to (a_depart ch U H ctx t x i act e) s.
Proof.
  intros HH. unfold a_depart. destruct (early ch x.1 i act) as [j|] eqn:Hj.
  - assert (∃ n, j = Datatypes.S n) as [n ->].
    { unfold early in Hj. repeat (case_match; try done). injection Hj as <-. by eexists. }
    apply to_bind; [apply to_outward|]. intros w s1 E _. apply outward_held in E as [-> E].
    apply to_get, to_assert. intros Hw. destruct E as [E|E].
    2:{ unfold to, from. destruct (bind _ _ s) as [[] s']; try done; by apply rtc_once, st_junk. }
    apply to_bind0.
    + apply to_finally; [|intros; apply to_drop_]. apply to_get. apply to_bind0; [apply to_terminate_state|].
      { intros y [->|?]%elem_of_cons; [done|by apply HH]. }
      intros _ s2. apply to_bind0; [apply to_ico|]. intros. apply to_user_action.
    + intros _ s2. apply to_get. apply to_bind0; [by apply to_terminate_state|]. intros. apply to_ico.
  - apply to_get. apply to_bind0; [by apply to_terminate_state|]. intros _ s2.
    apply to_bind0; [apply to_ico|]. intros. apply to_user_action.
Qed.

Lemma to_transit x d act e s : alive (core s) x → to (a_transit ch U x d act e) s.
Proof.
  intros Hx. unfold a_transit. apply to_bind0; [apply to_mark; [done|]; by destruct x|]. intros _ s1.
  destruct (transit_ok _ _ _); [|done]. destruct (common_context _ _ _) as [[i cc]|]; [|done].
  apply to_bind0; [apply to_outward|]. intros t s2. apply to_get, to_assert. intros Ht.
  assert (held_ok (opt_list (ctx_of ch (core s2) t.1)) ∨ ¬ sane (core s2)) as [HH|Hn].
  { unfold ctx_of. destruct (parent ch t.1) as [q|] eqn:Hp; [|left; apply held_nil].
    destruct (occ (core s2) !! region ch q) as [y|] eqn:Ey; [|left; apply held_nil].
    destruct (decide (y.1 = q)) as [Hy|Hy].
    - left. intros z ->%elem_of_list_singleton. rewrite Hy. apply bool_decide_eq_false.
      pose proof (pos_lt ch Hwf _ _ Hp). lia.
    - right. intros Hs. destruct (sn_outer _ Hs t q Ht Hp) as [p Hq]. unfold Abs.alive in Hq. cbn [fst] in Hq.
      rewrite Ey in Hq. injection Hq as ->. done. }
  2:{ unfold to, from. destruct (finally _ _ s2) as [[] s']; try done; by apply rtc_once, st_junk. }
  apply to_finally; [|intros; apply to_drop_opt]. apply to_bind0; [by apply to_depart|]. intros. apply to_construct.
Qed.

(** A reaction that defers only adds to the set of deferring objects at the end. *)
Definition reacts (x : aid) (m : MM rr) (s : S) : Prop :=
  match m s with
  | (Fault _, _) => True
  | (Ret RDefer, s') => ∃ s1, steps s s1 ∧ alive (core s1) x ∧ s' = MSt (set_dfr (dfr (core s1) ∪ {[x.2]}) (core s1)) (en s1)
  | (_, s') => steps s s'
  end.
Lemma reacts_bind {A} x (m : MM A) k s : to m s → (∀ a s', m s = (Ret a, s') → reacts x (k a) s') → reacts x (bind m k) s.
Proof.
  unfold to, from, reacts, bind. intros H Hk. destruct (m s) as [[a|y|f|] s1]; try done. specialize (Hk a s1 eq_refl).
  destruct (k a s1) as [[[]| | |] s2]; try done; try by etrans.
  destruct Hk as (s3 & H3 & H4 & H5). exists s3. split_and!; try done. by etrans.
Qed.
Lemma reacts_ret x r s : r ≠ RDefer → reacts x (ret r) s.
Proof. destruct r; try done; intros _; apply rtc_refl. Qed.

Lemma reacts_decide x e r s : alive (core s) x → reacts x (a_decide ch U x e r) s.
Proof.
  intros Hx. destruct r; cbn [a_decide].
  - by apply reacts_ret.
  - by apply reacts_ret.
  - unfold reacts, bind, gets, assert, check, on_core, modify, ret. case_bool_decide; [|done]. exists s.
    split_and!; [apply rtc_refl|done|done].
  - apply reacts_bind; [by apply to_transit|]. intros. by apply reacts_ret.
  - apply reacts_bind; [apply to_mark; [done|]; by destruct x|]. intros _ s1 _.
    apply reacts_bind; [apply to_terminate_as_reaction|]. intros. by apply reacts_ret.
  - apply reacts_bind; [by apply to_mark|]. intros. apply rtc_refl.
Qed.

Lemma reacts_run_reaction x i r e s : alive (core s) x → reacts x (a_run_reaction ch U x i r e) s.
Proof.
  intros Hx. destruct r as [? d act|?|?|? act|?]; cbn [a_run_reaction]; try by apply reacts_decide.
  - apply reacts_bind; [|intros; by apply reacts_ret]. destruct act; [|apply to_ret].
    apply to_bind0; [by apply to_mark|]. intros. apply to_ucall_x.
  - apply reacts_bind; [apply to_mark; [done|]; by destruct x|]. intros [] s1 [= <-].
    apply reacts_bind; [apply to_ucall|]. intros r s2 E. apply reacts_decide.
    apply ucall_ret in E. simpl in E. by rewrite E.
Qed.

Lemma reacts_local_react x i l e s : alive (core s) x → reacts x (a_local_react ch U x i l e) s.
Proof.
  intros Hx. revert i. induction l as [|r l IH]; intros i; cbn [a_local_react]; [by apply reacts_ret|].
  destruct (matches _ _); [by apply reacts_run_reaction|apply IH].
Qed.

Lemma to_react_impl n x e s : to (a_react_impl ch U n x e) s.
Proof.
  revert x s. induction n as [|n IH]; intros x s; [done|]. cbn [a_react_impl]. apply to_get, to_assert. intros Hx.
  apply to_bind; [apply to_mark; [done|]; by destruct x|]. intros [] s1 [= <-] _.
  match goal with |- to (bind (a_local_react ch U x 0 ?l e) ?k) ?s0 =>
    pose proof (reacts_local_react x 0 l e s0 Hx) as Hr; unfold reacts in Hr; unfold to, from; unfold bind at 1;
    destruct (a_local_react ch U x 0 l e s0) as [[r| | |] s2] end; try done.
  destruct r; [| |destruct Hr as (s3 & H3 & H4 & ->)].
  - match goal with |- context [bind ?f ?g ?s'] => change (from (MSt (core s) (log (OVisit x.2 x.1 e) (en s))) (bind f g) s') end.
    eapply from_steps; [exact Hr|]. apply to_bind0; [by apply to_mark|]. intros _ s3.
    apply to_get, to_assert. intros _. destruct (ctx_of _ _ _); [apply IH|apply to_ret].
  - match goal with |- context [bind ?f ?g ?s'] => change (from (MSt (core s) (log (OVisit x.2 x.1 e) (en s))) (bind f g) s') end.
    eapply from_steps; [exact Hr|]. apply to_bind0; [by apply to_mark|]. intros _ s3. apply to_ret.
  - exact (rtc_r _ _ _ H3 (st_postpone s3 x H4)).
Qed.

Lemma to_guarded {A} (m : MM A) s : to m s → to (a_guarded ch U m) s.
Proof. intros Hm. apply to_on_exn; [done|]. intros. apply to_terminate_machine. Qed.
Lemma to_with_trig {A} t (m : MM A) s : (∀ s', to m s') → to (a_with_trig t m) s.
Proof.
  intros Hm. unfold a_with_trig. apply to_get. apply to_bind0; [apply to_trig|]. intros _ s1.
  apply to_finally; [done|]. intros. apply to_trig.
Qed.

Lemma to_handle xe y cur s : to (a_handle_exception ch U xe y cur) s.
Proof.
  unfold a_handle_exception. apply to_get. unfold id. destruct (a_terminated s); [apply to_throw|].
  destruct (match aunst (core s) with None => cur | Some u => Some u end) as [x|]; [|done].
  apply to_bind0; [|intros; apply to_bind0; [by apply to_mark|intros; apply to_ret]].
  apply to_on_exn; [|intros; by apply to_mark]. apply to_with_trig. intros s1.
  apply to_bind0; [by apply to_mark|]. intros _ s2. apply to_bind0; [apply to_full|]. intros _ s3.
  apply to_bind0; [apply to_react_impl|]. intros r s4. apply to_bind0; [apply to_full|]. intros _ s5.
  apply to_get. destruct (_ && _); [apply to_ret|apply to_throw].
Qed.
Lemma to_translated m cur s : to m s → to (a_translated ch U m cur) s.
Proof.
  intros Hm. apply to_catching; [done|]. intros y s1. apply to_bind0; [by apply to_mark|]. intros _ s2.
  destruct (u_translate U y); [apply to_handle|apply to_throw].
Qed.

Lemma to_dispatch n i e s : to (a_dispatch ch U n i e) s.
Proof.
  revert i s. induction n as [|n IH]; intros i s; cbn [a_dispatch]; apply to_get;
    (destruct (bool_decide _); [apply to_ret|]); [done|].
  destruct (ord _ !! i); [|done]. apply to_bind0; [apply to_translated, to_react_impl|].
  intros r s1. destruct r; [apply IH|apply to_ret..].
Qed.

Lemma to_send_event e s : to (a_send_event ch U e) s.
Proof.
  unfold a_send_event. apply to_finally; [|intros; by apply to_mark]. apply to_with_trig. intros s1.
  apply to_get. apply to_bind0; [by apply to_mark|]. intros _ s2. apply to_bind0.
  - apply to_guarded, to_get, to_assert. intros _. apply to_dispatch.
  - intros r s3. destruct r; [|apply to_ret..]. apply to_bind0; [by apply to_mark|]. intros _ s4.
    apply to_bind0; [apply to_ucall_x|]. intros. apply to_ret.
Qed.
Lemma to_defer_if r e s : to (a_defer_if U r e) s.
Proof. destruct r; cbn [a_defer_if]; [apply to_ret..|]. apply to_bind0; [by apply to_alloc|]. intros _ s1. eapply to_step; [done|]. apply st_defer. Qed.

Lemma to_process_queued n s : to (a_process_queued ch U n) s.
Proof.
  revert s. induction n as [|n IH]; intros s; cbn [a_process_queued]; apply to_get;
    (destruct (queue (en s)) as [|e q] eqn:Hq; [apply to_ret|]); [apply to_diverge|].
  apply to_bind0; [eapply to_step; [done|]; by constructor|]. intros _ s1.
  apply to_bind0; [apply to_send_event|]. intros r s2. apply to_bind0; [apply to_defer_if|]. intros. apply IH.
Qed.

Lemma to_terminate s : to (a_terminate ch U) s.
Proof.
  apply to_with_trig. intros s1. apply to_guarded. apply to_bind0; [|intros; apply to_ret].
  apply to_translated. apply to_bind0; [apply to_terminate_machine|intros; apply to_ret].
Qed.
Lemma to_initiate n s : to (a_initiate ch U n) s.
Proof.
  apply to_bind0; [apply to_terminate|]. intros _ s1. apply to_bind0; [|intros; apply to_process_queued].
  apply to_with_trig. intros s2. apply to_guarded. apply to_bind0; [|intros; apply to_ret].
  apply to_translated. apply to_bind0; [apply to_construct|intros; apply to_ret].
Qed.
Lemma to_process_event n e s : to (a_process_event ch U n e) s.
Proof.
  apply to_bind0; [by apply to_mark|]. intros _ s1. apply to_bind0; [apply to_send_event|]. intros r s2.
  apply to_bind0; [apply to_defer_if|]. intros. apply to_process_queued.
Qed.

Lemma to_cmd x s : to (do_cmd ch x) s.
Proof.
  pose proof (cmds_usteps (abs_leaves (core s)) [x] s) as H. unfold to, from. simpl in H. unfold bind in H.
  destruct (do_cmd ch x s) as [[] s1]; try done. destruct H. apply rtc_once. by apply steps_user.
Qed.

Theorem to_call o s : to (a_call ch U o) s.
Proof.
  destruct o; cbn [a_call].
  - apply to_initiate.
  - apply to_terminate.
  - apply to_process_event.
  - apply to_cmd.
  - apply to_cmd.
  - apply to_cmd.
Qed.
End steps.
