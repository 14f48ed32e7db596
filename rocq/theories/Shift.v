(** Running the abstract machine on other addresses: the same calls, the same results and the same
    observations, with every address moved by a fixed distance.  This compares a machine that was
    terminated with a new one (PropsFresh.v). *)
From stdpp Require Import relations.
From Verif Require Export Calls.

(** An observation with its addresses renamed. *)
Definition rename_kind (f : ptr → ptr) (k : okind) : okind :=
  match k with
  | OCtor p c => OCtor (f p) c
  | OCtorThrow p c => OCtorThrow (f p) c
  | OExit p c => OExit (f p) c
  | ODtor p c => ODtor (f p) c
  | OReact p c i e => OReact (f p) c i e
  | OAction x a e => OAction (f <$> x) a e
  | OVisit p c e => OVisit (f p) c e
  | OResult p c r => OResult (f p) c r
  | OHandle p e => OHandle (f p) e
  | OTransit p c d => OTransit (f p) c d
  | OTerminate p c => OTerminate (f p) c
  | _ => k
  end.
Definition rename (f : ptr → ptr) (o : obs) : obs := Obs (ob_trig o) (rename_kind f (ob o)).

Section shift.
Context {W : Type} (ch : chart) (U : user W) (Hwf : wf_chart ch = true) (HU : user_ok ch U).
Context (n : nat) (D : gset ptr) (t0 : list obs) (HD : ∀ p, p ∈ D → p < n).
Notation S := (mst W acore).
Notation MM := (M S).
Notation alive := (alive ch).

Definition up (p : ptr) : ptr := p + n.
Definition shx (x : aid) : aid := (x.1, up x.2).
Definition shA (a : acore) : acore :=
  ACore (shx <$> occ a) (set_map up (dfr a) ∪ D) (map shx (ord a)) (shx <$> aunst a) (up (anxt a)).
(** The other machine has its own history maps, its own flag isInnermostCommonOuter_ and its own record of
    what user code saw. *)
Record own := Own { own_shallow : hist; own_deep : hist; own_ico : bool;
  own_sights : list (nat * list cls) }.
Definition shE (b : own) (v : env W) : env W :=
  Env (queue v) (deferred v) (own_shallow b) (own_deep b) (trig v) (own_ico b) (full v) (world v)
    (t0 ++ map (rename up) (trace v)) (own_sights b).
Definition shS (b : own) (s : S) : S := MSt (shA (core s)) (shE b (en s)).

(** An entry without a state is as good as no entry. *)
Definition same_hist (m m' : hist) : Prop := ∀ r h, m !! r = Some (Some h) ↔ m' !! r = Some (Some h).

(** The flag may differ while there is no state; [st] says that it does not. *)
Definition owns (st : bool) (b : own) (s : S) : Prop :=
  (same_hist (shallow_map (en s)) (own_shallow b) ∧ same_hist (deep_map (en s)) (own_deep b)) ∧
  ((own_ico b) = ico (en s) ∨ (st = false ∧ empty_core (core s))).
Definition rel (st : bool) (s s' : S) : Prop := ∃ b, s' = shS b s ∧ owns st b s.

Inductive rres {A B} (Q : A → B → Prop) : res A → res B → Prop :=
| rr_ret a b : Q a b → rres Q (Ret a) (Ret b)
| rr_exn x : rres Q (Exn x) (Exn x)
| rr_fault f : rres Q (Fault f) (Fault f)
| rr_div : rres Q Div Div.

Definition sim {A B} (st : bool) (Q : A → B → Prop) (m : MM A) (m' : MM B) : Prop :=
  ∀ s s', rel st s s' → rres Q (m s).1 (m' s').1 ∧ rel st (m s).2 (m' s').2.

Lemma rel_weak st s s' : rel true s s' → rel st s s'.
Proof. intros (b & -> & Hh & [Hb|[? _]]); [|done]. exists b. split; [done|]. split; [done|by left]. Qed.

Lemma sim_mono {A B} st (Q Q' : A → B → Prop) m m' : sim st Q m m' → (∀ a b, Q a b → Q' a b) → sim st Q' m m'.
Proof.
  intros Hm HQ s s' Hs. destruct (Hm s s' Hs) as [Hr Hs']. split; [|done]. destruct Hr; constructor. by apply HQ.
Qed.
Lemma sim_ret {A B} st (Q : A → B → Prop) a b : Q a b → sim st Q (ret a) (ret b).
Proof. intros ? s s' Hs. split; [by constructor|done]. Qed.
Lemma sim_throw {A B} st (Q : A → B → Prop) x : sim st Q (throw x) (throw x).
Proof. intros s s' Hs. split; [by constructor|done]. Qed.
Lemma sim_faulty {A B} st (Q : A → B → Prop) x : sim st Q (faulty x) (faulty x).
Proof. intros s s' Hs. split; [by constructor|done]. Qed.
Lemma sim_diverge {A B} st (Q : A → B → Prop) : sim st Q diverge diverge.
Proof. intros s s' Hs. split; [by constructor|done]. Qed.
Lemma sim_bind {A B C E} st (P : A → B → Prop) (Q : C → E → Prop) m m' k k' :
  sim st P m m' → (∀ a b, P a b → sim st Q (k a) (k' b)) → sim st Q (bind m k) (bind m' k').
Proof.
  intros Hm Hk s s' Hs. unfold bind. destruct (Hm s s' Hs) as [Hr Hs'].
  destruct (m s) as [r s1], (m' s') as [r' s1']. simpl in *. destruct Hr; try (by split; [constructor|]).
  by apply Hk.
Qed.
Lemma sim_gets {A B} st (Q : A → B → Prop) f f' :
  (∀ s b, owns st b s → Q (f s) (f' (shS b s))) → sim st Q (gets f) (gets f').
Proof. intros H s s' (b & -> & Hb). simpl. split; [by constructor; apply H|]. by exists b. Qed.
Lemma sim_core st : sim st (λ a a', a' = shA a) (gets core) (gets core).
Proof. by apply sim_gets. Qed.
Lemma sim_finally {A B} st (Q : A → B → Prop) m m' c c' :
  sim st Q m m' → sim st (λ _ _, True) c c' → sim st Q (finally m c) (finally m' c').
Proof.
  intros Hm Hc s s' Hs. unfold finally. destruct (Hm s s' Hs) as [Hr Hs'].
  destruct (m s) as [r s1], (m' s') as [r' s1']. simpl in *. destruct Hr; try (by split; [constructor|]).
  - destruct (Hc s1 s1' Hs') as [Hr2 Hs2]. destruct (c s1) as [r2 s2], (c' s1') as [r2' s2']. simpl in *.
    destruct Hr2; (split; [by constructor|done]).
  - destruct (Hc s1 s1' Hs') as [Hr2 Hs2]. destruct (c s1) as [r2 s2], (c' s1') as [r2' s2']. simpl in *.
    destruct Hr2; (split; [by constructor|done]).
Qed.
Lemma sim_on_exn {A B} st (Q : A → B → Prop) m m' c c' :
  sim st Q m m' → sim st (λ _ _, True) c c' → sim st Q (on_exn m c) (on_exn m' c').
Proof.
  intros Hm Hc s s' Hs. unfold on_exn. destruct (Hm s s' Hs) as [Hr Hs'].
  destruct (m s) as [r s1], (m' s') as [r' s1']. simpl in *. destruct Hr; try (by split; [constructor|]).
  destruct (Hc s1 s1' Hs') as [Hr2 Hs2]. destruct (c s1) as [r2 s2], (c' s1') as [r2' s2']. simpl in *.
  destruct Hr2; (split; [by constructor|done]).
Qed.
Lemma sim_catching {A B} st (Q : A → B → Prop) m m' h h' :
  sim st Q m m' → (∀ y, sim st Q (h y) (h' y)) → sim st Q (catching m h) (catching m' h').
Proof.
  intros Hm Hh s s' Hs. unfold catching. destruct (Hm s s' Hs) as [Hr Hs'].
  destruct (m s) as [r s1], (m' s') as [r' s1']. simpl in *. destruct Hr; try (by split; [constructor|]).
  by apply Hh.
Qed.
Lemma sim_iter {A} st (f f' : A → MM unit) l : (∀ a, sim st eq (f a) (f' a)) → sim st eq (iter f l) (iter f' l).
Proof.
  intros Hf. induction l as [|a l IH]; [by apply sim_ret|]. simpl. by eapply sim_bind; [apply Hf|].
Qed.
Lemma sim_check st b b' f : b' = b → sim st eq (check b f) (check b' f).
Proof. intros ->. unfold check. destruct b; [by apply sim_ret|apply sim_faulty]. Qed.
Lemma sim_assert st (P P' : Prop) {HP : Decision P} {HP' : Decision P'} : (P' ↔ P) → sim st eq (assert P) (assert P').
Proof. intros H. unfold assert. apply sim_check. by apply bool_decide_ext. Qed.
Lemma sim_when st b b' m m' : b' = b → sim st eq m m' → sim st eq (when b m) (when b' m').
Proof. intros -> ?. unfold when. destruct b; [done|by apply sim_ret]. Qed.
Lemma sim_env_own st (f f' : env W → env W) (g : own → own) :
  (∀ v b, same_hist (shallow_map v) (own_shallow b) → same_hist (deep_map v) (own_deep b) →
     f' (shE b v) = shE (g b) (f v) ∧ same_hist (shallow_map (f v)) (own_shallow (g b)) ∧ same_hist (deep_map (f v)) (own_deep (g b)) ∧ own_ico (g b) = (own_ico b)) →
  (∀ v, ico (f v) = ico v) → sim st eq (on_env f) (on_env f').
Proof.
  intros Hf Hi s s' (b & -> & [Hh1 Hh2] & Hb). simpl. split; [by constructor|].
  destruct (Hf (en s) b Hh1 Hh2) as (E & H1 & H2 & H3). exists (g b). split.
  - unfold shS. simpl. by rewrite E.
  - split; [done|]. simpl. by rewrite Hi, H3.
Qed.
Lemma sim_env st (f f' : env W → env W) : (∀ v b, f' (shE b v) = shE b (f v)) → (∀ v, shallow_map (f v) = shallow_map v) →
  (∀ v, deep_map (f v) = deep_map v) → (∀ v, ico (f v) = ico v) → sim st eq (on_env f) (on_env f').
Proof. intros Hf H1 H2 Hi. apply (sim_env_own st f f' id); [|done]. intros v b Hh1 Hh2. by rewrite Hf, H1, H2. Qed.
Lemma sim_ico st c : sim st eq (on_env (set_ico c)) (on_env (set_ico c)).
Proof.
  intros s s' (b & -> & Hh & Hb). simpl. split; [by constructor|]. exists (Own (own_shallow b) (own_deep b) c (own_sights b)). split; [done|]. split; [done|by left].
Qed.
Lemma sim_on_core st f f' : (∀ a, f' (shA a) = shA (f a)) → (st = false → ∀ a, empty_core a → empty_core (f a)) →
  sim st eq (on_core f) (on_core f').
Proof.
  intros Hf He s s' (b & -> & Hh & Hb). simpl. split; [by constructor|]. exists b. split; [|split; [done|simpl]].
  - unfold shS. simpl. by rewrite Hf.
  - destruct Hb as [|[-> ?]]; [by left|right]. split; [done|]. by apply He.
Qed.
Lemma same_insert m m' r o : same_hist m m' → same_hist (<[r:=o]> m) (<[r:=o]> m').
Proof.
  intros H r' h. destruct (decide (r = r')) as [->|Hn]; [by rewrite !lookup_insert|]. rewrite !lookup_insert_ne by done. apply H.
Qed.

Lemma shE_log b k v : log (rename_kind up k) (shE b v) = shE b (log k v).
Proof. unfold log, shE. simpl. f_equal. by rewrite map_app, app_assoc. Qed.
Lemma sim_emit st k k' : k' = rename_kind up k → sim st eq (emit k) (emit k').
Proof. intros ->. apply sim_env; [|done..]. intros v b. apply shE_log. Qed.

Lemma shx_inj : Inj (=) (=) shx.
Proof. intros [c p] [c' p'] H. unfold shx, up in H. simpl in H. injection H as -> H. f_equal. lia. Qed.
Local Instance shx_inj' : Inj (=) (=) shx := shx_inj.
Lemma shx_fst x : (shx x).1 = x.1.
Proof. done. Qed.

Lemma sh_leaves a : abs_leaves (shA a) = abs_leaves a.
Proof. unfold abs_leaves. simpl. rewrite map_map. by apply map_ext. Qed.
Lemma sh_occ a r : occ (shA a) !! r = shx <$> occ a !! r.
Proof. simpl. by rewrite lookup_fmap. Qed.
Lemma sh_occ_None a r : occ (shA a) !! r = None ↔ occ a !! r = None.
Proof. rewrite sh_occ. by rewrite fmap_None. Qed.
Lemma fmap_shx (o : option aid) x : shx <$> o = Some (shx x) ↔ o = Some x.
Proof.
  rewrite fmap_Some. split; [|by eauto]. intros (y & -> & H). f_equal. symmetry. by apply shx_inj.
Qed.
Lemma fmap_shx' (o o' : option aid) : shx <$> o = shx <$> o' ↔ o = o'.
Proof. split; [|by intros ->]. destruct o, o'; simpl; try done. intros H. injection H as H1 H2. f_equal. destruct p, p0; simpl in *. unfold up in H2. f_equal; [done|lia]. Qed.
Lemma sh_alive a x : alive (shA a) (shx x) ↔ alive a x.
Proof. unfold Abs.alive. rewrite sh_occ, shx_fst. apply fmap_shx. Qed.
Lemma sh_alive_opt a x : alive_opt ch (shA a) (shx <$> x) ↔ alive_opt ch a x.
Proof. destruct x as [x|]; [|done]. simpl. apply sh_alive. Qed.
Lemma sh_kids a c : kids ch (shA a) c = map shx (kids ch a c).
Proof.
  unfold kids. induction (seq 0 (nreg ch c)) as [|k l IH]; [done|]. cbn [omap list_omap]. rewrite sh_occ.
  destruct (occ a !! (Some c, k)); simpl; by rewrite <-IH.
Qed.
Lemma sh_kids_nil a c : kids ch (shA a) c ≠ [] ↔ kids ch a c ≠ [].
Proof. rewrite sh_kids. by destruct (kids ch a c). Qed.
Lemma sh_elem x l : shx x ∈ map shx l ↔ x ∈ l.
Proof. apply (elem_of_list_fmap_inj shx). Qed.
Lemma sh_unst a x : aunst (shA a) = Some (shx x) ↔ aunst a = Some x.
Proof. simpl. apply fmap_shx. Qed.
Lemma sh_unst' a x : aunst (shA a) = shx <$> x ↔ aunst a = x.
Proof. simpl. apply fmap_shx'. Qed.
Lemma sh_busy H a x : busy ch (map shx H) (shA a) (shx x) = busy ch H a x.
Proof.
  unfold busy. f_equal; [f_equal; [f_equal|]|]; apply bool_decide_ext; rewrite ?shx_fst.
  - apply sh_kids_nil.
  - apply sh_elem.
  - apply sh_unst.
  - apply sh_elem.
Qed.
Lemma sh_ctx a c : ctx_of ch (shA a) c = shx <$> ctx_of ch a c.
Proof. unfold ctx_of. destruct (parent ch c); [|done]. apply sh_occ. Qed.
Lemma sh_dfr a p : up p ∈ dfr (shA a) ↔ p ∈ dfr a.
Proof.
  simpl. rewrite elem_of_union, elem_of_map. split; [|by eauto]. intros [(q & H & Hq)|H].
  - unfold up in H. assert (p = q) as -> by lia. done.
  - apply HD in H. unfold up in H. lia.
Qed.

(** *** User code *)
Lemma sim_cmd st x : sim st eq (do_cmd ch x) (do_cmd ch x).
Proof.
  destruct x as [e|c k|c k]; simpl.
  - apply sim_env; [|done..]. intros v b. unfold do_post. pose proof (shE_log b (OPost e) v) as E. simpl in E. by rewrite E.
  - destruct (clear_ok _ _ _ _); [|apply sim_faulty]. apply (sim_env_own st _ _ (λ b, Own (<[(Some c, k) := None]> (own_shallow b)) (own_deep b) (own_ico b) (own_sights b))); [|done].
    intros v b H1 H2. pose proof (shE_log b (OClearS c k) v) as E. simpl in E. rewrite E. split; [done|].
    simpl. split_and!; [by try apply same_insert..|done].
  - destruct (clear_ok _ _ _ _); [|apply sim_faulty]. apply (sim_env_own st _ _ (λ b, Own (own_shallow b) (<[(Some c, k) := None]> (own_deep b)) (own_ico b) (own_sights b))); [|done].
    intros v b H1 H2. pose proof (shE_log b (OClearD c k) v) as E. simpl in E. rewrite E. split; [done|].
    simpl. split_and!; [by try apply same_insert..|done].
Qed.
Lemma sim_saw st w l : sim st eq (on_env (λ e, set_world w (saw l e))) (on_env (λ e, set_world w (saw l e))).
Proof.
  intros s s' (b & -> & Hh & Hb). simpl. split; [by constructor|].
  exists (Own (own_shallow b) (own_deep b) (own_ico b)
            (own_sights b ++ [(length (trace (shE b (en s))), l)])). done.
Qed.
Lemma sim_ucall {A} st (f : view → W → W * list cmd * A) : sim st eq (ucall ch abs_leaves f) (ucall ch abs_leaves f).
Proof.
  unfold ucall. eapply (sim_bind st (λ s s', ∃ b, s' = shS b s)).
  { apply sim_gets. intros s b _. by exists b. }
  intros s s' (b & ->). simpl. rewrite sh_leaves. destruct (f _ _) as [[w cs] r].
  eapply sim_bind; [apply sim_saw|]. intros _ _ _. eapply sim_bind; [apply sim_iter; intros; apply sim_cmd|].
  intros _ _ _. by apply sim_ret.
Qed.
Lemma sim_ucall_x st f : sim st eq (ucall_x ch abs_leaves f) (ucall_x ch abs_leaves f).
Proof.
  unfold ucall_x. eapply sim_bind; [apply sim_ucall|]. intros r _ <-. destruct r as [y|]; [|by apply sim_ret].
  eapply sim_bind; [by apply sim_emit|]. intros _ _ _. apply sim_throw.
Qed.

Lemma sim_alloc st a : sim st eq (alloc U a) (alloc U a).
Proof.
  unfold alloc. eapply (sim_bind st (λ s s', ∃ b, s' = shS b s)).
  { apply sim_gets. intros s b _. by exists b. }
  intros s s' (b & ->). unfold id. change (world (en (shS b s))) with (world (en s)). destruct (u_alloc U a _) as [w r].
  eapply sim_bind; [by apply sim_env|]. intros _ _ _. destruct r as [y|]; [|by apply sim_ret].
  eapply sim_bind; [by apply sim_emit|]. intros _ _ _. eapply sim_bind; [by apply sim_emit|]. intros _ _ _. apply sim_throw.
Qed.

(** *** Destruction *)
Lemma sim_destroy st x : sim st eq (a_destroy ch U x) (a_destroy ch U (shx x)).
Proof.
  unfold a_destroy. eapply sim_bind; [by apply sim_emit|]. intros _ _ _. rewrite shx_fst.
  eapply sim_bind; [apply sim_ucall|]. intros _ _ _. eapply sim_bind; [apply sim_core|]. intros a a' ->.
  eapply sim_bind; [apply sim_when|].
  - apply bool_decide_ext. apply sh_dfr.
  - apply sim_env; [|done..]. intros v b. pose proof (shE_log b ORelease v) as E. simpl in E. by rewrite E.
  - intros _ _ _. apply sim_on_core.
    + intros a1. unfold shA, set_occ, set_dfr. simpl. rewrite fmap_delete. f_equal.
      apply set_eq. intros p. rewrite elem_of_difference, !elem_of_union, !elem_of_map, elem_of_singleton.
      split.
      * intros [[(q & -> & Hq)|Hp] Hn]; [|by right]. left. exists q. split; [done|]. rewrite elem_of_difference, elem_of_singleton.
        split; [done|]. by intros ->.
      * intros [(q & -> & Hq)|Hp].
        -- rewrite elem_of_difference, elem_of_singleton in Hq. destruct Hq as [Hq Hn]. split; [left; by exists q|].
           intros E. apply Hn. unfold up in E. simpl in E. lia.
        -- split; [by right|]. intros ->. apply HD in Hp. unfold up in Hp. lia.
    + intros _ a1 (E1 & E2 & E3). split_and!; simpl; [|done..]. by rewrite E1, delete_empty.
Qed.
Lemma sim_drop st k H x : sim st eq (a_drop ch U k H x) (a_drop ch U k (map shx H) (shx x)).
Proof.
  revert x. induction k as [|k IH]; intros x; simpl; [apply sim_faulty|].
  eapply sim_bind; [apply sim_core|]. intros a a' ->. eapply sim_bind; [apply sim_assert, sh_alive|]. intros _ _ _.
  rewrite sh_busy. destruct (busy ch H a x); [by apply sim_ret|]. eapply sim_bind; [apply sim_destroy|]. intros _ _ _.
  rewrite sh_ctx. destruct (ctx_of ch a x.1); [apply IH|by apply sim_ret].
Qed.
Lemma sim_drop_opt st H x : sim st eq (drop_opt ch U H x) (drop_opt ch U (map shx H) (shx <$> x)).
Proof. destruct x; simpl; [apply sim_drop|by apply sim_ret]. Qed.

Lemma empty_alive a x : empty_core a → ¬ alive a x.
Proof. intros (E & _). unfold Abs.alive. by rewrite E, lookup_empty. Qed.

Lemma sim_set_unst st H x : sim st eq (a_set_unst ch H x) (a_set_unst ch (map shx H) (shx <$> x)).
Proof.
  intros s s' (b & -> & Hb). unfold a_set_unst, bind, gets, assert, check.
  change (core (shS b s)) with (shA (core s)). change (en (shS b s)) with (shE b (en s)).
  rewrite (bool_decide_ext _ _ (sh_alive_opt (core s) x)). destruct (bool_decide (alive_opt ch (core s) x)) eqn:Ex.
  2:{ split; [constructor|]. exists b. split; [done|]. done. }
  unfold ret, on_core, modify. cbn [core en].
  change (core (shS b s)) with (shA (core s)). change (en (shS b s)) with (shE b (en s)).
  change (set_aunst (shx <$> x) (shA (core s))) with (shA (set_aunst x (core s))).
  assert (rel st (MSt (set_aunst x (core s)) (en s)) (MSt (shA (set_aunst x (core s))) (shE b (en s)))) as Hr.
  { exists b. split; [done|]. destruct Hb as [Hh Hb]. split; [done|]. simpl. destruct Hb as [|[? He]]; [by left|right]. split; [done|].
    destruct x as [x|]; [|by destruct He as (? & ? & ?)]. apply bool_decide_eq_true in Ex. simpl in Ex. exfalso. by eapply empty_alive. }
  change (aunst (shA (core s))) with (shx <$> aunst (core s)). destruct (aunst (core s)) as [o|].
  - change (shx <$> Some o) with (Some (shx o)). cbv iota beta.
    rewrite sh_busy. destruct (busy _ _ _ _); (split; [by constructor|done]).
  - by split; [constructor|].
Qed.

(** *** Construction *)
Lemma sim_user_ctor st p c : sim st eq (a_user_ctor ch U p c) (a_user_ctor ch U (up p) c).
Proof.
  unfold a_user_ctor. eapply sim_bind; [apply sim_ucall|]. intros r _ <-. destruct r as [y|]; [|by apply sim_emit].
  eapply sim_bind; [by apply sim_emit|]. intros _ _ _. eapply sim_bind; [by apply sim_emit|]. intros _ _ _. apply sim_throw.
Qed.
Lemma sim_simple_ctor st p c : sim st eq (a_simple_ctor ch U p c) (a_simple_ctor ch U (up p) c).
Proof.
  unfold a_simple_ctor. eapply (sim_bind st (λ s s', ∃ b, s' = shS b s)).
  { apply sim_gets. intros s b _. by exists b. }
  intros s s' (b & ->). simpl. rewrite sh_leaves. eapply sim_bind; [by apply sim_check|]. intros _ _ _. apply sim_user_ctor.
Qed.
Lemma sh_ctx_ok H a c x : ctx_ok ch (map shx H) (shA a) c (shx <$> x) ↔ ctx_ok ch H a c x.
Proof. unfold ctx_ok. destruct (parent ch c), x as [x|]; simpl; try done. by rewrite sh_alive, sh_elem. Qed.

(** Constructing one object, up to entering it. *)
Definition a_new1 (H : list aid) (c : cls) (ctx : option aid) : MM aid :=
  alloc U (AState c) ;!
  let! a := gets core in
  let p := anxt a in
  assert (ctx_ok ch H a c ctx) ;!
  assert (occ a !! region ch c = None) ;!
  on_core (set_anxt (p + 1)) ;!
  (if cd_state (cd ch c) then a_user_ctor ch U p c else a_simple_ctor ch U p c) ;!
  ret (c, p).
Definition a_new2 (H : list aid) (x : aid) (ctx : option aid) : MM aid :=
  on_core (λ a, set_occ (<[region ch x.1 := x]> (occ a)) a) ;!
  a_entry ch U x ;!
  a_add ch (x :: H) x ctx ;!
  ret x.

Lemma bind_assoc {A B C} (m : MM A) (k : A → MM B) (k' : B → MM C) s :
  bind (bind m k) k' s = bind m (λ a, bind (k a) k') s.
Proof. unfold bind. by destruct (m s) as [[]?]. Qed.
Lemma bind_cong {A B} (m : MM A) (k k' : A → MM B) s : (∀ a s', k a s' = k' a s') → bind m k s = bind m k' s.
Proof. intros H. unfold bind. by destruct (m s) as [[]?]. Qed.

Lemma shallow_split H c ctx s : a_shallow ch U H c ctx s = (let! x := a_new1 H c ctx in a_new2 H x ctx) s.
Proof.
  unfold a_shallow, a_new, a_new1. rewrite !bind_assoc. apply bind_cong. intros [] s0.
  rewrite !bind_assoc. apply bind_cong. intros a s1.
  rewrite !bind_assoc. apply bind_cong. intros [] s2. rewrite !bind_assoc. apply bind_cong. intros [] s3.
  rewrite !bind_assoc. apply bind_cong. intros [] s4. rewrite !bind_assoc. apply bind_cong. intros [] s5.
  rewrite !bind_assoc. trans (a_new2 H (c, anxt a) ctx s5); [|done]. unfold a_new2. apply bind_cong. intros [] s6. done.
Qed.

Lemma sim_new1 st H c ctx : sim st (λ x y, y = shx x ∧ x.1 = c)
  (a_new1 H c ctx) (a_new1 (map shx H) c (shx <$> ctx)).
Proof.
  unfold a_new1. eapply sim_bind; [apply sim_alloc|]. intros _ _ _. eapply sim_bind; [apply sim_core|]. intros a a' ->.
  eapply sim_bind; [apply sim_assert, sh_ctx_ok|]. intros _ _ _.
  eapply sim_bind; [apply sim_assert, sh_occ_None|]. intros _ _ _.
  eapply sim_bind.
  { apply (sim_on_core st (set_anxt (anxt a + 1)) (set_anxt (anxt (shA a) + 1))).
    - intros a1. unfold shA, set_anxt, up. simpl. f_equal. lia.
    - by intros _ a1 (? & ? & ?). }
  intros _ _ _. eapply (sim_bind st eq).
  { destruct (cd_state _); [apply sim_user_ctor|apply sim_simple_ctor]. }
  intros _ _ _. apply sim_ret. done.
Qed.

Lemma sim_add H x ctx : sim true eq (a_add (W:=W) ch H x ctx) (a_add ch (map shx H) (shx x) (shx <$> ctx)).
Proof.
  unfold a_add. rewrite shx_fst. eapply (sim_bind true eq).
  { destruct (is_leaf ch x.1); [|by apply sim_ret]. apply sim_on_core; [|done]. intros a. unfold shA, set_ord. simpl.
    by rewrite map_app. }
  intros _ _ _. eapply (sim_bind true (λ s s', ∃ b, s' = shS b s ∧ own_ico b = ico (en s))).
  { apply sim_gets. intros s b [_ [?|[? _]]]; [|done]. by exists b. }
  intros s s' (b & -> & Hb). cbn [en shS shE ico core]. rewrite Hb. rewrite (bool_decide_ext _ _ (sh_unst' (core s) ctx)).
  destruct (_ || _); [|by apply sim_ret]. eapply sim_bind; [apply sim_ico|]. intros _ _ _.
  assert ((if is_leaf ch x.1 then None else Some (shx x)) = shx <$> (if is_leaf ch x.1 then None else Some x)) as ->
    by by destruct (is_leaf ch x.1).
  apply sim_set_unst.
Qed.
Lemma sim_new2 H x ctx : sim true (λ x y, y = shx x) (a_new2 H x ctx) (a_new2 (map shx H) (shx x) (shx <$> ctx)).
Proof.
  unfold a_new2. eapply sim_bind.
  { apply sim_on_core; [|done]. intros a. unfold shA, set_occ. simpl. rewrite fmap_insert. done. }
  intros _ _ _. eapply sim_bind.
  { unfold a_entry. apply sim_when; [by rewrite shx_fst|]. rewrite shx_fst. apply sim_on_exn; [apply sim_alloc|].
    eapply sim_mono; [apply sim_destroy|done]. }
  intros _ _ _. eapply sim_bind; [apply (sim_add (x :: H))|]. intros _ _ _. by apply sim_ret.
Qed.

(** For an outermost state the flag makes no difference. *)
Lemma add_ico H x (s : S) b : pos ch x.1 + 1 = nreg_ctx ch (parent ch x.1) → aunst (core s) = None →
  a_add ch H x None (MSt (core s) (set_ico b (en s))) = a_add ch H x None s.
Proof.
  intros Hp Hu. unfold a_add. unfold bind, on_core, modify, gets, ret.
  destruct (is_leaf ch x.1); cbn [core en]; simpl; rewrite Hu, !bool_decide_eq_true_2 by done; rewrite !orb_true_r; done.
Qed.

(** Computations that neither read nor write the flag. *)
Definition flip (b : bool) (s : S) : S := MSt (core s) (set_ico b (en s)).
Definition deaf {A} (m : MM A) : Prop := ∀ b s, m (flip b s) = ((m s).1, flip b (m s).2).
Lemma deaf_bind {A B} (m : MM A) (k : A → MM B) : deaf m → (∀ a, deaf (k a)) → deaf (bind m k).
Proof. intros Hm Hk b s. unfold bind. rewrite Hm. destruct (m s) as [[a| | |] s1]; simpl; [apply Hk|done..]. Qed.
Lemma deaf_iter {A} (f : A → MM unit) l : (∀ a, deaf (f a)) → deaf (iter f l).
Proof. intros Hf. induction l as [|a l IH]; [done|]. simpl. by apply deaf_bind. Qed.
Lemma deaf_at {A B} (g : S → A) (k : A → MM B) : (∀ b s s', k (g (flip b s)) s' = k (g s) s') → (∀ a, deaf (k a)) →
  deaf (bind (gets g) k).
Proof. intros H1 H2 b s. unfold bind, gets. rewrite H1. apply H2. Qed.
Lemma deaf_ucall {A} (f : view → W → W * list cmd * A) : deaf (ucall ch abs_leaves f).
Proof.
  unfold ucall. apply deaf_at; [done|]. intros s0. destruct (f _ _) as [[w cs] r].
  apply deaf_bind; [done|]. intros _. apply deaf_bind; [|done]. apply deaf_iter. intros x b' s'.
  destruct x; simpl; [done|by destruct (clear_ok _ _ _ _)..].
Qed.
Lemma deaf_destroy x : deaf (a_destroy ch U x).
Proof.
  unfold a_destroy. apply deaf_bind; [done|]. intros _. apply deaf_bind; [apply deaf_ucall|]. intros _.
  apply deaf_at; [done|]. intros a. apply deaf_bind; [|done]. by case_bool_decide.
Qed.
Lemma deaf_alloc a : deaf (alloc U a).
Proof. unfold alloc. apply deaf_at; [done|]. intros s0. destruct (u_alloc U a _) as [w [y|]]; by apply deaf_bind. Qed.
Lemma deaf_entry x : deaf (a_entry ch U x).
Proof.
  intros b s. unfold a_entry. destruct (is_leaf ch x.1); [|done]. cbn [when]. unfold on_exn. rewrite deaf_alloc.
  destruct (alloc U (AEntry x.1) s) as [[] s1]; try done. simpl. rewrite deaf_destroy. by destruct (a_destroy ch U x s1) as [[] s2].
Qed.
Lemma entry_core x s : match a_entry ch U x s with
  | (Ret _, s1) => core s1 = core s
  | (Exn _, s1) => core s1 = destroyed ch x (core s)
  | _ => False end.
Proof.
  unfold a_entry. destruct (is_leaf ch x.1); [|done]. cbn [when]. unfold on_exn. pose proof (alloc_usteps U (AEntry x.1) s) as Ha.
  destruct (alloc U (AEntry x.1) s) as [[] s1]; try done; destruct Ha as [Hc Ha]; [done|].
  pose proof (wp_destroy ch U HU x s1) as Hd. unfold wp in Hd. destruct (a_destroy ch U x s1) as [[] s2]; try done.
  destruct Hd as [-> _]. by rewrite Hc.
Qed.

Lemma new2_eq H x ctx (s : S) : a_new2 H x ctx s =
  match a_entry ch U x (MSt (set_occ (<[region ch x.1:=x]> (occ (core s))) (core s)) (en s)) with
  | (Ret _, s1) => (a_add ch (x :: H) x ctx ;! ret x) s1
  | (Exn y, s1) => (Exn y, s1)
  | (Fault f, s1) => (Fault f, s1)
  | (Div, s1) => (Div, s1)
  end.
Proof. done. Qed.
Lemma new2_ico H x (s : S) b : parent ch x.1 = None → empty_core (core s) →
  a_new2 H x None (flip b s) = a_new2 H x None s ∨
  ∃ y s1, a_new2 H x None s = (Exn y, s1) ∧ a_new2 H x None (flip b s) = (Exn y, flip b s1) ∧ empty_core (core s1).
Proof.
  intros Hp (Ho & Hor & Hu). rewrite !new2_eq. cbn [core en flip].
  set (s0 := MSt (set_occ (<[region ch x.1:=x]> (occ (core s))) (core s)) (en s)).
  change (MSt (set_occ (<[region ch x.1:=x]> (occ (core s))) (core s)) (set_ico b (en s))) with (flip b s0).
  rewrite deaf_entry. pose proof (entry_core x s0) as Hc.
  destruct (a_entry ch U x s0) as [[[]|y| |] s1] eqn:E0; cbn [fst snd]; [|right|done..].
  - left. unfold bind. unfold flip. rewrite (add_ico (x :: H) x s1); [done| |by rewrite Hc].
    rewrite Hp, (pos_top ch Hwf x.1 Hp). done.
  - exists y, s1. split_and!; [done| |].
    { rewrite (deaf_entry x b s0), E0. done. }
    rewrite Hc. unfold empty_core. simpl. rewrite Ho. split_and!; [|done|done].
    apply delete_insert. apply lookup_empty.
Qed.

Lemma new1_ctx H c ctx s x s' : empty_core (core s) → a_new1 H c ctx s = (Ret x, s') → parent ch c = None ∧ ctx = None.
Proof.
  intros He. unfold a_new1. unfold bind at 1. pose proof (alloc_usteps U (AState c) s) as Ha.
  destruct (alloc U (AState c) s) as [[[]| | |] s0]; try done. destruct Ha as [Hc0 _]. rewrite <-Hc0 in He.
  unfold bind, gets, assert, check. destruct (bool_decide (ctx_ok _ _ _ _ _)) eqn:Ec; [|done]. intros _.
  apply bool_decide_eq_true in Ec. unfold ctx_ok in Ec. destruct (parent ch c), ctx as [y|]; try done.
  destruct Ec as (_ & Ha & _). exfalso. by eapply empty_alive.
Qed.

Lemma sim_shallow st H c ctx : sim st (λ x y, y = shx x) (a_shallow ch U H c ctx) (a_shallow ch U (map shx H) c (shx <$> ctx)).
Proof.
  intros s s' Hs. rewrite !shallow_split.
  assert (rel true s s' ∨ (st = false ∧ empty_core (core s))) as [Ht|[-> He]].
  { destruct Hs as (b & -> & Hh & [Hb|?]); [|by right]. left. exists b. split; [done|]. split; [done|by left]. }
  { assert (sim true (λ x y, y = shx x) (let! x := a_new1 H c ctx in a_new2 H x ctx)
      (let! x := a_new1 (map shx H) c (shx <$> ctx) in a_new2 (map shx H) x (shx <$> ctx))) as Hsim.
    { eapply sim_bind; [apply sim_new1|]. intros x y [-> _]. apply sim_new2. }
    destruct (Hsim s s' Ht) as [Hr Hs']. split; [done|by apply rel_weak]. }
  destruct (sim_new1 false H c ctx s s' Hs) as [Hr Hs1]. unfold bind.
  destruct (a_new1 H c ctx s) as [r s1] eqn:E1. destruct (a_new1 (map shx H) c (shx <$> ctx) s') as [r' s1'] eqn:E1'.
  simpl in *. destruct Hr as [x y [-> Hx]|y|f|]; try (by split; [constructor|]).
  destruct (new1_ctx _ _ _ _ _ _ He E1) as [Hp ->].
  destruct Hs1 as (b & -> & Hh & Hb). set (b' := Own (own_shallow b) (own_deep b) (ico (en s1)) (own_sights b)).
  assert (rel true s1 (shS b' s1)) as Hr' by (exists b'; split; [done|]; split; [done|by left]).
  destruct (sim_new2 H x None s1 _ Hr') as [Hr Hs2].
  destruct Hb as [Hb|[_ He1]].
  { assert (b' = b) as -> by (subst b'; rewrite <-Hb; by destruct b). split; [done|by apply rel_weak]. }
  assert (shS b s1 = flip (own_ico b) (shS b' s1)) as -> by by destruct b.
  assert (empty_core (core (shS b' s1))) as He1'.
  { destruct He1 as (F1 & F2 & F3). unfold empty_core. simpl. by rewrite F1, F2, F3, fmap_empty. }
  simpl fmap in *. destruct (new2_ico (map shx H) (shx x) (shS b' s1) (own_ico b)) as [->|(y & s3 & E3 & -> & He3)];
    [by rewrite shx_fst, Hx|done|split; [done|by apply rel_weak]|].
  rewrite E3 in Hr, Hs2. split; [done|]. cbn [snd] in *. destruct Hs2 as (b3 & -> & Hh3 & _).
  exists (Own (own_shallow b3) (own_deep b3) (own_ico b) (own_sights b3)). split; [done|]. split; [done|]. right.
  split; [done|]. destruct He3 as (F1 & F2 & F3). simpl in *. unfold empty_core. apply fmap_empty_inv in F1.
  apply fmap_nil_inv in F2. by destruct (aunst _).
Qed.

Lemma same_hist_eq m m' r : same_hist m m' → match m' !! r with Some (Some h) => Some h | _ => None end
  = match m !! r with Some (Some h) => Some h | _ => None end.
Proof.
  intros H. destruct (m !! r) as [[h|]|] eqn:E, (m' !! r) as [[h'|]|] eqn:E'; try done.
  all: first [apply H in E; rewrite E in E'; by simplify_eq | apply H in E'; by rewrite E in E'].
Qed.
Lemma sim_construct st k H path d ctx :
  sim st eq (a_construct ch U k H path d ctx) (a_construct ch U k (map shx H) path d (shx <$> ctx)).
Proof.
  revert H path d ctx. induction k as [|k IH]; intros H path d ctx; simpl; [apply sim_faulty|]. destruct path as [|c path].
  - destruct d as [c|c|c].
    + eapply sim_bind; [apply sim_shallow|]. intros x y ->. apply sim_finally.
      * apply sim_iter. intros i. apply (IH (x :: H) [] i (Some x)).
      * eapply sim_mono; [apply sim_drop|done].
    + eapply (sim_bind st same_hist); [apply sim_gets; by intros s b [[? ?] _]|]. intros m m' Hm.
      assert (match m' !! region ch c with Some (Some h) => Some h | _ => None end
        = match m !! region ch c with Some (Some h) => Some h | _ => None end) as Em by by apply same_hist_eq.
      destruct (m !! region ch c) as [[h|]|], (m' !! region ch c) as [[h'|]|]; simplify_eq.
      all: eapply sim_bind; [by apply sim_emit|]; intros _ _ _; apply IH.
    + eapply (sim_bind st same_hist); [apply sim_gets; by intros s b [[? ?] _]|]. intros m m' Hm.
      assert (match m' !! region ch c with Some (Some h) => Some h | _ => None end
        = match m !! region ch c with Some (Some h) => Some h | _ => None end) as Em by by apply same_hist_eq.
      destruct (m !! region ch c) as [[h|]|], (m' !! region ch c) as [[h'|]|]; simplify_eq.
      all: eapply sim_bind; [by apply sim_emit|]; intros _ _ _; apply IH.
  - eapply sim_bind; [apply sim_shallow|]. intros x y ->. apply sim_finally.
    + eapply sim_bind; [apply sim_iter; intros i; apply (IH (x :: H) [] i (Some x))|]. intros _ _ _.
      eapply sim_bind; [apply (IH (x :: H) path d (Some x))|]. intros _ _ _.
      apply sim_iter. intros i. apply (IH (x :: H) [] i (Some x)).
    + eapply sim_mono; [apply sim_drop|done].
Qed.

(** *** Exit *)
Lemma same_store_deep z k c l m m' : same_hist m m' → same_hist (store_deep_f ch z k c l m) (store_deep_f ch z k c l m').
Proof.
  revert c m m'. induction k as [|k IH]; intros c m m' H; simpl; [done|]. destruct (parent ch c); [|done].
  case_bool_decide; [done|]. destruct (inherited_deep _ _); [|done]. apply IH. destruct (cd_deep _); [by apply same_insert|done].
Qed.
Lemma sim_store st z c : sim st eq (on_env (store_upto ch z c)) (on_env (store_upto ch z c)).
Proof.
  apply (sim_env_own st _ _ (λ b, Own
    (if stores_shallow ch c then <[region ch c := Some c]> (own_shallow b) else own_shallow b)
    (if stores_deep ch c then store_deep_f ch z (Datatypes.S c) c c (own_deep b) else own_deep b) (own_ico b) (own_sights b))).
  - intros v b H1 H2. unfold store_upto. split; [|split_and!].
    + by destruct (stores_shallow ch c), (stores_deep ch c).
    + destruct (stores_shallow ch c), (stores_deep ch c); simpl; try done; by apply same_insert.
    + destruct (stores_shallow ch c), (stores_deep ch c); simpl; try done; by apply (same_store_deep z (Datatypes.S c)).
    + done.
  - intros v. unfold store_upto. by destruct (stores_shallow ch c), (stores_deep ch c).
Qed.
Lemma sim_new_element st c z : sim st eq (new_element ch U c z) (new_element ch U c z).
Proof.
  unfold new_element. eapply (sim_bind st (λ s s', ∃ b, s' = shS b s)).
  { apply sim_gets. intros s b _. by exists b. }
  intros s s' (b & ->). unfold id. change (world (en (shS b s))) with (world (en s)). destruct (u_alloc U _ _) as [w r].
  eapply sim_bind; [by apply sim_env|]. intros _ _ _. destruct r as [y|]; [|by apply sim_ret].
  eapply sim_bind; [|intros _ _ _; eapply sim_bind; [by apply sim_emit|]; intros _ _ _; eapply sim_bind; [by apply sim_emit|]; intros _ _ _; apply sim_throw].
  destruct z as [z|]; [apply sim_store|by apply sim_env].
Qed.
Lemma sim_exit1 st H x fe : sim st eq (a_exit1 ch U H x fe) (a_exit1 ch U (map shx H) (shx x) fe).
Proof.
  unfold a_exit1. eapply sim_bind; [apply sim_core|]. intros a a' ->. rewrite shx_fst.
  eapply (sim_bind st eq).
  { assert (bool_decide (aunst (shA a) = None ∨ aunst (shA a) = Some (shx x)) = bool_decide (aunst a = None ∨ aunst a = Some x)) as ->.
    { apply bool_decide_ext. by rewrite <-(sh_unst' a None), sh_unst. }
    destruct (bool_decide _); [|by apply sim_ret]. rewrite sh_ctx. apply (sim_set_unst st (x :: H)). }
  intros _ _ _. eapply sim_bind; [apply sim_when; [done|]|].
  { eapply (sim_bind st eq).
    - apply sim_on_exn; [|eapply sim_mono; [apply sim_drop|done]]. unfold a_user_exit.
      eapply sim_bind; [by apply sim_emit|]. intros _ _ _. rewrite shx_fst.
      eapply (sim_bind st eq); [apply sim_ucall_x|]. intros _ _ _. unfold new_record. apply sim_iter. intros z. apply sim_new_element.
    - intros _ _ _. apply sim_store. }
  intros _ _ _. apply sim_destroy.
Qed.
Lemma sim_exit st k H x fe : sim st eq (a_exit ch U k H x fe) (a_exit ch U k (map shx H) (shx x) fe).
Proof.
  revert x. induction k as [|k IH]; intros x; simpl; [apply sim_faulty|].
  eapply sim_bind; [apply sim_core|]. intros a a' ->. eapply sim_bind; [apply sim_assert, sh_alive|]. intros _ _ _.
  rewrite (bool_decide_ext _ _ (sh_kids_nil a x.1)), (bool_decide_ext _ _ (sh_elem x (ord a))), (bool_decide_ext _ _ (sh_elem x H)).
  destruct (_ || _); [by apply sim_ret|]. eapply sim_bind; [apply sim_exit1|]. intros _ _ _.
  rewrite sh_ctx. destruct (ctx_of ch a x.1); [apply IH|by apply sim_ret].
Qed.
Lemma sim_exit_opt st H x fe : sim st eq (exit_opt ch U H x fe) (exit_opt ch U (map shx H) (shx <$> x) fe).
Proof. destruct x; simpl; [apply sim_exit|by apply sim_ret]. Qed.

Lemma find_shx x l : list_find (eq (shx x)) (map shx l) = prod_map id shx <$> list_find (eq x) l.
Proof.
  induction l as [|y l IH]; [done|]. simpl. destruct (decide (x = y)) as [->|Hn].
  - by rewrite decide_True by done.
  - rewrite decide_False; [|intros E; by apply shx_inj in E]. simpl in IH. rewrite IH. by destruct (list_find (eq x) l) as [[]|].
Qed.
Lemma swap_shx i l : swap_remove i (map shx l) = map shx (swap_remove i l).
Proof.
  unfold swap_remove. change (map shx) with (@fmap list _ _ _ shx). rewrite fmap_length, list_lookup_fmap.
  destruct (l !! (length l - 1)); simpl; [|done]. by rewrite fmap_take, list_fmap_insert.
Qed.
Lemma sim_unlist st x : sim st eq (a_unlist x) (a_unlist (shx x)).
Proof.
  intros s s' (b & -> & Hb). unfold a_unlist, bind, gets. cbn [core shS ord shA]. rewrite find_shx.
  destruct (list_find (eq x) (ord (core s))) as [[i y]|] eqn:Ef; simpl.
  - split; [by constructor|]. exists b. split; [unfold shS, shA, set_ord; simpl; by rewrite swap_shx|].
    destruct Hb as [Hh Hb]. split; [done|]. destruct Hb as [?|[_ (_ & Hb & _)]]; [by left|]. by rewrite Hb in Ef.
  - split; [by constructor|]. by exists b.
Qed.
Lemma sim_remove st k H x fe : sim st eq (a_remove ch U k H x fe) (a_remove ch U k (map shx H) (shx x) fe).
Proof.
  revert x. induction k as [|k IH]; intros x; cbn [a_remove]; [apply sim_faulty|]. rewrite shx_fst.
  eapply sim_bind; [apply sim_core|]. intros a a' ->. eapply sim_bind; [apply sim_assert, sh_alive|]. intros _ _ _.
  destruct (is_leaf ch x.1). { eapply sim_bind; [apply sim_unlist|]. intros _ _ _. apply sim_exit. }
  match goal with |- sim _ _ (match ?F with _ => _ end) (match ?G with _ => _ end) =>
    assert (G = F) as Ef by (apply list_find_ext; intros i; by rewrite sh_occ_None);
    rewrite Ef; clear Ef; destruct F as [[f ?]|]
  end.
  - apply sim_iter. intros i. eapply sim_bind; [apply sim_core|]. intros a1 a1' ->.
    eapply sim_bind; [apply sim_assert, sh_alive|]. intros _ _ _. rewrite sh_occ.
    destruct (occ a1 !! (Some x.1, i)); simpl; [apply IH|by apply sim_ret].
  - eapply sim_bind; [apply sim_assert, sh_unst|]. intros _ _ _. apply sim_exit.
Qed.
Lemma sim_terminate_state st H x fe : sim st eq (a_terminate_state ch U H x fe) (a_terminate_state ch U (map shx H) (shx x) fe).
Proof.
  unfold a_terminate_state. eapply sim_bind; [apply sim_ico|]. intros _ _ _. eapply sim_bind; [apply sim_core|]. intros a a' ->.
  simpl. destruct (aunst a); simpl; [apply sim_remove|]. destruct (ord a) as [|y [|z l]]; simpl.
  - apply sim_faulty.
  - eapply sim_bind; [apply sim_unlist|]. intros _ _ _. apply sim_exit.
  - apply sim_remove.
Qed.
Lemma sim_terminate_machine st fe : sim st eq (a_terminate_machine ch U fe) (a_terminate_machine ch U fe).
Proof.
  unfold a_terminate_machine. eapply sim_bind; [by apply sim_env|]. intros _ _ _. eapply sim_bind; [apply sim_core|].
  intros a a' ->. rewrite sh_occ. eapply (sim_bind st eq).
  - destruct (occ a !! (None, 0)); simpl; [apply (sim_terminate_state st [])|by apply sim_ret].
  - intros _ _ _. apply (sim_env_own st _ _ (λ b, Own ∅ ∅ (own_ico b) (own_sights b))); [|done].
    intros v b _ _. pose proof (shE_log b OReset v) as E. unfold a_clear. simpl in E. by rewrite E.
Qed.

(** *** Reactions *)
Lemma sim_terminate_as_reaction st x : sim st eq (a_terminate_as_reaction ch U x) (a_terminate_as_reaction ch U (shx x)).
Proof.
  unfold a_terminate_as_reaction. eapply (sim_bind st eq); [by apply sim_gets|]. intros f _ <-.
  eapply sim_bind; [apply (sim_terminate_state st [])|]. intros _ _ _. apply (sim_set_unst st [] None).
Qed.
Lemma sim_outward st k x : sim st (λ x y, y = shx x) (a_outward ch k x) (a_outward ch k (shx x)).
Proof.
  revert x. induction k as [|k IH]; intros x; simpl; [by apply sim_ret|].
  eapply sim_bind; [apply sim_core|]. intros a a' ->. eapply sim_bind; [apply sim_assert, sh_alive|]. intros _ _ _.
  rewrite sh_ctx. destruct (ctx_of ch a x.1); [apply IH|apply sim_faulty].
Qed.
Lemma sim_action st x act e : sim st eq (a_user_action ch U x act e) (a_user_action ch U (shx <$> x) act e).
Proof.
  destruct act; simpl; [|by apply sim_ret]. eapply sim_bind; [apply sim_emit; by destruct x|]. intros _ _ _. apply sim_ucall_x.
Qed.
Lemma sim_depart st H ctx t x i act e :
  sim st eq (a_depart ch U H ctx t x i act e) (a_depart ch U (map shx H) (shx <$> ctx) (shx t) (shx x) i act e).
Proof.
  unfold a_depart. rewrite shx_fst. destruct (early ch x.1 i act) as [j|].
  - eapply sim_bind; [apply sim_outward|]. intros w w' ->. eapply sim_bind; [apply sim_core|]. intros a a' ->.
    eapply sim_bind; [apply sim_assert, sh_alive|]. intros _ _ _. eapply (sim_bind st eq).
    + apply sim_finally; [|eapply sim_mono; [apply sim_drop|done]].
      eapply (sim_bind st eq); [by apply sim_gets|]. intros f _ <-.
      eapply sim_bind; [apply (sim_terminate_state st (w :: H))|]. intros _ _ _.
      eapply sim_bind; [apply sim_ico|]. intros _ _ _. apply sim_action.
    + intros _ _ _. eapply (sim_bind st eq); [by apply sim_gets|]. intros f _ <-.
      eapply sim_bind; [apply sim_terminate_state|]. intros _ _ _. apply sim_ico.
  - eapply (sim_bind st eq); [by apply sim_gets|]. intros f _ <-. eapply sim_bind; [apply sim_terminate_state|]. intros _ _ _.
    eapply sim_bind; [apply sim_ico|]. intros _ _ _. apply sim_action.
Qed.
Lemma sim_transit st x d act e : sim st eq (a_transit ch U x d act e) (a_transit ch U (shx x) d act e).
Proof.
  unfold a_transit. rewrite shx_fst. eapply sim_bind; [by apply sim_emit|]. intros _ _ _.
  destruct (transit_ok ch x.1 d); [|apply sim_faulty]. destruct (common_context _ _ _) as [[i cc]|]; [|apply sim_faulty].
  eapply sim_bind; [apply sim_outward|]. intros t t' ->. eapply sim_bind; [apply sim_core|]. intros a a' ->.
  eapply sim_bind; [apply sim_assert, sh_alive|]. intros _ _ _. rewrite shx_fst, sh_ctx.
  assert (opt_list (shx <$> ctx_of ch a t.1) = map shx (opt_list (ctx_of ch a t.1))) as -> by by destruct (ctx_of ch a t.1).
  apply sim_finally.
  - eapply sim_bind; [apply sim_depart|]. intros _ _ _. apply sim_construct.
  - eapply sim_mono; [apply (sim_drop_opt st [])|done].
Qed.
Lemma sim_decide st x e r : sim st eq (a_decide ch U x e r) (a_decide ch U (shx x) e r).
Proof.
  destruct r as [| | |d act| |y]; simpl.
  - by apply sim_ret.
  - by apply sim_ret.
  - eapply sim_bind; [apply sim_core|]. intros a a' ->. eapply sim_bind; [apply sim_assert, sh_alive|]. intros _ _ _.
    eapply sim_bind; [|intros _ _ _; by apply sim_ret]. apply sim_on_core; [|by intros _ a1 (? & ? & ?)].
    intros a1. unfold shA, set_dfr. simpl. f_equal. rewrite set_map_union_L, set_map_singleton_L. set_solver.
  - eapply sim_bind; [apply sim_transit|]. intros _ _ _. by apply sim_ret.
  - eapply sim_bind; [by apply sim_emit|]. intros _ _ _. eapply sim_bind; [apply sim_terminate_as_reaction|].
    intros _ _ _. by apply sim_ret.
  - eapply sim_bind; [by apply sim_emit|]. intros _ _ _. apply sim_throw.
Qed.
Lemma sim_run_reaction st x i r e : sim st eq (a_run_reaction ch U x i r e) (a_run_reaction ch U (shx x) i r e).
Proof.
  destruct r as [p d act|p|p|p act|p]; simpl.
  all: try apply (sim_decide st x e (DTransit _ _)).
  all: try apply (sim_decide st x e DDefer).
  all: try apply (sim_decide st x e DTerminate).
  - eapply (sim_bind st eq); [|intros _ _ _; by apply sim_ret]. destruct act; [|by apply sim_ret].
    eapply sim_bind; [by apply sim_emit|]. intros _ _ _. apply sim_ucall_x.
  - eapply sim_bind; [by apply sim_emit|]. intros _ _ _. eapply sim_bind; [apply sim_ucall|]. intros r _ <-. apply sim_decide.
Qed.
Lemma sim_local_react st x i l e : sim st eq (a_local_react ch U x i l e) (a_local_react ch U (shx x) i l e).
Proof.
  revert i. induction l as [|r l IH]; intros i; simpl; [by apply sim_ret|].
  destruct (matches _ _); [apply sim_run_reaction|apply IH].
Qed.
Lemma sim_react_impl st k x e : sim st eq (a_react_impl ch U k x e) (a_react_impl ch U k (shx x) e).
Proof.
  revert x. induction k as [|k IH]; intros x; cbn [a_react_impl]; [apply sim_faulty|].
  eapply sim_bind; [apply sim_core|]. intros a a' ->. eapply sim_bind; [apply sim_assert, sh_alive|]. intros _ _ _.
  eapply sim_bind; [by apply sim_emit|]. intros _ _ _. rewrite shx_fst.
  eapply sim_bind; [apply sim_local_react|]. intros r _ <-. eapply sim_bind; [by apply sim_emit|]. intros _ _ _.
  destruct r; try by apply sim_ret. eapply sim_bind; [apply sim_core|]. intros a1 a1' ->.
  eapply sim_bind; [apply sim_assert, sh_alive|]. intros _ _ _.
  rewrite sh_ctx. destruct (ctx_of ch a1 x.1); [apply IH|by apply sim_ret].
Qed.

(** *** Calls *)
Lemma sim_guarded {A B} st (Q : A → B → Prop) m m' : sim st Q m m' → sim st Q (a_guarded ch U m) (a_guarded ch U m').
Proof. intros H. apply sim_on_exn; [done|]. eapply sim_mono; [apply sim_terminate_machine|done]. Qed.
Lemma sim_with_trig {A B} st (Q : A → B → Prop) t m m' : sim st Q m m' → sim st Q (a_with_trig t m) (a_with_trig t m').
Proof.
  intros H. unfold a_with_trig. eapply (sim_bind st eq); [by apply sim_gets|]. intros o _ <-.
  eapply sim_bind; [by apply sim_env|]. intros _ _ _. apply sim_finally; [done|].
  eapply sim_mono; [by apply sim_env|done].
Qed.
Lemma sim_handle_exception st xe y cur : sim st eq (a_handle_exception ch U xe y cur) (a_handle_exception ch U xe y (shx <$> cur)).
Proof.
  unfold a_handle_exception. eapply (sim_bind st (λ s s', ∃ b, s' = shS b s)).
  { apply sim_gets. intros s b _. by exists b. }
  intros s s' (b & ->). unfold a_terminated. cbn [core shS]. rewrite (bool_decide_ext _ _ (sh_occ_None (core s) (None, 0))).
  destruct (bool_decide _); [apply sim_throw|].
  assert (match aunst (shA (core s)) with None => shx <$> cur | Some u => Some u end
    = shx <$> match aunst (core s) with None => cur | Some u => Some u end) as ->.
  { simpl. by destruct (aunst (core s)). }
  destruct (match aunst (core s) with None => cur | Some u => Some u end) as [x|]; simpl; [|apply sim_faulty].
  eapply (sim_bind st eq).
  - apply sim_on_exn; [|eapply sim_mono; [by apply sim_emit|done]]. apply sim_with_trig.
    eapply sim_bind; [by apply sim_emit|]. intros _ _ _. eapply sim_bind; [by apply sim_env|]. intros _ _ _.
    eapply sim_bind; [apply sim_react_impl|]. intros r _ <-. eapply sim_bind; [by apply sim_env|]. intros _ _ _.
    eapply (sim_bind st (λ u u', u' = shx <$> u)); [by apply sim_gets|]. intros u u' ->.
    assert (bool_decide (shx <$> u = None) = bool_decide (u = None)) as -> by (apply bool_decide_ext; by rewrite fmap_None).
    destruct (_ && _); [by apply sim_ret|apply sim_throw].
  - intros r _ <-. eapply sim_bind; [by apply sim_emit|]. intros _ _ _. by apply sim_ret.
Qed.
Lemma sim_translated st m m' cur : sim st eq m m' → sim st eq (a_translated ch U m cur) (a_translated ch U m' (shx <$> cur)).
Proof.
  intros H. unfold a_translated. apply sim_catching; [done|]. intros y. eapply sim_bind; [by apply sim_emit|]. intros _ _ _.
  destruct (u_translate U y); [apply sim_handle_exception|apply sim_throw].
Qed.
Lemma sim_dispatch st k i e : sim st eq (a_dispatch ch U k i e) (a_dispatch ch U k i e).
Proof.
  revert i. induction k as [|k IH]; intros i; cbn [a_dispatch].
  all: eapply sim_bind; [apply sim_core|]; intros a a' ->; cbn [ord shA]; rewrite map_length.
  all: destruct (bool_decide _); [by apply sim_ret|].
  { apply sim_faulty. }
  change (map shx (ord a)) with (shx <$> ord a). rewrite list_lookup_fmap.
  destruct (ord a !! i) as [x|]; simpl; [|apply sim_faulty].
  eapply sim_bind; [apply (sim_translated st _ _ (Some x)); apply sim_react_impl|]. intros r _ <-.
  destruct r; [apply IH|by apply sim_ret..].
Qed.
Lemma sim_send_event st e : sim st eq (a_send_event ch U e) (a_send_event ch U e).
Proof.
  unfold a_send_event. apply sim_finally; [|eapply sim_mono; [by apply sim_emit|done]]. apply sim_with_trig.
  eapply sim_bind; [apply sim_core|]. intros a a' ->. rewrite sh_leaves. eapply sim_bind; [by apply sim_emit|]. intros _ _ _.
  eapply sim_bind.
  { apply sim_guarded. eapply sim_bind; [apply sim_core|]. intros a1 a1' ->.
    eapply sim_bind; [apply sim_assert; apply (sh_unst' a1 None)|]. intros _ _ _. cbn [ord shA]. rewrite map_length. apply sim_dispatch. }
  intros r _ <-. destruct r; [|by apply sim_ret..]. eapply sim_bind; [by apply sim_emit|]. intros _ _ _.
  eapply sim_bind; [apply sim_ucall_x|]. intros _ _ _. by apply sim_ret.
Qed.
Lemma sim_defer_if st r e : sim st eq (a_defer_if U r e) (a_defer_if U r e).
Proof.
  destruct r; simpl; [by apply sim_ret..|]. eapply sim_bind; [apply sim_alloc|]. intros _ _ _. apply sim_env; [|done..]. intros v b.
  pose proof (shE_log b (ODefer e) v) as E. simpl in E. by rewrite E.
Qed.
Lemma sim_process_queued st k : sim st eq (a_process_queued ch U k) (a_process_queued ch U k).
Proof.
  induction k as [|k IH]; cbn [a_process_queued].
  all: eapply (sim_bind st eq); [by apply sim_gets|]; intros q _ <-; destruct q as [|e q]; [by apply sim_ret|].
  { apply sim_diverge. }
  eapply sim_bind.
  { apply (sim_env st _ (λ v, set_queue q (log (OTake e) v))); [|done..].
    intros v b. pose proof (shE_log b (OTake e) v) as E. simpl in E. by rewrite E. }
  intros _ _ _. eapply sim_bind; [apply sim_send_event|]. intros r _ <-. eapply sim_bind; [apply sim_defer_if|]. by intros _ _ _.
Qed.
Lemma sim_terminate st : sim st eq (a_terminate ch U) (a_terminate ch U).
Proof.
  apply sim_with_trig, sim_guarded. eapply sim_bind; [|intros _ _ _; by apply sim_ret]. apply (sim_translated st _ _ None).
  eapply sim_bind; [apply sim_terminate_machine|]. intros _ _ _. by apply sim_ret.
Qed.
Theorem sim_a_call st o : sim st eq (a_call ch U o) (a_call ch U o).
Proof.
  destruct o as [k| |k e|e|c k|c k]; cbn [a_call]; try apply sim_cmd.
  - unfold a_initiate. eapply sim_bind; [apply sim_terminate|]. intros _ _ _. eapply (sim_bind st eq); [|intros _ _ _; apply sim_process_queued].
    apply sim_with_trig, sim_guarded. eapply sim_bind; [|intros _ _ _; by apply sim_ret]. apply (sim_translated st _ _ None).
    eapply sim_bind; [apply (sim_construct st _ [])|]. intros _ _ _. by apply sim_ret.
  - apply sim_terminate.
  - unfold a_process_event. eapply sim_bind; [by apply sim_emit|]. intros _ _ _. eapply sim_bind; [apply sim_send_event|].
    intros r _ <-. eapply sim_bind; [apply sim_defer_if|]. intros _ _ _. apply sim_process_queued.
Qed.

(** initiate() after its terminate(). *)
Definition a_start (k : nat) : MM unit :=
  a_with_trig None
    (a_guarded ch U
       (a_translated ch U (a_constructs ch U [] [] (IState (ch_init ch)) None ;! ret RDiscard) None ;!
        ret tt)) ;!
  a_process_queued ch U k.
Lemma sim_start st k : sim st eq (a_start k) (a_start k).
Proof.
  unfold a_start. eapply (sim_bind st eq); [|intros _ _ _; by apply sim_process_queued].
  apply sim_with_trig, sim_guarded. eapply sim_bind; [|intros _ _ _; by apply sim_ret].
  apply (sim_translated st _ _ None).
  eapply sim_bind; [apply (sim_construct st _ [])|]. intros _ _ _. by apply sim_ret.
Qed.

End shift.

(** ** Two machines that behave alike *)
Section twins.
Context {W : Type} (ch : chart) (U : user W) (Hwf : wf_chart ch = true) (HU : user_ok ch U).
Notation S := (mst W heapst).

Lemma call_run s a o r s' :
  backed ch s a → op_ok ch o = true → op_allowed ch U o s → call ch U o s = (r, s') →
  ∃ a', a_call ch U o a = (r, a') ∧ backed ch s' a'.
Proof.
  intros Hb Hok Hal E. pose proof (allowed ch U Hwf _ _ _ Hb Hal) as Hal'. destruct Hb as [HR Hs (w & Hw)].
  pose proof (wpd_call ch U Hwf HU o a Hs Hok Hal') as Hwp. pose proof (Refine.sim_call ch U Hwf o s a HR) as Hsim.
  pose proof (to_call ch U Hwf o a) as Hto. unfold wpd, to, from in *.
  destruct (a_call ch U o a) as [[[]|y|f|] a'] eqn:Ea; try done; exists a'.
  - destruct Hsim as ([] & s1 & E' & HR'). rewrite E in E'. injection E' as -> ->.
    destruct Hwp as (T & E1 & Hst & Hs'). split; [done|]. split; [done..|]. exists w. by etrans.
  - destruct Hsim as (s1 & E' & HR'). rewrite E in E'. injection E' as -> ->.
    destruct Hwp as (T & E1 & Hst & Hs'). split; [done|]. split; [done..|]. exists w. by etrans.
  - destruct Hsim as (s1 & E' & HR'). rewrite E in E'. injection E' as -> ->.
    destruct Hwp as (T & E1 & Hst & Hs'). split; [done|]. split; [done..|]. exists w. by etrans.
Qed.

Lemma destroy_run s a r s' : backed ch s a → destroy ch U s = (r, s') →
  ∃ a', a_destroy_machine ch U a = (r, a') ∧ backed ch s' a'.
Proof.
  intros Hb E. destruct Hb as [HR Hs (w & Hw)].
  pose proof (sim_destroy_machine ch U Hwf s a HR) as Hsim.
  pose proof (to_terminate_machine ch U Hwf false a) as Hto.
  pose proof (wp_terminate_machine ch U Hwf HU false a (cm_good _ _ (sb_calm _ _ Hs))) as Hwp.
  unfold wp, to, from, a_destroy_machine in *.
  destruct (a_terminate_machine ch U false a) as [[[]|y|f|] a'] eqn:Ea; try done.
  2:{ by destruct Hwp. }
  destruct Hsim as ([] & s1 & E' & HR'). rewrite E in E'. injection E' as -> ->. exists a'. split; [done|].
  split; [done| |exists w; by etrans]. split; [by eapply ended_calm| |].
  - rewrite (nd_trig _ _ _ _ Hwp). apply Hs.
  - eapply (tracks_steps ch Hwf); [apply (sb_tracks _ _ Hs)|done].
Qed.

(** [s] is like [s0], on addresses from [n] on and after the trace [t]. *)
Definition twins (n : nat) (t : list obs) (s0 s : S) : Prop :=
  ∃ a0 a D, (∀ p, p ∈ D → p < n) ∧ backed ch s0 a0 ∧ backed ch s a ∧ rel n D t false a0 a.

Record alike (n : nat) (t : list obs) (s0 s : S) : Prop := {
  al_active x : active s x ↔ ∃ y, active s0 y ∧ x = (y.1, y.2 + n);
  al_leaves : leaves s = leaves s0;
  al_terminated : terminated s = terminated s0;
  al_queue : queue (en s) = queue (en s0);
  al_deferred : deferred (en s) = deferred (en s0);
  al_shallow r h : shallow_map (en s) !! r = Some (Some h) ↔ shallow_map (en s0) !! r = Some (Some h);
  al_deep r h : deep_map (en s) !! r = Some (Some h) ↔ deep_map (en s0) !! r = Some (Some h);
  al_world : world (en s) = world (en s0);
  al_trace : tr s = t ++ map (rename (λ p, p + n)) (tr s0) }.

Lemma twins_alike n t s0 s : twins n t s0 s → alike n t s0 s.
Proof.
  intros (a0 & a & D & HD & B0 & B & (b & -> & [Hh1 Hh2] & _)).
  assert (en s0 = en a0) as E0 by apply B0. assert (en s = shE n t b (en a0)) as E by apply B. split.
  - intros x. rewrite (active_alive _ _ _ _ B). split.
    + intros Hx. unfold alive in Hx. simpl core in Hx. rewrite sh_occ in Hx. apply fmap_Some in Hx as (y & Hy & ->). exists y.
      split; [|done]. by rewrite (active_alive _ _ _ _ B0).
    + intros (y & Hy & ->). rewrite (active_alive _ _ _ _ B0) in Hy. simpl core. by apply (sh_alive ch n D _ y).
  - rewrite (leaves_ord _ _ _ B), (leaves_ord _ _ _ B0). apply sh_leaves.
  - rewrite (terminated_abs _ _ _ B), (terminated_abs _ _ _ B0). unfold a_terminated. apply bool_decide_ext. apply sh_occ_None.
  - by rewrite E, E0.
  - by rewrite E, E0.
  - intros r h. rewrite E, E0. symmetry. apply Hh1.
  - intros r h. rewrite E, E0. symmetry. apply Hh2.
  - by rewrite E, E0.
  - unfold tr. by rewrite E, E0.
Qed.

Lemma twins_run n t s0 s o r0 s0' r s' : twins n t s0 s → op_ok ch o = true → op_allowed ch U o s0 → op_allowed ch U o s →
  call ch U o s0 = (r0, s0') → call ch U o s = (r, s') → r = r0 ∧ twins n t s0' s'.
Proof.
  intros (a0 & a & D & HD & B0 & B & Hr) Hok H0 H E0 E.
  destruct (call_run _ _ _ _ _ B0 Hok H0 E0) as (a0' & Ea0 & B0'). destruct (call_run _ _ _ _ _ B Hok H E) as (a' & Ea & B').
  destruct (sim_a_call ch U Hwf HU n D t HD false o a0 a Hr) as [Hrr Hr']. rewrite Ea0, Ea in Hrr, Hr'. simpl in *.
  split; [|by exists a0', a', D]. by destruct Hrr; simplify_eq.
Qed.

Lemma twins_allowed n t s0 s o : twins n t s0 s → op_allowed ch U o s0 ↔ op_allowed ch U o s.
Proof.
  intros Ht. destruct o as [k| |k e|e|c k|c k]; try done. simpl.
  destruct (terminate ch U s0) as [r0 s0'] eqn:E0. destruct (terminate ch U s) as [r s'] eqn:E.
  destruct (twins_run n t s0 s OpTerminate r0 s0' r s' Ht eq_refl I I E0 E) as [-> Ht'].
  pose proof (al_terminated _ _ _ _ (twins_alike _ _ _ _ Ht')) as Eq.
  split; intros H s1 [= -> ->]; [rewrite Eq|rewrite <-Eq]; by apply H.
Qed.

Lemma twins_destroy n t s0 s r0 s0' r s' : twins n t s0 s → destroy ch U s0 = (r0, s0') → destroy ch U s = (r, s') →
  r = r0 ∧ alike n t s0' s'.
Proof.
  intros (a0 & a & D & HD & B0 & B & Hr) E0 E.
  destruct (destroy_run _ _ _ _ B0 E0) as (a0' & Ea0 & B0'). destruct (destroy_run _ _ _ _ B E) as (a' & Ea & B').
  destruct (sim_terminate_machine ch U n D t HD false false a0 a Hr) as [Hrr Hr']. unfold a_destroy_machine in *. rewrite Ea0, Ea in Hrr, Hr'.
  simpl in *. split; [by destruct Hrr; simplify_eq|]. apply twins_alike. by exists a0', a', D.
Qed.

(** A machine without states, events and history is like a new one. *)
Lemma twins_fresh s : seen ch U s → terminated s = true → queue (en s) = [] → deferred (en s) = [] →
  (∀ r h, shallow_map (en s) !! r ≠ Some (Some h)) → (∀ r h, deep_map (en s) !! r ≠ Some (Some h)) →
  ∃ n, twins n (tr s) (fresh (world (en s))) s.
Proof.
  intros Hs Ht Hq Hd H1 H2. destruct (seen_backed ch U Hwf HU s Hs) as [a B]. exists (anxt (core a)).
  assert (en s = en a) as E by apply B. pose proof (bk_stable _ _ _ B) as [C Htr _]. rewrite (terminated_abs _ _ _ B) in Ht.
  apply bool_decide_eq_true in Ht. destruct (good_empty ch Hwf _ (cm_good _ _ C) Ht) as (E1 & E2 & E3).
  exists (a_fresh (world (en s))), a, (dfr (core a)). split_and!.
  - by apply (wa_dfr _ _ _ (gd_wf _ _ _ (cm_good _ _ C))).
  - by apply backed_fresh.
  - done.
  - exists (Own (shallow_map (en a)) (deep_map (en a)) (ico (en a)) (sights (en a))). rewrite E in *. split.
    + pose proof (cm_full _ _ C) as Hf. unfold tr. rewrite E. clear -E1 E2 E3 Hq Hd Hf Htr.
      destruct a as [[o d l u k] [q df sm dm tg ic fl w tc]]. unfold shS, shA, shE, a_fresh. simpl in *. subst.
      f_equal; [|by rewrite app_nil_r]. f_equal; [by rewrite fmap_empty|]. rewrite set_map_empty. set_solver.
    + split; simpl.
      * split; intros r h; rewrite lookup_empty; (split; [done|]); intros Hh; exfalso; [by eapply H1|by eapply H2].
      * right. done.
Qed.

(** The calls of [l] are allowed, one after the other. *)
Fixpoint allowed_all (l : list op) (s : S) : Prop :=
  match l with
  | [] => True
  | o :: l' => op_ok ch o = true ∧ op_allowed ch U o s ∧
      ∀ r s', call ch U o s = (r, s') → r = Ret tt ∨ (∃ y, r = Exn y) → allowed_all l' s'
  end.

Lemma twins_all n t l s0 s : twins n t s0 s → allowed_all l s0 ↔ allowed_all l s.
Proof.
  revert s0 s. induction l as [|o l IH]; intros s0 s Ht; [done|]. simpl.
  destruct (call ch U o s0) as [r0 s0'] eqn:E0. destruct (call ch U o s) as [r s'] eqn:E.
  split; intros (Hok & Hal & Hl); (split; [done|]).
  - assert (op_allowed ch U o s) as Hal' by by apply (twins_allowed n t s0 s o Ht). split; [done|]. intros r1 s1 [= <- <-] Hr.
    destruct (twins_run _ _ _ _ _ _ _ _ _ Ht Hok Hal Hal' E0 E) as [-> Ht']. eapply (IH s0' s' Ht'). by eapply Hl.
  - assert (op_allowed ch U o s0) as Hal' by by apply (twins_allowed n t s0 s o Ht). split; [done|]. intros r1 s1 [= <- <-] Hr.
    destruct (twins_run _ _ _ _ _ _ _ _ _ Ht Hok Hal' Hal E0 E) as [-> Ht']. eapply (IH s0' s' Ht'). by eapply Hl.
Qed.

Lemma twins_runs n t l s0 s : twins n t s0 s → allowed_all l s0 →
  (run ch U l s).1 = (run ch U l s0).1 ∧ twins n t (run ch U l s0).2 (run ch U l s).2.
Proof.
  revert s0 s. induction l as [|o l IH]; intros s0 s Ht; [done|]. simpl. intros (Hok & Hal & Hl).
  destruct (call ch U o s0) as [r0 s0'] eqn:E0. destruct (call ch U o s) as [r s'] eqn:E.
  assert (op_allowed ch U o s) as Hal' by by apply (twins_allowed n t s0 s o Ht).
  destruct (twins_run _ _ _ _ _ _ _ _ _ Ht Hok Hal Hal' E0 E) as [-> Ht'].
  destruct r0 as [[]|y|f|]; try done.
  - destruct (IH s0' s' Ht') as [H1 H2]; [by eapply Hl; [done|left]|].
    destruct (run ch U l s0') as [rs0 z0], (run ch U l s') as [rs z]. simpl in *. by subst.
  - destruct (IH s0' s' Ht') as [H1 H2]; [by eapply Hl; [done|right; eexists]|].
    destruct (run ch U l s0') as [rs0 z0], (run ch U l s') as [rs z]. simpl in *. by subst.
Qed.

(** initiate() on a machine that [terminate] empties is like initiate() on a new one. *)
Lemma twins_initiate s s1 t k r s' r0 s0' : reach ch U s → call ch U OpTerminate s = (Ret tt, s1) →
  tr s1 = t ++ [Obs None OReset] → terminated s1 = true → queue (en s1) = [] → deferred (en s1) = [] →
  (∀ r h, shallow_map (en s1) !! r ≠ Some (Some h)) → (∀ r h, deep_map (en s1) !! r ≠ Some (Some h)) →
  call ch U (OpInitiate k) s = (r, s') → call ch U (OpInitiate k) (fresh (world (en s1))) = (r0, s0') →
  r = r0 ∧ ∃ n, twins n t s0' s'.
Proof.
  intros Hr Hc Et Ht Hq Hd H1 H2 E E0. destruct (reach_backed ch U Hwf HU s Hr) as [a B].
  destruct (call_run _ _ OpTerminate _ _ B eq_refl I Hc) as (a1 & Ea1 & B1). simpl in Ea1.
  destruct (call_run s a (OpInitiate k) r s' B eq_refl) as (a' & Ea' & B'); [|done|].
  { intros s2 E2. simpl in Hc. rewrite Hc in E2. by injection E2 as <-. }
  simpl in Ea'. unfold a_initiate in Ea'. unfold bind at 1 in Ea'. rewrite Ea1 in Ea'. fold (a_start ch U k) in Ea'.
  set (w := world (en s1)) in *. pose proof (backed_fresh ch Hwf w) as B0.
  set (f1 := MSt (ACore ∅ ∅ [] None 0) (a_clear (fresh_env w)) : mst W acore).
  assert (a_terminate ch U (a_fresh w) = (Ret tt, f1)) as Ef by done.
  destruct (call_run (fresh w) (a_fresh w) (OpInitiate k) r0 s0' B0 eq_refl) as (a0' & Ea0 & B0'); [|done|].
  { intros s2 E2. destruct (call_run _ _ OpTerminate _ _ B0 eq_refl I E2) as (f1' & Ef' & Bf). simpl in Ef'. rewrite Ef in Ef'.
    injection Ef' as <-. by rewrite (terminated_abs _ _ _ Bf). }
  simpl in Ea0. unfold a_initiate in Ea0. unfold bind at 1 in Ea0. rewrite Ef in Ea0. fold (a_start ch U k) in Ea0.
  assert (en s1 = en a1) as Ee by apply B1. pose proof (bk_stable _ _ _ B1) as [C Htr _]. rewrite (terminated_abs _ _ _ B1) in Ht.
  apply bool_decide_eq_true in Ht. destruct (good_empty ch Hwf _ (cm_good _ _ C) Ht) as (E1 & E2 & E3).
  set (n := anxt (core a1)). set (D := dfr (core a1)).
  assert (∀ p, p ∈ D → p < n) as HD by by apply (wa_dfr _ _ _ (gd_wf _ _ _ (cm_good _ _ C))).
  assert (rel n D t false f1 a1) as Hrel.
  { exists (Own (shallow_map (en a1)) (deep_map (en a1)) (ico (en a1)) (sights (en a1))). rewrite Ee in *. split.
    - pose proof (cm_full _ _ C) as Hf. unfold tr in Et. rewrite Ee in Et. subst w n D. clear -E1 E2 E3 Hq Hd Hf Htr Et Ee.
      destruct a1 as [[o d l u k] [q df sm dm tg ic fl w tc]]. unfold shS, shA, shE. simpl in *. subst.
      f_equal; [|by rewrite Ee]. f_equal; [by rewrite fmap_empty|]. rewrite set_map_empty. set_solver.
    - split; simpl.
      + split; intros r1 h; rewrite lookup_empty; (split; [done|]); intros Hh; exfalso; [by eapply H1|by eapply H2].
      + right. done. }
  destruct (sim_start ch U Hwf HU n D t HD false k f1 a1 Hrel) as [Hrr Hr']. rewrite Ea0, Ea' in Hrr, Hr'. simpl in *.
  split; [by destruct Hrr; simplify_eq|]. exists n, a0', a', D. done.
Qed.
End twins.
