(** The key type of the history maps and the std::map it is used with.
    history_key, state_machine.hpp:176-222; the maps and their uses: store_shallow_history and
    store_deep_history :651-687, clear_shallow_history/clear_deep_history :448-489,
    construct_with_*_history :663-697, store_history_impl :1006-1013, construct_with_history_impl
    :1025-1052, members :1046-1048. *)
From Verif Require Export Env.

Section key.
(** RttiPolicy::id_type with std::less and ==: addresses of id_provider objects
    (detail/rtti_policy.hpp:100-101) or std::type_info with before() (:66-90). *)
Context {T : Type} (less : T → T → bool) (eqb : T → T → bool).

(** What the C++ standard says about std::less on pointers and type_info::before: a strict total
    order compatible with ==. *)
Record id_order : Prop := {
  id_eq x y : eqb x y = true ↔ x = y;
  id_irrefl x : less x x = false;
  id_trans x y z : less x y = true → less y z = true → less x z = true;
  id_total x y : less x y = true ∨ x = y ∨ less y x = true }.

(** history_key's members. *)
Notation key := (T * nat)%type.

(** operator<, state_machine.hpp:195-204. *)
Definition key_less (l r : key) : bool :=
  less l.1 r.1 || (eqb l.1 r.1 && bool_decide (l.2 < r.2)).

(** std::map, as a sequence sorted by the comparison: lower_bound, find, operator[] followed by an
    assignment, clear. Only the comparison is used to compare keys. *)
Notation smap V := (list (key * V)).
Fixpoint map_find {V} (k : key) (m : smap V) : option V :=
  match m with
  | [] => None
  | (k', v) :: m' =>
      if key_less k' k then map_find k m'
      else if key_less k k' then None else Some v
  end.
Fixpoint map_assign {V} (k : key) (v : V) (m : smap V) : smap V :=
  match m with
  | [] => [(k, v)]
  | (k', v') :: m' =>
      if key_less k' k then (k', v') :: map_assign k v m'
      else if key_less k k' then (k, v) :: (k', v') :: m'
      else (k', v) :: m'
  end.

Context (HO : id_order).

Lemma key_irrefl k : key_less k k = false.
Proof.
  unfold key_less. rewrite (id_irrefl HO). simpl.
  rewrite bool_decide_false by lia. by rewrite andb_false_r.
Qed.
Lemma key_less_spec l r :
  key_less l r = true ↔ less l.1 r.1 = true ∨ (l.1 = r.1 ∧ l.2 < r.2).
Proof.
  unfold key_less. rewrite orb_true_iff, andb_true_iff, bool_decide_eq_true, (id_eq HO). done.
Qed.
Lemma key_trans x y z : key_less x y = true → key_less y z = true → key_less x z = true.
Proof.
  rewrite !key_less_spec. intros [H1|[H1 H1']] [H2|[H2 H2']].
  - left. by eapply (id_trans HO).
  - left. by rewrite <-H2.
  - left. by rewrite H1.
  - right. split; [congruence|lia].
Qed.
Lemma key_total x y : key_less x y = true ∨ x = y ∨ key_less y x = true.
Proof.
  rewrite !key_less_spec. destruct (id_total HO x.1 y.1) as [H|[H|H]]; [by auto| |by auto].
  destruct (lt_eq_lt_dec x.2 y.2) as [[Hl|He]|Hg].
  - by auto.
  - right; left. destruct x, y; simpl in *; by subst.
  - right; right. right. split; [done|lia].
Qed.
Lemma key_equiv x y : key_less x y = false → key_less y x = false → x = y.
Proof. intros H1 H2. destruct (key_total x y) as [H|[H|H]]; congruence. Qed.
Lemma key_asym x y : key_less x y = true → key_less y x = false.
Proof.
  intros H. destruct (key_less y x) eqn:E; [|done].
  pose proof (key_trans _ _ _ H E) as Hc. by rewrite key_irrefl in Hc.
Qed.

Inductive sorted {V} : smap V → Prop :=
| sorted_nil : sorted []
| sorted_cons k v m :
    sorted m → (∀ k' v', (k', v') ∈ m → key_less k k' = true) → sorted ((k, v) :: m).

Lemma find_above {V} k (m : smap V) :
  (∀ k' v', (k', v') ∈ m → key_less k k' = true) → map_find k m = None.
Proof.
  destruct m as [|[k' v'] m]; [done|]. intros H. simpl.
  pose proof (H k' v' ltac:(left)) as Hk. by rewrite (key_asym _ _ Hk), Hk.
Qed.

Lemma assign_elem {V} k v (m : smap V) k' v' :
  (k', v') ∈ map_assign k v m → k' = k ∨ (∃ v'', (k', v'') ∈ m).
Proof.
  induction m as [|[k0 v0] m IH]; simpl.
  - intros H%elem_of_list_singleton. left. congruence.
  - destruct (key_less k0 k) eqn:E1; [|destruct (key_less k k0) eqn:E2].
    + intros [H|H]%elem_of_cons.
      * right. exists v0. injection H as -> ->. left.
      * destruct (IH H) as [?|[v'' ?]]; [by left|]. right. exists v''. by right.
    + intros [H|H]%elem_of_cons; [left; congruence|]. right. eauto.
    + intros [H|H]%elem_of_cons.
      * right. exists v0. injection H as -> ->. left.
      * right. exists v'. by right.
Qed.

Lemma assign_sorted {V} k v (m : smap V) : sorted m → sorted (map_assign k v m).
Proof.
  induction 1 as [|k0 v0 m Hs IH Hlt]; simpl.
  - constructor; [constructor|]. by intros k' v' ?%elem_of_nil.
  - destruct (key_less k0 k) eqn:E1; [|destruct (key_less k k0) eqn:E2].
    + constructor; [done|]. intros k' v' Hin.
      destruct (assign_elem _ _ _ _ _ Hin) as [->|[v'' ?]]; [done|by eapply Hlt].
    + constructor; [by constructor|]. intros k' v' [H|H]%elem_of_cons; [congruence|].
      eapply key_trans; [exact E2|by eapply Hlt].
    + by constructor.
Qed.

Lemma find_assign_eq {V} k v (m : smap V) : map_find k (map_assign k v m) = Some v.
Proof.
  induction m as [|[k0 v0] m IH]; simpl.
  - by rewrite key_irrefl.
  - destruct (key_less k0 k) eqn:E1; [|destruct (key_less k k0) eqn:E2]; simpl.
    + by rewrite E1.
    + by rewrite key_irrefl.
    + by rewrite E1, E2.
Qed.
Lemma find_assign_ne {V} k v (m : smap V) k' : sorted m → k' ≠ k →
  map_find k' (map_assign k v m) = map_find k' m.
Proof.
  intros Hs Hn. induction Hs as [|k0 v0 m Hs IH Hlt]; simpl.
  - destruct (key_less k k') eqn:E1; [done|]. destruct (key_less k' k) eqn:E2; [done|].
    exfalso. apply Hn. by apply key_equiv.
  - destruct (key_less k0 k) eqn:E1; [|destruct (key_less k k0) eqn:E2]; simpl.
    + destruct (key_less k0 k') eqn:E3; [done|]. by destruct (key_less k' k0) eqn:E4.
    + destruct (key_less k k') eqn:E3; [done|]. destruct (key_less k' k) eqn:E4.
      * assert (key_less k' k0 = true) as E5 by by eapply key_trans.
        by rewrite (key_asym _ _ E5), E5.
      * exfalso. apply Hn. by apply key_equiv.
    + assert (k0 = k) as -> by (by apply key_equiv).
      destruct (key_less k k') eqn:E3; [done|]. destruct (key_less k' k) eqn:E4; [done|].
      exfalso. apply Hn. by apply key_equiv.
Qed.
End key.

(** The operations a machine performs on one history map: assign a construct function, assign
    null (clear_*_history), clear everything (terminate), look up. *)
Inductive hop :=
| HStore (r : option cls * nat) (c : cls)
| HClear (r : option cls * nat)
| HReset
| HLookup (r : option cls * nat).

(** The operations on the std::map; results of the look-ups as in construct_with_history_impl: no entry
    and a null entry both mean the default. *)
Section run.
Context {T : Type} (less eqb : T → T → bool) (tid : option cls → T).
Definition mk_key (r : option cls * nat) : T * nat := (tid r.1, r.2).
Fixpoint smap_run (l : list hop) (m : list ((T * nat) * option cls)) : list (option cls) :=
  match l with
  | [] => []
  | HStore r c :: l' => smap_run l' (map_assign less eqb (mk_key r) (Some c) m)
  | HClear r :: l' => smap_run l' (map_assign less eqb (mk_key r) None m)
  | HReset :: l' => smap_run l' []
  | HLookup r :: l' => mjoin (map_find less eqb (mk_key r) m) :: smap_run l' m
  end.
(** The same on the finite maps used in the machine model. *)
Fixpoint hist_run (l : list hop) (m : hist) : list (option cls) :=
  match l with
  | [] => []
  | HStore r c :: l' => hist_run l' (<[r := Some c]> m)
  | HClear r :: l' => hist_run l' (<[r := None]> m)
  | HReset :: l' => hist_run l' ∅
  | HLookup r :: l' => mjoin (m !! r) :: hist_run l' m
  end.

Lemma smap_hist_run (HO : id_order less eqb) (Hinj : ∀ x y, tid x = tid y → x = y) l :
  smap_run l [] = hist_run l ∅.
Proof.
  assert (∀ m (m' : gmap (option cls * nat) (option cls)), sorted less eqb m → (∀ r, map_find less eqb (mk_key r) m = m' !! r) →
    smap_run l m = hist_run l m') as H.
  { induction l as [|o l IH]; intros m m' Hs Hm; [done|].
    assert (∀ r v, ∀ r', map_find less eqb (mk_key r') (map_assign less eqb (mk_key r) v m)
      = <[r := v]> m' !! r') as Ha.
    { intros r v r'. destruct (decide (r' = r)) as [->|Hn].
      - by rewrite (find_assign_eq _ _ HO), lookup_insert.
      - rewrite lookup_insert_ne by done. rewrite (find_assign_ne _ _ HO); [apply Hm|done|].
        unfold mk_key. intros [= He1%Hinj He2]. apply Hn. destruct r, r'; simpl in *; by subst. }
    destruct o as [r c|r| |r]; simpl.
    - apply IH; [by apply (assign_sorted _ _ HO)|apply Ha].
    - apply IH; [by apply (assign_sorted _ _ HO)|apply Ha].
    - apply IH; [constructor|]. intros r. symmetry. apply lookup_empty.
    - rewrite Hm. f_equal. by apply IH. }
  apply H; [constructor|]. intros r. symmetry. apply lookup_empty.
Qed.
End run.
