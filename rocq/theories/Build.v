(** Which states are entered: the shape of what a construction builds. *)
From Verif Require Export WpTerm.

Section build.
Context (ch : chart) (Hwf : wf_chart ch = true).
Notation alive := (alive ch).
Notation kids := (kids ch).

(** The initial states of all regions of [c], except that the region on the way to [d] is entered
    along [path]. *)
Definition defaults (c : cls) : list (list cls * init) := map (λ i, ([], i)) (inner ch c).
Definition first (path : list cls) (d : init) : cls := hd (init_cls d) path.
Definition detour (c : cls) (path : list cls) (d : init) : list (list cls * init) :=
  map (λ i, ([], i)) (take (pos ch (first path d)) (inner ch c)) ++
  [(path, d)] ++
  map (λ i, ([], i)) (drop (Datatypes.S (pos ch (first path d))) (inner ch c)).

(** [builds n path d cs ks]: entering [d] along [path] can enter the states [cs], in this order, the
    first object having address [n]; [ks] is what is recorded. *)
Inductive builds : ptr → list cls → init → list cls → list okind → Prop :=
| b_path n c path d cs ks :
    builds_all (n + 1) (detour c path d) cs ks → builds n (c :: path) d (c :: cs) (OCtor n c :: ks)
| b_state n c cs ks :
    builds_all (n + 1) (defaults c) cs ks → builds n [] (IState c) (c :: cs) (OCtor n c :: ks)
| b_shallow n c h cs ks : region ch h = region ch c → builds n [] (IState h) cs ks →
    builds n [] (IShallow c) cs (OHistS c h :: ks)
| b_deep n c l cs ks : encloses ch (parent ch c) l →
    region ch (hd l (path_below ch (parent ch c) l)) = region ch c →
    builds n (path_below ch (parent ch c) l) (IState l) cs ks →
    builds n [] (IDeep c) cs (OHistD c l :: ks)
with builds_all : ptr → list (list cls * init) → list cls → list okind → Prop :=
| b_nil n : builds_all n [] [] []
| b_cons n p d its cs cs' ks ks' : builds n p d cs ks → builds_all (n + length cs) its cs' ks' →
    builds_all n ((p, d) :: its) (cs ++ cs') (ks ++ ks').

Scheme builds_mind := Induction for builds Sort Prop
  with builds_all_mind := Induction for builds_all Sort Prop.

(** [path] leads from a region to [d]. *)
Fixpoint chain (path : list cls) (d : cls) : Prop :=
  match path with
  | [] => True
  | c :: path' => parent ch (hd d path') = Some c ∧ chain path' d
  end.
Definition valid (path : list cls) (d : init) : Prop :=
  init_ok ch d = true ∧ chain path (init_cls d).

Lemma chain_app path path' d : chain path (hd d path') → chain path' d → chain (path ++ path') d.
Proof.
  induction path as [|c path IH]; [done|]. intros [H1 H2] H3. simpl. split; [|by apply IH].
  destruct path; simpl in *; [|done]. done.
Qed.

Lemma chain_path_below x d : encloses ch x d → chain (path_below ch x d) d.
Proof.
  unfold path_below. intros He. induction (lt_wf d) as [d _ IH].
  rewrite (outers_unfold ch Hwf d). destruct (parent ch d) as [q|] eqn:Hp; [|done]. simpl.
  case_bool_decide as Hx; [done|].
  inversion He as [c Heq|x' c q' Hp' He']; subst; [congruence|].
  assert (q' = q) as -> by congruence. simpl. apply chain_app; [|done].
  apply IH; [by apply (parent_lt _ Hwf)|done].
Qed.

Lemma path_below_refl c : path_below ch (parent ch c) c = [].
Proof.
  unfold path_below. rewrite (outers_unfold ch Hwf c). destruct (parent ch c) as [q|]; [|done].
  simpl. by rewrite bool_decide_true.
Qed.

Lemma init_ok_declared d : init_ok ch d = true → init_cls d < ncls ch.
Proof. unfold init_ok. rewrite andb_true_iff, bool_decide_eq_true. tauto. Qed.

Lemma valid_first path d : valid path d → first path d < ncls ch.
Proof.
  intros [Hi Hc]. unfold first. destruct path as [|c path]; simpl; [by apply init_ok_declared|].
  destruct Hc as [Hp _]. pose proof (parent_declared ch _ _ Hp).
  apply (parent_lt _ Hwf) in Hp. lia.
Qed.

Lemma first_within path d : chain path (init_cls d) → within ch (first path d) (init_cls d).
Proof.
  unfold first. induction path as [|c path IH]; intros Hc; [by left|]. destruct Hc as [Hp Hc].
  simpl. right. specialize (IH Hc). by eapply within_kid.
Qed.

Lemma encloses_declared q c : encloses ch (Some q) c → c < ncls ch.
Proof.
  inversion 1; subst; by eapply parent_declared.
Qed.

(** ** What is entered lies in the region, and completely fills it *)
Lemma detour_valid c path d :
  valid (c :: path) d →
  length (detour c path d) = nreg ch c ∧
  ∀ k p i, detour c path d !! k = Some (p, i) → valid p i ∧ region ch (first p i) = (Some c, k).
Proof.
  intros [Hi [Hp Hc]].
  assert (pos ch (first path d) < nreg ch c) as Hlt by (apply (pos_lt _ Hwf); done).
  unfold detour. split.
  - rewrite !app_length, !map_length, take_length, drop_length. simpl. fold (nreg ch c). unfold nreg in *. lia.
  - intros k p i Hk. apply lookup_app_Some in Hk as [Hk|[Hlen Hk]].
    + rewrite list_lookup_fmap in Hk. destruct (take _ _ !! k) as [i'|] eqn:E; [|done].
      injection Hk as <- <-. apply lookup_take_Some in E as [E _].
      destruct (inner_region _ Hwf _ _ _ E) as [H1 H2]. split; [|done]. split; done.
    + rewrite map_length, take_length_le in * by (unfold nreg in Hlt; lia).
      cbn [app] in Hk. destruct (k - pos ch (first path d)) as [|j] eqn:Hj.
      * injection Hk as <- <-. split; [done|]. unfold region, first in *.
        rewrite Hp. f_equal. unfold first in *. lia.
      * simpl in Hk. rewrite list_lookup_fmap in Hk. destruct (drop _ _ !! j) as [i'|] eqn:E; [|done].
        injection Hk as <- <-. rewrite lookup_drop in E.
        destruct (inner_region _ Hwf _ _ _ E) as [H1 H2].
        split; [by split|]. unfold first. simpl. rewrite H1. f_equal. lia.
Qed.

Lemma defaults_valid c :
  length (defaults c) = nreg ch c ∧
  ∀ k p i, defaults c !! k = Some (p, i) → valid p i ∧ region ch (first p i) = (Some c, k).
Proof.
  unfold defaults. rewrite map_length. split; [done|]. intros k p i Hk.
  rewrite list_lookup_fmap in Hk. destruct (inner ch c !! k) as [i'|] eqn:E; [|done].
  injection Hk as <- <-. destruct (inner_region _ Hwf _ _ _ E) as [H1 H2]. split; [|done]. by split.
Qed.

Lemma shallow_valid c h : init_ok ch (IShallow c) = true → region ch h = region ch c →
  valid [] (IState h).
Proof.
  unfold init_ok. intros [_ Hc]%andb_true_iff Hr. split; [|done]. unfold init_ok.
  rewrite andb_true_r. apply bool_decide_eq_true. simpl. unfold region in Hr.
  destruct (parent ch c) as [q|] eqn:Hp; [|done]. injection Hr as Hp' _. by eapply parent_declared.
Qed.

Lemma deep_valid c l : init_ok ch (IDeep c) = true → encloses ch (parent ch c) l →
  valid (path_below ch (parent ch c) l) (IState l).
Proof.
  unfold init_ok. intros [_ Hc]%andb_true_iff He. split; [|by apply chain_path_below].
  unfold init_ok. rewrite andb_true_r. apply bool_decide_eq_true. simpl.
  destruct (parent ch c) as [q|] eqn:Hp; [|done]. by eapply encloses_declared.
Qed.

(** Every state entered is the one that fills the region, or is inside it, right after its outer
    state in the list of states entered; all regions are filled. *)
Definition inside (r : reg) (c : cls) : Prop := ∃ c', region ch c' = r ∧ within ch c' c.

Lemma inside_not_outer q k c : inside (Some q, k) c → q < c.
Proof.
  intros (c' & Hr & Hin). unfold region in Hr. injection Hr as Hp _. apply (parent_lt _ Hwf) in Hp.
  destruct Hin as [->|Hin]; [done|]. apply (encloses_lt ch Hwf) in Hin. lia.
Qed.

Lemma inside_trans r c k c' : inside r c → inside (Some c, k) c' → inside r c'.
Proof.
  intros (c0 & Hr & Hin) (c1 & Hr1 & Hin1). exists c0. split; [done|]. right.
  unfold region in Hr1. injection Hr1 as Hp _.
  assert (encloses ch (Some c) c') as He by by eapply within_kid.
  destruct Hin as [->|Hin]; [done|]. by eapply (encloses_trans ch).
Qed.

Record filled (r : reg) (cs : list cls) : Prop := {
  fi_inside c : c ∈ cs → inside r c;
  fi_root : ∃ c, c ∈ cs ∧ region ch c = r;
  fi_outer c q : c ∈ cs → parent ch c = Some q → region ch c = r ∨ q ∈ cs;
  fi_regions c k : c ∈ cs → k < nreg ch c → ∃ c', c' ∈ cs ∧ region ch c' = (Some c, k);
  fi_unique c c' : c ∈ cs → c' ∈ cs → region ch c = region ch c' → c = c' }.

Lemma builds_filled n path d cs ks : builds n path d cs ks → valid path d →
  filled (region ch (first path d)) cs.
Proof.
  revert n path d cs ks.
  set (P := λ n path d cs ks (_ : builds n path d cs ks), valid path d → filled (region ch (first path d)) cs).
  set (P0 := λ n its cs ks (_ : builds_all n its cs ks), ∀ q j,
    (∀ k p i, its !! k = Some (p, i) → valid p i ∧ region ch (first p i) = (Some q, j + k)) →
    (∀ c, c ∈ cs → ∃ k, k < length its ∧ inside (Some q, j + k) c) ∧
    (∀ k, k < length its → ∃ c, c ∈ cs ∧ region ch c = (Some q, j + k)) ∧
    (∀ c q', c ∈ cs → parent ch c = Some q' → q' = q ∨ q' ∈ cs) ∧
    (∀ c k, c ∈ cs → k < nreg ch c → ∃ c', c' ∈ cs ∧ region ch c' = (Some c, k)) ∧
    (∀ c c', c ∈ cs → c' ∈ cs → region ch c = region ch c' → c = c')).
  assert (∀ c (its : list (list cls * init)) cs, length its = nreg ch c →
    ((∀ c0, c0 ∈ cs → ∃ k, k < length its ∧ inside (Some c, 0 + k) c0) ∧
    (∀ k, k < length its → ∃ c0, c0 ∈ cs ∧ region ch c0 = (Some c, 0 + k)) ∧
    (∀ c0 q', c0 ∈ cs → parent ch c0 = Some q' → q' = c ∨ q' ∈ cs) ∧
    (∀ c0 k, c0 ∈ cs → k < nreg ch c0 → ∃ c', c' ∈ cs ∧ region ch c' = (Some c0, k)) ∧
    (∀ c0 c', c0 ∈ cs → c' ∈ cs → region ch c0 = region ch c' → c0 = c')) →
    filled (region ch c) (c :: cs)) as Hnode.
  { intros c its cs Hlen (A1 & A2 & A3 & A4 & A5). split.
    - intros c0 [->|Hc]%elem_of_cons; [exists c; split; [done|by left]|].
      destruct (A1 _ Hc) as (k & _ & Hin). eapply inside_trans; [|exact Hin]. exists c. split; [done|by left].
    - exists c. split; [left|done].
    - intros c0 q [->|Hc]%elem_of_cons Hp; [by left|]. right.
      destruct (A3 _ _ Hc Hp) as [->|Hq]; [left|by right].
    - intros c0 k [->|Hc]%elem_of_cons Hk.
      + destruct (A2 k) as (c1 & Hc1 & Hr1); [lia|]. exists c1. split; [by right|done].
      + destruct (A4 _ _ Hc Hk) as (c1 & Hc1 & Hr1). exists c1. split; [by right|done].
    - assert (∀ c0, c0 ∈ cs → region ch c0 ≠ region ch c) as Hne.
      { intros c0 Hc Hr. destruct (A1 _ Hc) as (k & _ & Hin).
        assert (encloses ch (Some c) c0) as He.
        { destruct Hin as (c1 & Hr1 & Hin). unfold region in Hr1. injection Hr1 as Hp1 _.
          by eapply within_kid. }
        assert (within ch c c0) by by right. unfold region in Hr. injection Hr as Hp _.
        assert (c0 = c) as ->. { apply (directly_below_unique ch Hwf (parent ch c) c0); try done. by left. }
        apply (encloses_lt ch Hwf) in He. lia. }
      intros c0 c1 [->|Hc0]%elem_of_cons [->|Hc1]%elem_of_cons Hr; [done| | |by apply A5].
      + by destruct (Hne _ Hc1).
      + by destruct (Hne _ Hc0). }
  change (∀ n path d cs ks (Hb : builds n path d cs ks), P n path d cs ks Hb).
  apply (builds_mind P P0); unfold P, P0.
  - intros n c path d cs ks Hb IH Hv. destruct (detour_valid c path d Hv) as [Hlen Hd].
    eapply (Hnode _ (detour c path d)); [done|]. apply IH. done.
  - intros n c cs ks Hb IH Hv. destruct (defaults_valid c) as [Hlen Hd].
    eapply (Hnode _ (defaults c)); [done|]. apply IH. done.
  - intros n c h cs ks Hr Hb IH Hv. unfold first in *. simpl in *. rewrite <-Hr. apply IH.
    eapply shallow_valid; [apply Hv|done].
  - intros n c l cs ks He Hr Hb IH Hv. unfold first in *. simpl in *. rewrite <-Hr. apply IH.
    by apply deep_valid; [apply Hv|].
  - intros n q j _. split_and!.
    + by intros c Hc%elem_of_nil.
    + simpl. lia.
    + by intros c q' Hc%elem_of_nil.
    + by intros c k Hc%elem_of_nil.
    + by intros c c' Hc%elem_of_nil.
  - intros n p d its cs cs' ks ks' Hb IH Hbs IHs q j Hits.
    destruct (Hits 0 p d eq_refl) as [Hv Hr]. specialize (IH Hv). rewrite Hr in IH.
    destruct (IHs q (Datatypes.S j)) as (A1 & A2 & A3 & A4 & A5).
    { intros k p' i Hk. replace (Datatypes.S j + k) with (j + Datatypes.S k) by lia. by apply Hits. }
    rewrite Nat.add_0_r in IH. destruct IH as [B1 B2 B3 B4 B5]. split_and!.
    + intros c [Hc|Hc]%elem_of_app.
      * exists 0. rewrite Nat.add_0_r. split; [simpl; lia|by apply B1].
      * destruct (A1 c Hc) as (k & Hk & Hin). exists (Datatypes.S k). split; [simpl; lia|].
        by replace (j + Datatypes.S k) with (Datatypes.S j + k) by lia.
    + intros [|k] Hk.
      * rewrite Nat.add_0_r. destruct B2 as (c & Hc & Hrc). exists c. rewrite elem_of_app. tauto.
      * destruct (A2 k) as (c & Hc & Hrc); [simpl in Hk; lia|]. exists c. rewrite elem_of_app.
        split; [tauto|]. rewrite Hrc. f_equal. lia.
    + intros c q' [Hc|Hc]%elem_of_app Hp.
      * destruct (B3 c q' Hc Hp) as [Hrc|Hq]; [left; unfold region in Hrc; congruence|].
        right. apply elem_of_app. by left.
      * destruct (A3 c q' Hc Hp) as [->|Hq]; [by left|]. right. apply elem_of_app. by right.
    + intros c k [Hc|Hc]%elem_of_app Hk.
      * destruct (B4 c k Hc Hk) as (c' & Hc' & Hr'). exists c'. rewrite elem_of_app. tauto.
      * destruct (A4 c k Hc Hk) as (c' & Hc' & Hr'). exists c'. rewrite elem_of_app. tauto.
    + assert (∀ c c', c ∈ cs → c' ∈ cs' → region ch c ≠ region ch c') as Hne.
      { intros c c' Hc Hc' Heq. destruct (B1 c Hc) as (c1 & Hr1 & Hin1).
        destruct (A1 c' Hc') as (k & _ & c2 & Hr2 & Hin2).
        unfold region in Hr1, Hr2. injection Hr1 as Hp1 Hpos1. injection Hr2 as Hp2 Hpos2.
        (* both regions are the same, so both objects are below the same region *)
        unfold region in Heq. injection Heq as Hp Hpos.
        destruct Hin1 as [->|Hin1], Hin2 as [->|Hin2].
        - lia.
        - rewrite Hp1 in Hp. inversion Hin2 as [? Heq|? ? q' Hq' Hin']; subst.
          + rewrite <-Hp in *. injection Heq as Heq. subst. apply (parent_lt _ Hwf) in Hp2. lia.
          + assert (q' = q) as -> by congruence. apply (encloses_lt ch Hwf) in Hin'.
            apply (parent_lt _ Hwf) in Hp2. lia.
        - rewrite Hp2 in Hp. inversion Hin1 as [? Heq|? ? q' Hq' Hin']; subst.
          + rewrite Hp in *. injection Heq as Heq. subst. apply (parent_lt _ Hwf) in Hp1. lia.
          + assert (q' = q) as -> by congruence. apply (encloses_lt ch Hwf) in Hin'.
            apply (parent_lt _ Hwf) in Hp1. lia.
        - assert (∃ q', parent ch c = Some q' ∧ within ch c1 q' ∧ within ch c2 q') as (q' & _ & Hw1 & Hw2).
          { inversion Hin1 as [? Heq1|? ? q1 Hq1 Hin1']; subst.
            - exists c1. split; [done|]. split; [by left|].
              inversion Hin2 as [? Heq2|? ? q2 Hq2 Hin2']; subst.
              + left. congruence.
              + assert (q2 = c1) as -> by congruence. by right.
            - exists q1. split; [done|]. split; [by right|].
              inversion Hin2 as [? Heq2|? ? q2 Hq2 Hin2']; subst.
              + left. congruence.
              + assert (q2 = q1) as -> by congruence. by right. }
          assert (c1 = c2) as -> by by apply (directly_below_unique ch Hwf (Some q) q'). lia. }
      intros c c' [Hc|Hc]%elem_of_app [Hc'|Hc']%elem_of_app Heq.
      * by apply B5.
      * by destruct (Hne _ _ Hc Hc').
      * by destruct (Hne _ _ Hc' Hc).
      * by apply A5.
Qed.

(** States are entered from the outside in, and lower regions first. *)
Lemma builds_sorted n path d cs ks : builds n path d cs ks → valid path d →
  StronglySorted (λ y z, exit_before ch z y) cs.
Proof.
  revert n path d cs ks.
  set (P := λ n path d cs ks (_ : builds n path d cs ks), valid path d → StronglySorted (λ y z, exit_before ch z y) cs).
  set (P0 := λ n its cs ks (_ : builds_all n its cs ks), ∀ q j,
    (∀ k p i, its !! k = Some (p, i) → valid p i ∧ region ch (first p i) = (Some q, j + k)) →
    StronglySorted (λ y z, exit_before ch z y) cs ∧ ∀ c, c ∈ cs → ∃ k, inside (Some q, j + k) c).
  assert (∀ c cs, StronglySorted (λ y z, exit_before ch z y) cs ∧ (∀ c', c' ∈ cs → ∃ k, inside (Some c, 0 + k) c') →
    StronglySorted (λ y z, exit_before ch z y) (c :: cs)) as Hnode.
  { intros c cs [Hs Hin]. constructor; [done|]. apply Forall_forall. intros c' Hc'. left.
    destruct (Hin _ Hc') as (k & c1 & Hr & Hw). unfold region in Hr. injection Hr as Hp _.
    by eapply within_kid. }
  change (∀ n path d cs ks (Hb : builds n path d cs ks), P n path d cs ks Hb).
  apply (builds_mind P P0); unfold P, P0.
  - intros n c path d cs ks Hb IH Hv. apply Hnode, IH. by apply detour_valid.
  - intros n c cs ks Hb IH Hv. apply Hnode, IH. by apply defaults_valid.
  - intros n c h cs ks Hr Hb IH Hv. apply IH. eapply shallow_valid; [apply Hv|done].
  - intros n c l cs ks He Hr Hb IH Hv. apply IH. by apply deep_valid; [apply Hv|].
  - intros n q j _. split; [constructor|]. by intros c Hc%elem_of_nil.
  - intros n p d its cs cs' ks ks' Hb IH Hbs IHs q j Hits.
    destruct (Hits 0 p d eq_refl) as [Hv Hr]. pose proof (fi_inside _ _ (builds_filled _ _ _ _ _ Hb Hv)) as Hin.
    rewrite Hr in Hin. rewrite Nat.add_0_r in Hin.
    destruct (IHs q (Datatypes.S j)) as [Hs Hin'].
    { intros k p' i Hk. replace (Datatypes.S j + k) with (j + Datatypes.S k) by lia. by apply Hits. }
    split.
    + apply sorted_app; [by apply IH|done|]. intros u v Hu Hv'. right.
      destruct (Hin _ Hu) as (c1 & Hr1 & Hw1). destruct (Hin' _ Hv') as (k & c2 & Hr2 & Hw2).
      unfold region in Hr1, Hr2. injection Hr1 as Hp1 Hpos1. injection Hr2 as Hp2 Hpos2.
      exists q, c2, c1. split_and!; [done|done|lia|done|done].
    + intros c [Hc|Hc]%elem_of_app.
      * exists 0. rewrite Nat.add_0_r. by apply Hin.
      * destruct (Hin' _ Hc) as (k & Hk). exists (Datatypes.S k).
        by replace (j + Datatypes.S k) with (Datatypes.S j + k) by lia.
Qed.

(** The constructor calls of entering [cs], the first one having address [n]. *)
Fixpoint ctors (n : ptr) (cs : list cls) : list okind :=
  match cs with
  | [] => []
  | c :: cs' => OCtor n c :: ctors (n + 1) cs'
  end.
Lemma ctors_app n cs cs' : ctors n (cs ++ cs') = ctors n cs ++ ctors (n + length cs) cs'.
Proof.
  revert n. induction cs as [|c cs IH]; intros n; simpl; [by rewrite Nat.add_0_r|].
  rewrite IH. do 2 f_equal. f_equal. lia.
Qed.

(** What is recorded besides the constructor calls are the history lookups. *)
Definition is_lookup (k : okind) : bool :=
  match k with OHistS _ _ | OHistD _ _ => true | _ => false end.
Lemma builds_ctors n path d cs ks : builds n path d cs ks →
  filter (λ k, is_lookup k = false) ks = ctors n cs.
Proof.
  revert n path d cs ks.
  set (P := λ n path d cs ks (_ : builds n path d cs ks), filter (λ k, is_lookup k = false) ks = ctors n cs).
  set (P0 := λ n its cs ks (_ : builds_all n its cs ks), filter (λ k, is_lookup k = false) ks = ctors n cs).
  change (∀ n path d cs ks (Hb : builds n path d cs ks), P n path d cs ks Hb).
  apply (builds_mind P P0); unfold P, P0.
  - intros n c path d cs ks Hb IH. rewrite filter_cons_True by done. by rewrite IH.
  - intros n c cs ks Hb IH. rewrite filter_cons_True by done. by rewrite IH.
  - intros n c h cs ks Hr Hb IH. by rewrite filter_cons_False.
  - intros n c l cs ks He Hr Hb IH. by rewrite filter_cons_False.
  - done.
  - intros n p d its cs cs' ks ks' Hb IH Hbs IHs. by rewrite filter_app, IH, IHs, ctors_app.
Qed.

Lemma builds_all_app n its its' cs ks : builds_all n (its ++ its') cs ks →
  ∃ cs1 cs2 ks1 ks2, cs = cs1 ++ cs2 ∧ ks = ks1 ++ ks2 ∧
    builds_all n its cs1 ks1 ∧ builds_all (n + length cs1) its' cs2 ks2.
Proof.
  revert n cs ks. induction its as [|[p d] its IH]; intros n cs ks Hb.
  - exists [], cs, [], ks. rewrite Nat.add_0_r. split_and!; [done|done|constructor|done].
  - inversion Hb as [|? ? ? ? cs0 cs0' ks0 ks0' Hb1 Hb2]; subst.
    destruct (IH _ _ _ Hb2) as (cs1 & cs2 & ks1 & ks2 & -> & -> & H1 & H2).
    exists (cs0 ++ cs1), cs2, (ks0 ++ ks1), ks2. rewrite app_length, Nat.add_assoc.
    split_and!; [by rewrite app_assoc|by rewrite app_assoc|by constructor|done].
Qed.

(** The path and the destination are entered. *)
Lemma builds_path n path d cs ks : builds n path d cs ks →
  ∃ n' cs' ks', (∀ c, c ∈ path ++ cs' → c ∈ cs) ∧ (∀ k, k ∈ ks' → k ∈ ks) ∧ builds n' [] d cs' ks'.
Proof.
  revert n cs ks. induction path as [|c path IH]; intros n cs ks Hb; [by exists n, cs, ks|].
  inversion Hb as [? ? ? ? cs0 ks0 H4| | |]; subst. unfold detour in H4.
  apply builds_all_app in H4 as (cs1 & cs2 & ks1 & ks2 & -> & -> & _ & H4).
  cbn [app] in H4. inversion H4 as [|? ? ? ? cs0 cs0' ks0 ks0' H5 H6]; subst.
  destruct (IH _ _ _ H5) as (n' & cs' & ks' & H1 & H3 & H2).
  exists n', cs', ks'. split_and!; [| |done].
  - intros c' [->|Hc']%elem_of_cons; [left|]. right. rewrite !elem_of_app. right. left. by apply H1.
  - intros k Hk. right. rewrite !elem_of_app. right. left. by apply H3.
Qed.

End build.
