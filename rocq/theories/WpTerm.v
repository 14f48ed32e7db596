(** Terminating a state, and terminating the machine. *)
From Verif Require Export WpExit.

Section wp_term.
Context {W : Type} (ch : chart) (U : user W).
Context (Hwf : wf_chart ch = true) (HU : user_ok ch U).
Notation S := (mst W acore).
Notation alive := (alive ch).
Notation kids := (kids ch).
Notation good := (good ch).
Notation evo := (evo (W:=W) ch).

(** ** Innermost states *)
Lemma has_leaf H a x :
  good H a → aunst a = None → alive a x → (∀ y : aid, y ∈ H → y.1 < x.1) →
  ∃ y, y ∈ ord a ∧ within ch x.1 y.1.
Proof.
  intros Hg Hu. pose proof (gd_wf _ _ _ Hg) as Hw. remember (ncls ch - x.1) as n eqn:Hn. revert x Hn.
  induction (lt_wf n) as [n _ IH]. intros x -> Hx HH.
  pose proof (gd_busy _ _ _ Hg x Hx) as Hb. apply busy_true in Hb.
  destruct Hb as [Hb|[Hb|[Hb|Hb]]]; [|by exists x; split; [|left]|congruence|apply HH in Hb; lia].
  destruct (kids a x.1) as [|z l] eqn:Hk; [done|].
  assert (z ∈ kids a x.1) as Hz by (rewrite Hk; left).
  pose proof (kids_lt ch Hwf _ _ _ _ Hw Hz) as Hlt.
  apply (elem_of_kids ch Hwf _ _ _ _ Hw) in Hz as [Hz Hp].
  destruct (IH (ncls ch - z.1)) with (x := z) as (y & Hy & Hin); [lia|done|done| |].
  - intros w Hwin. apply HH in Hwin. lia.
  - exists y. split; [done|]. right. by eapply within_kid.
Qed.

(** With a single innermost state everything active is on one path. *)
Lemma single_path H a x y :
  good H a → aunst a = None → alive a x → (∀ y : aid, y ∈ H → y.1 < x.1) → ord a = [y] →
  gone ch H a x = y :: up ch H a y ∧ within ch x.1 y.1.
Proof.
  intros Hg Hu. pose proof (gd_wf _ _ _ Hg) as Hw. remember (ncls ch - x.1) as n eqn:Hn. revert x Hn.
  induction (lt_wf n) as [n _ IH]. intros x -> Hx HH Hy.
  destruct (is_leaf ch x.1) eqn:Hl.
  { destruct (good_leaf ch _ _ _ Hg Hx Hl) as [Hin|Hin]; [|apply HH in Hin; lia].
    rewrite Hy in Hin. apply elem_of_list_singleton in Hin as ->.
    unfold gone. rewrite (sub_unfold ch Hwf _ _ _ Hw), kids_leaf by done. split; [done|by left]. }
  assert (∀ z, z ∈ kids a x.1 → gone ch H a z = y :: up ch H a y ∧ within ch z.1 y.1) as Hkid.
  { intros z Hz. pose proof (kids_lt ch Hwf _ _ _ _ Hw Hz) as Hlt.
    apply (elem_of_kids ch Hwf _ _ _ _ Hw) in Hz as [Hz Hp].
    apply (IH (ncls ch - z.1)); [lia|done|done| |done]. intros w Hwin. apply HH in Hwin. lia. }
  assert (kids a x.1 ≠ []) as Hne.
  { pose proof (gd_busy _ _ _ Hg x Hx) as Hb. apply busy_true in Hb.
    destruct Hb as [Hb|[Hb|[Hb|Hb]]]; [done| |congruence|apply HH in Hb; lia].
    apply (wa_ord _ _ _ Hw) in Hb as [_ ?]. congruence. }
  assert (∃ z, kids a x.1 = [z]) as [z Hz].
  { pose proof (kids_NoDup ch _ _ x.1 Hw) as Hnd.
    destruct (kids a x.1) as [|z l] eqn:Hk; [done|]. exists z. destruct l as [|z' l]; [done|]. exfalso.
    destruct (Hkid z) as [_ Hin]; [left|]. destruct (Hkid z') as [_ Hin']; [right; left|].
    assert (z ∈ kids a x.1) as Hz1 by (rewrite Hk; left).
    assert (z' ∈ kids a x.1) as Hz2 by (rewrite Hk; right; left).
    apply (elem_of_kids ch Hwf _ _ _ _ Hw) in Hz1 as [Hz1 Hp1], Hz2 as [Hz2 Hp2].
    assert (z = z') as ->.
    { apply (alive_unique ch a); [done..|]. by apply (directly_below_unique ch Hwf (Some x.1) y.1). }
    apply NoDup_cons in Hnd as [Hnd _]. apply Hnd. left. }
  destruct (Hkid z) as [Hgz Hinz]; [rewrite Hz; left|].
  assert (z ∈ kids a x.1) as Hzk by (rewrite Hz; left).
  apply (elem_of_kids ch Hwf _ _ _ _ Hw) in Hzk as [Hza Hzp].
  split; [|right; by eapply within_kid]. rewrite <-Hgz. unfold gone.
  rewrite (sub_unfold ch Hwf _ _ x Hw), Hz, (up_unfold ch Hwf _ _ _ z Hw Hza).
  assert (ctx_of ch a z.1 = Some x) as -> by (unfold ctx_of; by rewrite Hzp).
  rewrite decide_True by (split; [done|]; intros Hin; apply HH in Hin; lia).
  simpl. by rewrite app_nil_r, <-app_assoc.
Qed.

(** ** terminate_impl of a state *)
Record removed (fe : bool) (H : list aid) (x : aid) (s s' : S) : Prop := {
  rm_core : core s' = leave ch (gone ch H (core s) x) (core s);
  rm_good : good H (core s');
  rm_evo : evo (exits fe (gone ch H (core s) x)) (en s) (en s');
  rm_ico : ico (en s') = false }.

(** An exception interrupted the machine; without it, what is recorded would have been as [P] says.  If [B]
    holds of the configuration at the beginning of the current step, the outermost unstable state is the right one. *)
Record failed (H : list aid) (P : list okind → Prop) (B : acore → Prop) (y : exn) (s s' : S) : Prop := {
  fl_good : good H (core s');
  fl_unst : aunst (core s') ≠ None ∨ occ (core s') !! (None, 0) = None;
  fl_evx : ∃ g K K' L', P (K ++ K') ∧ fits ch g K K' ∧ evx ch y g K L' (en s) (en s');
  fl_marked a0 : B a0 → marked ch a0 (core s') }.
(** A step begins at [a], which is stable. *)
Definition begins (a : acore) (a0 : acore) : Prop := a0 = a ∧ aunst a = None.

Lemma failed_trans H L (P P' : list okind → Prop) (B B' : acore → Prop) y s s1 s' :
  evo L (en s) (en s1) → (∀ K, P K → P' (L ++ K)) → (∀ a, B' a → B a) → failed H P B y s1 s' → failed H P' B' y s s'.
Proof.
  intros He HP HB [F1 F2 (g & K & K' & L' & F3 & F0 & F4) F5]. split; try done; [|auto].
  exists g, (L ++ K), K', L'. rewrite <-app_assoc. split_and!; [by apply HP|by apply fits_pre|]. by eapply evx_before.
Qed.
Lemma failed_mono H (P P' : list okind → Prop) B y s s' :
  (∀ K, P K → P' K) → failed H P B y s s' → failed H P' B y s s'.
Proof. intros HP [F1 F2 (g & K & K' & L' & F3 & F4) F5]. split; try done. eauto 8. Qed.

Lemma evo_set_ico b (v : env W) : evo [] v (set_ico b v).
Proof. by apply evo_same. Qed.

Lemma wp_terminate_state H x fe (s : S) :
  good H (core s) → alive (core s) x → (∀ y : aid, y ∈ H → y.1 < x.1) →
  wp (a_terminate_state ch U H x fe)
    (λ _ s', removed fe H x s s')
    (λ y s', fe = true ∧ ico (en s') = false ∧ failed H (eq (exits fe (gone ch H (core s) x))) (begins (core s)) y s s') s.
Proof.
  intros Hg Hx HH. unfold a_terminate_state. apply wp_bind, wp_on_env, wp_bind, wp_gets. cbn [core].
  set (s1 := MSt (core s) (set_ico false (en s))).
  assert (∀ s', left_all ch fe H (gone ch H (core s) x) s1 s' → removed fe H x s s') as HQ.
  { intros s' [A1 A2 A3 A4]. split; try done. eapply evo_trans_l; [|exact A3]. by apply evo_set_ico. }
  assert (∀ y s', broken ch fe H (gone ch H (core s) x) y s1 s' → fe = true ∧ ico (en s') = false ∧ failed H (eq (exits fe (gone ch H (core s) x))) (begins (core s)) y s s') as HE.
  { intros y s' [B1 B2 B3 (g & K & K' & L' & B4 & Bf & B4') B5 B6]. split_and!; [done..|]. split; [done..| |].
    - exists g, K, K', L'. split; [done|]. split; [done|]. eapply evx_before0; [|exact B4']. by apply evo_set_ico.
    - intros a0 [-> Hu0]. eapply (cut_marked ch Hwf H H); [exact (gd_wf _ _ _ Hg)|exact (gd_wf _ _ _ B2)|done..|exact B6]. }
  assert (wp (a_remove ch U (depth_fuel ch) H x fe)
    (λ _ s', removed fe H x s s')
    (λ y s', fe = true ∧ ico (en s') = false ∧ failed H (eq (exits fe (gone ch H (core s) x))) (begins (core s)) y s s') s1) as Hrem.
  { eapply wp_mono; [eapply (wp_remove ch U Hwf HU); [done..|unfold depth_fuel; lia]|auto|auto]. }
  destruct (aunst (core s)) as [u|] eqn:Hu; [done|].
  destruct (ord (core s)) as [|y [|y' l]] eqn:Ho; [| |done].
  - destruct (has_leaf _ _ _ Hg Hu Hx HH) as (y & Hy & _). rewrite Ho in Hy. by apply elem_of_nil in Hy.
  - destruct (single_path _ _ _ _ Hg Hu Hx HH Ho) as [Heq Hin].
    destruct (wa_ord _ _ _ (gd_wf _ _ _ Hg) y) as [Hya Hyl]; [rewrite Ho; left|].
    assert (y ∉ H) as HyH.
    { intros HyH. apply HH in HyH. destruct Hin as [Hin|Hin]; [lia|].
      apply (encloses_lt ch Hwf) in Hin. lia. }
    eapply wp_mono; [apply (wp_leaf ch U Hwf HU); done| |].
    + intros u s' Hla. apply HQ. by rewrite Heq.
    + intros e s' Hb. apply HE. by rewrite Heq.
Qed.

(** terminate_impl of a state that is held and has something inside. *)
Record emptied (fe : bool) (H : list aid) (w : aid) (s s' : S) : Prop := {
  em_core : core s' = leave ch (insides ch (core s) w) (core s);
  em_good : good (w :: H) (core s');
  em_evo : evo (exits fe (insides ch (core s) w)) (en s) (en s');
  em_ico : ico (en s') = false }.

Lemma wp_terminate_held H w fe (s : S) :
  good (w :: H) (core s) → alive (core s) w → (∀ y : aid, y ∈ H → y.1 < w.1) → kids (core s) w.1 ≠ [] →
  wp (a_terminate_state ch U (w :: H) w fe)
    (λ _ s', emptied fe H w s s')
    (λ y s', failed (w :: H) (eq (exits fe (insides ch (core s) w))) (λ _, False) y s s') s.
Proof.
  intros Hg Hx HH Hk. unfold a_terminate_state. apply wp_bind, wp_on_env, wp_bind, wp_gets. cbn [core].
  pose proof (gd_wf _ _ _ Hg) as Hw.
  set (s1 := MSt (core s) (set_ico false (en s))).
  assert (∀ s', left_all ch fe (w :: H) (insides ch (core s) w) s1 s' → emptied fe H w s s') as HQ.
  { intros s' [A1 A2 A3 A4]. split; try done. eapply evo_trans_l; [|exact A3]. by apply evo_set_ico. }
  assert (∀ y s', broken ch fe (w :: H) (insides ch (core s) w) y s1 s' → failed (w :: H) (eq (exits fe (insides ch (core s) w))) (λ _, False) y s s') as HE.
  { intros y s' [B1 B2 B3 (g & K & K' & L' & B4 & Bf & B4') B5 B6]. split; [done..| |].
    - exists g, K, K', L'. split; [done|]. split; [done|]. eapply evx_before0; [|exact B4']. by apply evo_set_ico.
    - done. }
  assert (wp (a_remove ch U (depth_fuel ch) (w :: H) w fe)
    (λ _ s', emptied fe H w s s')
    (λ y s', failed (w :: H) (eq (exits fe (insides ch (core s) w))) (λ _, False) y s s') s1) as Hrem.
  { eapply wp_mono; [eapply (wp_empty ch U Hwf HU); [done..|unfold depth_fuel; lia]|auto|auto]. }
  destruct (aunst (core s)) as [u|] eqn:Hu; [done|].
  assert (∀ k, k ∈ kids (core s) w.1 → alive (core s) k ∧ parent ch k.1 = Some w.1 ∧ (∀ y : aid, y ∈ w :: H → y.1 < k.1)) as Hkid.
  { intros k Hkk. apply (elem_of_kids ch Hwf _ _ _ _ Hw) in Hkk as [H1 H2]. split_and!; [done..|].
    pose proof (parent_lt _ Hwf _ _ H2). intros y [->|Hy]%elem_of_cons; [done|]. apply HH in Hy. lia. }
  destruct (ord (core s)) as [|y [|y' l]] eqn:Ho; [| |done].
  - destruct (kids (core s) w.1) as [|k ks]; [done|]. destruct (Hkid k) as (K1 & K2 & K3); [left|].
    destruct (has_leaf _ _ _ Hg Hu K1 K3) as (y & Hy & _). rewrite Ho in Hy. by apply elem_of_nil in Hy.
  - assert (∃ k, kids (core s) w.1 = [k] ∧ sub ch (core s) k = y :: up ch (w :: H) (core s) y ∧ within ch k.1 y.1) as (k & Hk1 & Heq & Hin).
    { assert (∀ k, k ∈ kids (core s) w.1 → sub ch (core s) k = y :: up ch (w :: H) (core s) y ∧ within ch k.1 y.1) as Hone.
      { intros k Hkk. destruct (Hkid k Hkk) as (K1 & K2 & K3).
        destruct (single_path _ _ _ _ Hg Hu K1 K3 Ho) as [Heq Hin]. split; [|done]. rewrite <-Heq. unfold gone.
        rewrite (up_unfold ch Hwf _ _ _ k Hw K1). assert (ctx_of ch (core s) k.1 = Some w) as -> by (unfold ctx_of; by rewrite K2).
        rewrite decide_False, app_nil_r; [done|]. intros [_ Hn]. apply Hn. left. }
      pose proof (kids_NoDup ch _ _ w.1 Hw) as Hnd.
      destruct (kids (core s) w.1) as [|k ks] eqn:Ek; [done|]. exists k. split; [|apply Hone; left].
      destruct ks as [|k' ks]; [done|]. exfalso.
      destruct (Hkid k) as (K1 & K2 & _); [left|]. destruct (Hkid k') as (K1' & K2' & _); [right; left|].
      assert (k = k') as ->.
      { apply (alive_unique ch (core s)); [done..|]. apply (directly_below_unique ch Hwf (Some w.1) y.1); [done|done|..].
        - apply Hone. left.
        - apply Hone. right. left. }
      apply NoDup_cons in Hnd as [Hnd _]. apply Hnd. left. }
    assert (insides ch (core s) w = y :: up ch (w :: H) (core s) y) as Hins.
    { unfold insides. rewrite Hk1. simpl. by rewrite app_nil_r, Heq. }
    destruct (wa_ord _ _ _ (gd_wf _ _ _ Hg) y) as [Hya Hyl]; [rewrite Ho; left|].
    assert (y ∉ w :: H) as HyH.
    { intros HyH. destruct (Hkid k) as (_ & _ & K3); [rewrite Hk1; left|]. apply K3 in HyH. destruct Hin as [Hin|Hin]; [lia|].
      apply (encloses_lt ch Hwf) in Hin. lia. }
    eapply wp_mono; [apply (wp_leaf ch U Hwf HU); done| |].
    + intros u s' Hla. apply HQ. by rewrite Hins.
    + intros e s' Hb. apply HE. by rewrite Hins.
Qed.

(** ** The machine *)
Lemma alive_under_root H a y : wfa ch H a → alive a y →
  ∃ x, occ a !! (None, 0) = Some x ∧ alive a x ∧ within ch x.1 y.1.
Proof.
  intros Hw. remember y.1 as n eqn:Hn. revert y Hn. induction (lt_wf n) as [n _ IH]. intros y -> Hy.
  destruct (parent ch y.1) as [q|] eqn:Hp.
  - destruct (wa_par _ _ _ Hw _ _ Hy Hp) as [pq Hq].
    destruct (IH q) with (y := (q, pq)) as (x & Hx & Hxa & Hin);
      [by apply (parent_lt _ Hwf)|done|done|].
    exists x. split_and!; [done..|]. right. destruct Hin as [Hin|Hin].
    + simpl in Hin. rewrite <-Hin, <-Hp. constructor.
    + eapply (encloses_trans ch); [exact Hin|]. rewrite <-Hp. constructor.
  - exists y. split_and!; [|done|by left]. unfold Abs.alive, region in Hy.
    by rewrite Hp, (pos_top _ Hwf _ Hp) in Hy.
Qed.

Definition empty_core (a : acore) : Prop := occ a = ∅ ∧ ord a = [] ∧ aunst a = None.

Lemma empty_core_good n d : good [] (ACore ∅ d [] None n) ↔ ∀ p, p ∈ d → p < n.
Proof.
  split.
  - intros Hg. apply (wa_dfr _ _ _ (gd_wf _ _ _ Hg)).
  - intros Hd. assert (∀ x, ¬ alive (ACore ∅ d [] None n) x) as Hno.
    { intros x Hx. unfold Abs.alive in Hx. simpl in Hx. by rewrite lookup_empty in Hx. }
    split; [split|..].
    1: intros r x; simpl; by rewrite lookup_empty.
    all: simpl; try done; try (by intros x Hx%elem_of_nil); try (intros x; intros; by destruct (Hno x)).
    constructor.
Qed.

Lemma good_empty a : good [] a → occ a !! (None, 0) = None → empty_core a.
Proof.
  intros Hg Ho. pose proof (gd_wf _ _ _ Hg) as Hw.
  assert (∀ y, ¬ alive a y) as Hno.
  { intros y Hy. destruct (alive_under_root _ _ _ Hw Hy) as (x & Hx & _). congruence. }
  split_and!.
  - apply map_eq. intros r. rewrite lookup_empty. destruct (occ a !! r) as [y|] eqn:Hy; [|done].
    destruct (Hno y). unfold Abs.alive. by rewrite (wa_reg _ _ _ Hw _ _ Hy).
  - destruct (ord a) as [|y l] eqn:Hy; [done|]. destruct (Hno y).
    apply (wa_ord _ _ _ Hw). rewrite Hy. left.
  - destruct (aunst a) as [y|] eqn:Hy; [|done]. destruct (Hno y). by apply (wa_unst _ _ _ Hw).
Qed.

(** What is left when the outermost state is removed. *)
Lemma leave_root H a x : wfa ch H a → occ a !! (None, 0) = Some x →
  alive a x ∧ parent ch x.1 = None ∧ up ch H a x = [] ∧
  occ (leave ch (gone ch H a x) a) !! (None, 0) = None ∧ (∀ y, y ∈ sub ch a x ↔ alive a y).
Proof.
  intros Hw Hx. pose proof (wa_reg _ _ _ Hw _ _ Hx) as Hr.
  assert (alive a x) as Hxa by (unfold Abs.alive; by rewrite Hr).
  unfold region in Hr. injection Hr as Hp Hpos.
  assert (up ch H a x = []) as Hup.
  { rewrite (up_unfold ch Hwf _ _ _ _ Hw Hxa). unfold ctx_of. by rewrite Hp. }
  split_and!; try done.
  - unfold gone. rewrite Hup, app_nil_r, occ_leave, decide_True; [done|].
    apply elem_of_list_In, in_map_iff. exists x. split; [unfold region; by rewrite Hp, Hpos|].
    apply elem_of_list_In, (elem_of_sub ch Hwf _ _ _ _ Hw Hxa). split; [done|by left].
  - intros y. rewrite (elem_of_sub ch Hwf _ _ _ _ Hw Hxa). split; [tauto|]. intros Hy. split; [done|].
    destruct (alive_under_root _ _ _ Hw Hy) as (x' & Hx' & _ & Hin). congruence.
Qed.

(** The states left by terminating the machine. *)
Definition all_gone (a : acore) : list aid :=
  match occ a !! (None, 0) with Some x => sub ch a x | None => [] end.

Lemma evo_set_full b L (v v' : env W) : evo L (set_full b v) v' → full v = b → evo L v v'.
Proof. intros [E1 E2 E3 E4] Hf. split; try done. simpl in E3. congruence. Qed.

(** The machine was terminated. *)
Record ended (fe : bool) (s s' : S) : Prop := {
  nd_empty : empty_core (core s');
  nd_good : good [] (core s');
  nd_trig : trig (en s') = trig (en s);
  nd_full : full (en s') = true;
  nd_queue : queue (en s') = [];
  nd_deferred : deferred (en s') = [];
  nd_shallow : shallow_map (en s') = ∅;
  nd_deep : deep_map (en s') = ∅;
  nd_ico : occ (core s) !! (None, 0) = None → ico (en s') = ico (en s);
  nd_ico' : occ (core s) !! (None, 0) ≠ None → ico (en s') = false;
  nd_trace : ∃ T, trace (en s') = trace (en s) ++ T ++ [Obs (trig (en s)) OReset] ∧
    life T = exits fe (all_gone (core s)) ∧
    Forall (λ o, ob_trig o = trig (en s) ∧ quiet (ob o) = true) T }.

Lemma hist_ok_empty (v : env W) : shallow_map v = ∅ → deep_map v = ∅ → hist_ok ch v.
Proof. intros H1 H2. unfold hist_ok. rewrite H1, H2. split; intros r h; by rewrite lookup_empty. Qed.

Lemma wp_terminate_machine fe (s : S) :
  good [] (core s) →
  wp (a_terminate_machine ch U fe)
    (λ _ s', ended fe s s')
    (λ y s', fe = true ∧ full (en s') = true ∧
             failed [] (eq (exits true (all_gone (core s)))) (begins (core s)) y (MSt (core s) (set_full true (en s))) s') s.
Proof.
  intros Hg. unfold a_terminate_machine. apply wp_bind, wp_on_env, wp_bind, wp_gets, wp_bind. cbn [core].
  set (s1 := MSt (core s) (set_full true (en s))). pose proof (gd_wf _ _ _ Hg) as Hw.
  destruct (occ (core s) !! (None, 0)) as [x|] eqn:Hx.
  - destruct (leave_root _ _ _ Hw Hx) as (Hxa & Hp & Hup & Hnone & Hall).
    eapply wp_mono; [apply wp_terminate_state; [done|done|]| |].
    + by intros y Hy%elem_of_nil.
    + intros [] s2 [R1 R2 R3 R4]. apply wp_on_env. simpl in R1, R2, R3.
      assert (empty_core (core s2)) as He by (apply good_empty; [done|]; by rewrite R1).
      pose proof (evo_ext _ _ _ _ R3) as (T & HT1 & HT2 & HT3).
      split; simpl; try done.
      * apply (evo_trig _ _ _ _ R3).
      * by rewrite (evo_full _ _ _ _ R3).
      * intros Hx'. congruence.
      * exists T. simpl in HT1, HT3. rewrite HT1, (evo_trig _ _ _ _ R3). simpl. rewrite <-app_assoc.
        split_and!; [done| |done]. rewrite HT2. unfold all_gone. rewrite Hx. unfold gone.
        by rewrite Hup, app_nil_r.
    + intros y s2 (-> & Hi & Hf). destruct (fl_evx _ _ _ _ _ _ Hf) as (g & K & K' & L' & _ & _ & He).
      split_and!; [done|by rewrite (evx_full _ _ _ _ _ _ _ He)|]. eapply failed_mono; [|exact Hf].
      intros K0 <-. unfold all_gone. rewrite Hx. unfold gone. cbn [core s1]. by rewrite Hup, app_nil_r.
  - apply wp_ret, wp_on_env. pose proof (good_empty _ Hg Hx) as He.
    split; simpl; try done. exists []. unfold all_gone. rewrite Hx. done.
Qed.

(** ** terminate() of a state as a reaction *)
Lemma good_set_unst H a u :
  good H a → aunst a = Some u → busy ch H (set_aunst None a) u = true → good H (set_aunst None a).
Proof.
  intros [Hw Hb Hu Hd] Hau Hbu. split.
  - destruct Hw. constructor; simpl; try assumption. done.
  - intros y Hy. change (alive (set_aunst None a) y) with (alive a y) in Hy.
    destruct (decide (y = u)) as [->|Hne]; [done|].
    specialize (Hb y Hy). rewrite busy_true in *. simpl.
    change (kids (set_aunst None a) y.1) with (kids a y.1).
    destruct Hb as [Hb|[Hb|[Hb|Hb]]]; try tauto. congruence.
  - done.
  - done.
Qed.

(** The outer state at which a removal stops has another active inner state. *)
Lemma top_kids H a x q : wfa ch H a → alive a x →
  ctx_of ch a (top ch [] a x).1 = Some q →
  alive (leave ch (gone ch [] a x) a) q ∧ kids (leave ch (gone ch [] a x) a) q.1 ≠ [].
Proof.
  intros Hw Hx Hc. destruct (up_facts ch Hwf [] _ _ _ Hw Hx) as (H1 & H2 & Ht & Hin & Hstop & _).
  specialize (Hstop q Hc). set (t := top ch [] a x) in *.
  destruct t as [ct pt] eqn:Et. destruct (ctx_of_alive _ _ _ _ _ _ Hw Ht Hc) as [Hq Hp].
  rewrite <-Et in *.
  assert (∀ y, y ∈ gone ch [] a x → within ch t.1 y.1) as Hgone.
  { intros y [Hy|Hy]%elem_of_app.
    - apply (elem_of_sub ch Hwf _ _ _ _ Hw Hx) in Hy as [_ Hy].
      destruct Hin as [Hin|Hin]; [by rewrite <-Hin|]. right.
      destruct Hy as [Hy|Hy]; [by rewrite Hy|]. by eapply (encloses_trans ch).
    - destruct (last (up ch [] a x)) as [z|] eqn:Hz.
      2:{ apply last_None in Hz. rewrite Hz in Hy. by apply elem_of_nil in Hy. }
      assert (t = z) as Htz by (unfold t, top; by rewrite Hz).
      apply last_Some in Hz as [l' Hz]. rewrite Hz in Hy, H2.
      apply elem_of_app in Hy as [Hy| ->%elem_of_list_singleton]; [|rewrite Htz; by left].
      rewrite Htz. right. clear -H2 Hy. induction l' as [|w l' IH]; [by apply elem_of_nil in Hy|].
      cbn [app] in H2. apply StronglySorted_inv in H2 as [H2 Hall]. rewrite Forall_forall in Hall.
      apply elem_of_cons in Hy as [->|Hy]; [|by apply IH]. apply Hall. apply elem_of_app. right. left. }
  assert (t.1 = ct) as Htc by by rewrite Et.
  assert (∀ y, y ∈ gone ch [] a x → alive a y) as Hgal by (intros y; by eapply gone_alive).
  assert (t ∈ kids a q.1) as Htk.
  { apply (elem_of_kids ch Hwf _ _ _ _ Hw). by rewrite Htc. }
  assert (∃ z, z ∈ kids a q.1 ∧ z ≠ t) as (z & Hz & Hzt).
  { destruct (kids a q.1) as [|z1 l] eqn:Hk; [by apply elem_of_nil in Htk|].
    destruct (decide (z1 = t)) as [->|Hne]; [|exists z1; split; [left|done]].
    destruct l as [|z2 l]; [exfalso; apply Hstop; split; [done|apply not_elem_of_nil]|].
    exists z2. split; [right; left|]. intros ->. pose proof (kids_NoDup ch _ _ q.1 Hw) as Hnd.
    rewrite Hk in Hnd. apply NoDup_cons in Hnd as [Hnd _]. apply Hnd. left. }
  apply (elem_of_kids ch Hwf _ _ _ _ Hw) in Hz as [Hza Hzp].
  split.
  - apply leave_alive; [done|]. split; [done|]. intros Hq'. apply Hgone in Hq'. rewrite Htc in Hq'.
    apply (parent_lt _ Hwf) in Hp. destruct Hq' as [Hq'|Hq']; [lia|]. apply (encloses_lt ch Hwf) in Hq'. lia.
  - assert (alive (leave ch (gone ch [] a x) a) z) as Hz'.
    { apply leave_alive; [done|]. split; [done|]. intros Hin'. apply Hgone in Hin'.
      apply Hzt, (alive_unique ch a); [done..|].
      apply (directly_below_unique ch Hwf (Some q.1) z.1); [done|by rewrite Htc|by left|done]. }
    rewrite kids_nil. intros Hnone. unfold Abs.alive, region in Hz'.
    rewrite Hzp in Hz'. rewrite Hnone in Hz'; [done|]. by apply (pos_lt _ Hwf).
Qed.

(** A state was terminated by a reaction. *)
Record cut (fe : bool) (x : aid) (s s' : S) : Prop := {
  cut_core : core s' = set_aunst None (leave ch (gone ch [] (core s) x) (core s));
  cut_good : good [] (core s');
  cut_evo : evo (exits fe (gone ch [] (core s) x)) (en s) (en s');
  cut_ico : ico (en s') = false }.

Lemma wp_terminate_as_reaction x (s : S) :
  good [] (core s) → alive (core s) x →
  (aunst (core s) = None ∨ ∃ w, aunst (core s) = Some w ∧ within ch x.1 w.1) →
  wp (a_terminate_as_reaction ch U x)
    (λ _ s', cut (full (en s)) x s s')
    (λ y s', full (en s) = true ∧ ico (en s') = false ∧ failed [] (eq (exits true (gone ch [] (core s) x))) (begins (core s)) y s s') s.
Proof.
  intros Hg Hx Hu. unfold a_terminate_as_reaction. apply wp_bind, wp_gets, wp_bind.
  pose proof (gd_wf _ _ _ Hg) as Hw.
  eapply wp_mono; [apply wp_terminate_state; [done|done|]| |].
  { by intros y Hy%elem_of_nil. }
  2:{ intros y s1 (Hf & Hi & Hfl). split_and!; [done..|]. by rewrite Hf in Hfl. }
  intros [] s1 [R1 R2 R3 R4].
  pose proof (unst_gone ch Hwf [] _ _ _ Hw Hx Hu) as Hun. rewrite <-R1 in Hun.
  assert (∀ o, aunst (core s1) = Some o → busy ch [] (set_aunst None (core s1)) o = true) as Hbusy.
  { intros o Ho. rewrite Hun in Ho. destruct (top_kids _ _ _ _ Hw Hx Ho) as [_ Hk].
    apply busy_true. left. by rewrite R1. }
  eapply wp_mono; [apply wp_set_unst; [done|exact Hbusy]| |done].
  intros [] s2 ->. split; simpl; [by rewrite R1| |done|done].
  destruct (aunst (core s1)) as [u|] eqn:Hu1; [by eapply good_set_unst; [..|apply Hbusy]|].
  replace (set_aunst None (core s1)) with (core s1); [done|]. destruct (core s1). simpl in *. by subst.
Qed.

End wp_term.
