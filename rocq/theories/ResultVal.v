(** * Reaction results in debug builds (result.hpp 37-82)

    Model of [safe_reaction_result]: objects that are made by make_result() (result.hpp 103-106), copied when they are
    passed on by value, read by get_result() (result.hpp 108-111) and destroyed.  The compiler may or may not elide
    copies: every sequence of copies is covered. *)
From stdpp Require Export prelude gmap list.

(** result.hpp 25-32 *)
Inductive rres := no_reaction | do_forward_event | do_discard_event | do_defer_event | consumed.
Global Instance rres_eq_dec : EqDecision rres.
Proof. solve_decision. Defined.

Inductive rop :=
| RMake (i : nat) (v : rres)        (* object [i] is constructed from the value [v], 64-67 *)
| RCopy (i j : nat)                 (* object [j] is copy-constructed from object [i], 41-49 *)
| RRead (i : nat)                   (* object [i] is converted to its value, 69-74 *)
| RDrop (i : nat).                  (* object [i] is destroyed, 51-59 *)

Global Instance rop_eq_dec : EqDecision rop.
Proof. solve_decision. Defined.

Record rst := Rst { robj : gmap nat rres; rread : list rres }.

(** [None]: an assertion failed (or an object was used that does not exist) *)
Definition rexec (o : rop) (s : rst) : option rst :=
  match o with
  | RMake i v => Some (Rst (<[i := v]> (robj s)) (rread s))
  | RCopy i j =>
    v ← robj s !! i;
    if decide (v ≠ consumed) then Some (Rst (<[j := v]> (<[i := consumed]> (robj s))) (rread s)) else None
  | RRead i =>
    v ← robj s !! i; Some (Rst (<[i := consumed]> (robj s)) (rread s ++ [v]))
  | RDrop i =>
    v ← robj s !! i;
    if decide (v = consumed) then Some (Rst (delete i (robj s)) (rread s)) else None
  end.
Definition rrun (l : list rop) : option rst := foldl (λ s o, s ≫= rexec o) (Some (Rst ∅ [])) l.

(** ** Programs *)
Definition creates (o : rop) : option nat :=
  match o with RMake i _ | RCopy _ i => Some i | _ => None end.
Definition uses (o : rop) : option nat :=
  match o with RCopy i _ | RRead i => Some i | _ => None end.
Definition created (l : list rop) : list nat := omap creates l.
(** how often the value of object [i] was passed on or read *)
Definition use_count (i : nat) (l : list rop) : nat := length (filter (λ o, uses o = Some i) l).
Definition alive (i : nat) (l : list rop) : Prop := i ∈ created l ∧ RDrop i ∉ l.

(** What a C++ program can do: objects are used while they exist, results are made with a proper value, and the
    conversion to the value happens in get_result(), to its parameter, which nobody else can name. *)
Inductive program : list rop → Prop :=
| program_nil : program []
| program_make l i v : program l → i ∉ created l → v ≠ consumed → program (l ++ [RMake i v])
| program_copy l i j : program l → alive i l → RRead i ∉ l → j ∉ created l → program (l ++ [RCopy i j])
| program_read l i : program l → alive i l → use_count i l = 0 → program (l ++ [RRead i])
| program_drop l i : program l → alive i l → program (l ++ [RDrop i]).

Definition made (l : list rop) : list rres :=
  omap (λ o, match o with RMake _ v => Some v | _ => None end) l.

(** The result in object [i] is the one made with value [v]: it was passed on to [i], perhaps through others. *)
Inductive comes (l : list rop) : nat → rres → Prop :=
| comes_make i v : RMake i v ∈ l → comes l i v
| comes_copy i j v : RCopy i j ∈ l → comes l i v → comes l j v.

(** ** Invariant *)
Lemma comes_snoc l o i v : comes l i v → comes (l ++ [o]) i v.
Proof.
  induction 1 as [i v H|i j v H _ IH]; [apply comes_make|eapply comes_copy; [|done]]; apply elem_of_app; by left.
Qed.
Lemma use_count_snoc i l o : use_count i (l ++ [o]) = use_count i l + if decide (uses o = Some i) then 1 else 0.
Proof. unfold use_count. rewrite filter_app, app_length, filter_cons, filter_nil. by case_decide. Qed.
Lemma created_snoc l o : created (l ++ [o]) = created l ++ match creates o with Some i => [i] | None => [] end.
Proof. unfold created. rewrite omap_app. simpl. by destruct (creates o). Qed.
Lemma rrun_snoc l o : rrun (l ++ [o]) = rrun l ≫= rexec o.
Proof. unfold rrun. by rewrite foldl_app. Qed.

Lemma program_uses l i : program l → i ∉ created l → use_count i l = 0 ∧ RDrop i ∉ l ∧ RRead i ∉ l.
Proof.
  induction 1 as [|l k v Hl IH Hk Hv|l k j Hl IH Hk Hr Hj|l k Hl IH Hk Hu|l k Hl IH Hk]; intros Hi.
  - split; [done|]. split; by apply not_elem_of_nil.
  - rewrite created_snoc, not_elem_of_app in Hi. destruct Hi as [Hi _]. destruct (IH Hi) as (? & ? & ?).
    rewrite use_count_snoc, !not_elem_of_app, !elem_of_list_singleton. simpl. intuition (congruence || lia).
  - rewrite created_snoc, not_elem_of_app in Hi. destruct Hi as [Hi _]. destruct (IH Hi) as (? & ? & ?).
    rewrite use_count_snoc, !not_elem_of_app, !elem_of_list_singleton. simpl.
    rewrite decide_False by (intros [= ->]; by destruct Hk). intuition (congruence || lia).
  - rewrite created_snoc, app_nil_r in Hi. destruct (IH Hi) as (? & ? & ?).
    rewrite use_count_snoc, !not_elem_of_app, !elem_of_list_singleton. simpl.
    assert (k ≠ i) by (intros ->; by destruct Hk).
    rewrite decide_False by congruence. intuition (congruence || lia).
  - rewrite created_snoc, app_nil_r in Hi. destruct (IH Hi) as (? & ? & ?).
    rewrite use_count_snoc, !not_elem_of_app, !elem_of_list_singleton. simpl.
    assert (k ≠ i) by (intros ->; by destruct Hk). intuition (congruence || lia).
Qed.

Definition pend (m : gmap nat rres) : list rres := filter (λ v, v ≠ consumed) (map_to_list m).*2.
Lemma pend_insert m i v : m !! i = None → pend (<[i := v]> m) ≡ₚ filter (λ v, v ≠ consumed) [v] ++ pend m.
Proof.
  intros Hi. unfold pend. rewrite map_to_list_insert by done. simpl. rewrite <- filter_app. done.
Qed.
Lemma pend_delete m i v : m !! i = Some v → pend m ≡ₚ filter (λ v, v ≠ consumed) [v] ++ pend (delete i m).
Proof. intros Hi. rewrite <- pend_insert by apply lookup_delete. by rewrite insert_delete. Qed.
Lemma pend_set m i v w : m !! i = Some v → pend (<[i := w]> m) ≡ₚ filter (λ v, v ≠ consumed) [w] ++ pend (delete i m).
Proof. intros Hi. rewrite <- insert_delete_insert. apply pend_insert, lookup_delete. Qed.

Record RInv (l : list rop) (s : rst) : Prop := {
  ri_alive i : is_Some (robj s !! i) ↔ alive i l;
  ri_state i v : robj s !! i = Some v → (v = consumed ∧ use_count i l = 1) ∨ (v ≠ consumed ∧ use_count i l = 0);
  ri_dead i : RDrop i ∈ l → use_count i l = 1;
  ri_sum : rread s ++ pend (robj s) ≡ₚ made l;
  ri_comes i v : robj s !! i = Some v → v ≠ consumed → comes l i v
}.

Lemma alive_snoc i l o : alive i (l ++ [o]) ↔
  (i ∈ created l ∨ creates o = Some i) ∧ RDrop i ∉ l ∧ o ≠ RDrop i.
Proof.
  unfold alive. rewrite created_snoc, elem_of_app, not_elem_of_app, elem_of_list_singleton.
  destruct (creates o); rewrite ?elem_of_list_singleton, ?elem_of_nil; naive_solver.
Qed.

Lemma program_inv l s : program l → rrun l = Some s → RInv l s.
Proof.
  intros Hp. revert s.
  induction Hp as [|l i v Hl IH Hi Hv|l i j Hl IH Hi Hr Hj|l i Hl IH Hi Hu|l i Hl IH Hi]; intros s Hs.
  - injection Hs as <-. split; simpl.
    + intros i. rewrite lookup_empty. split; [by intros []|]. by intros [?%elem_of_nil _].
    + intros i v. by rewrite lookup_empty.
    + by intros i ?%elem_of_nil.
    + unfold pend. by rewrite map_to_list_empty.
    + intros i v. by rewrite lookup_empty.
  - rewrite rrun_snoc in Hs. apply bind_Some in Hs as (s0 & Hs0 & Hs). destruct (IH _ Hs0) as [Ha Hst Hd Hsum Hco].
    simpl in Hs. injection Hs as <-. destruct (program_uses l i Hl Hi) as (Hu & Hdr & Hre).
    assert (robj s0 !! i = None) as Hn.
    { apply eq_None_not_Some. rewrite Ha. intros [? _]. done. }
    split; simpl.
    + intros k. rewrite lookup_insert_is_Some, Ha, alive_snoc. simpl. destruct (decide (i = k)) as [<-|Hk].
      * split; [intros _; split; [by right|done]|by left].
      * unfold alive. naive_solver.
    + intros k w. rewrite use_count_snoc. simpl. rewrite Nat.add_0_r. rewrite lookup_insert_Some.
      intros [[<- <-]|[Hk Hw]]; [right; done|by apply Hst].
    + intros k. rewrite elem_of_app, elem_of_list_singleton, use_count_snoc. simpl. rewrite Nat.add_0_r.
      intros [?|?]; [by apply Hd|done].
    + unfold made. rewrite omap_app. fold (made l). simpl. rewrite pend_insert by done.
      rewrite filter_cons_True, filter_nil by done. rewrite <- Hsum. solve_Permutation.
    + intros k w. rewrite lookup_insert_Some. intros [[<- <-]|[Hk Hw]] Hne.
      * apply comes_make, elem_of_app. right. by left.
      * apply comes_snoc. auto.
  - rewrite rrun_snoc in Hs. apply bind_Some in Hs as (s0 & Hs0 & Hs). destruct (IH _ Hs0) as [Ha Hst Hd Hsum Hco].
    simpl in Hs. apply bind_Some in Hs as (v & Hv & Hs). case_decide as Hc; [|done]. injection Hs as <-.
    destruct (program_uses l j Hl Hj) as (Hu & Hdr & Hre).
    assert (i ≠ j) as Hij by (intros ->; by destruct Hi).
    assert (robj s0 !! j = None) as Hn.
    { apply eq_None_not_Some. rewrite Ha. intros [? _]. done. }
    destruct (Hst _ _ Hv) as [[? _]|[_ Hui]]; [done|].
    split; simpl.
    + intros k. rewrite !lookup_insert_is_Some, Ha, alive_snoc. simpl. destruct (decide (j = k)) as [<-|Hk].
      * split; [intros _; split; [by right|done]|by left].
      * destruct (decide (i = k)) as [<-|Hk']; unfold alive in *; naive_solver.
    + intros k w. rewrite use_count_snoc. simpl. rewrite !lookup_insert_Some.
      intros [[<- <-]|[Hk [[<- <-]|[Hk' Hw]]]].
      * right. rewrite decide_False by congruence. split; [done|lia].
      * left. rewrite decide_True by done. split; [done|lia].
      * rewrite decide_False by congruence. rewrite Nat.add_0_r. by apply Hst.
    + intros k. rewrite elem_of_app, elem_of_list_singleton, use_count_snoc. simpl. 
      intros [Hk|?]; [|done]. rewrite decide_False; [rewrite Nat.add_0_r; by apply Hd|].
      intros [= ->]. by destruct Hi.
    + unfold made. rewrite omap_app. fold (made l). simpl. rewrite app_nil_r, <- Hsum.
      rewrite pend_insert by (by rewrite lookup_insert_ne). rewrite (pend_set _ _ _ _ Hv), (pend_delete _ _ _ Hv).
      rewrite (filter_cons_False _ consumed) by naive_solver. by rewrite filter_nil.
    + intros k w. rewrite !lookup_insert_Some. intros [[<- <-]|[Hk [[<- <-]|[Hk' Hw]]]] Hne.
      * eapply comes_copy; [apply elem_of_app; right; by left|]. apply comes_snoc. auto.
      * done.
      * apply comes_snoc. auto.
  - rewrite rrun_snoc in Hs. apply bind_Some in Hs as (s0 & Hs0 & Hs). destruct (IH _ Hs0) as [Ha Hst Hd Hsum Hco].
    simpl in Hs. apply bind_Some in Hs as (v & Hv & Hs). injection Hs as <-.
    destruct (Hst _ _ Hv) as [[_ ?]|[Hc _]]; [lia|].
    split; simpl.
    + intros k. rewrite !lookup_insert_is_Some, Ha, alive_snoc. simpl. 
      destruct (decide (i = k)) as [<-|Hk']; unfold alive in *; naive_solver.
    + intros k w. rewrite use_count_snoc. simpl. rewrite !lookup_insert_Some.
      intros [[<- <-]|[Hk' Hw]].
      * left. rewrite decide_True by done. split; [done|lia].
      * rewrite decide_False by congruence. rewrite Nat.add_0_r. by apply Hst.
    + intros k. rewrite elem_of_app, elem_of_list_singleton, use_count_snoc. simpl. 
      intros [Hk|?]; [|done]. rewrite decide_False; [rewrite Nat.add_0_r; by apply Hd|].
      intros [= ->]. by destruct Hi.
    + unfold made. rewrite omap_app. fold (made l). simpl. rewrite app_nil_r, <- Hsum.
      rewrite (pend_set _ _ _ _ Hv), (pend_delete _ _ _ Hv).
      rewrite (filter_cons_False _ consumed) by naive_solver. rewrite (filter_cons_True _ v) by done.
      rewrite !filter_nil. simpl. by rewrite <- app_assoc.
    + intros k w. rewrite lookup_insert_Some. intros [[<- <-]|[Hk Hw]] Hne; [done|]. apply comes_snoc. auto.
  - rewrite rrun_snoc in Hs. apply bind_Some in Hs as (s0 & Hs0 & Hs). destruct (IH _ Hs0) as [Ha Hst Hd Hsum Hco].
    simpl in Hs. apply bind_Some in Hs as (v & Hv & Hs). case_decide as Hc; [|done]. injection Hs as <-. subst v.
    destruct (Hst _ _ Hv) as [[_ Hu]|[? _]]; [|done].
    split; simpl.
    + intros k. rewrite alive_snoc. simpl. destruct (decide (i = k)) as [<-|Hk].
      * rewrite lookup_delete. split; [by intros []|naive_solver].
      * rewrite lookup_delete_ne, Ha by done. unfold alive. naive_solver.
    + intros k w. rewrite use_count_snoc. simpl. rewrite Nat.add_0_r, lookup_delete_Some.
      intros [_ Hw]. by apply Hst.
    + intros k. rewrite elem_of_app, elem_of_list_singleton, use_count_snoc. simpl. rewrite Nat.add_0_r.
      intros [Hk|[= ->]]; [by apply Hd|done].
    + unfold made. rewrite omap_app. fold (made l). simpl. rewrite app_nil_r, <- Hsum.
      rewrite (pend_delete _ _ _ Hv). by rewrite filter_cons_False, filter_nil by naive_solver.
    + intros k w. rewrite lookup_delete_Some. intros [_ Hw] Hne. apply comes_snoc. auto.
Qed.
