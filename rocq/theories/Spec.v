(** Small declarative definitions used to state properties, independent of how the machine
    computes. *)
From Coq Require Export Sorted.
From Verif Require Export Api.

(** ** Static structure *)

(** [encloses ch x c]: [x] (a state class, or None for the machine itself) is a proper outer context of
    class [c]. *)
Inductive encloses (ch : chart) : option cls → cls → Prop :=
| encloses_direct c : encloses ch (parent ch c) c
| encloses_step x c q : parent ch c = Some q → encloses ch x q → encloses ch x c.

(** [within ch q c]: class [c] is [q] or inside [q]. *)
Definition within (ch : chart) (q c : cls) : Prop := c = q ∨ encloses ch (Some q) c.

(** [x] is the innermost context that encloses both [c] and [d]. *)
Record innermost_common (ch : chart) (x : option cls) (c d : cls) : Prop := {
  ic_left : encloses ch x c;
  ic_right : encloses ch x d;
  ic_innermost y : encloses ch y c → encloses ch y d →
    y = x ∨ ∃ q, x = Some q ∧ encloses ch y q }.

(** [exit_before ch y z]: when both are left, [y] must be left before [z]: [y] is inside [z], or [y]
    belongs to a higher-numbered region of a state than [z]. *)
Definition exit_before (ch : chart) (y z : cls) : Prop :=
  encloses ch (Some z) y ∨
  ∃ q c c', parent ch c = Some q ∧ parent ch c' = Some q ∧ pos ch c' < pos ch c ∧
            within ch c y ∧ within ch c' z.
