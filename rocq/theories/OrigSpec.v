(** What the sweep over a precomputed schedule needs from the mesh. *)
From Verif Require Import Prelude TraverseModel TraverseSpec.

(** Different faces without a neighbour on the same rank have different sides. *)
Definition sides_distinct (nRanks : nat) (M : nat -> rmesh) : Prop :=
  forall r c f d h, r < nRanks -> c < rm_nCells (M r) -> f < 4 -> d < rm_nCells (M r) -> h < 4 ->
    rm_adjCell (M r) c f = None -> rm_adjCell (M r) d h = None -> rm_side (M r) c f = rm_side (M r) d h -> c = d /\ f = h.
(** Tolerance and sign tests agree on the faces between cells: the dot product of normal and direction is beyond the
    tolerance of the schedule. *)
Definition no_grazing (nAngles : nat) (M : nat -> rmesh) (mate : site -> option site) (over under : nat -> nat -> nat -> nat -> bool) : Prop :=
  forall r c f a, a < nAngles -> mate (r, c, f) <> None -> over r a c f = rm_out (M r) a c f /\ under r a c f = negb (rm_out (M r) a c f).
