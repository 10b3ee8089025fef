(** The linear DG system of one cell (user guide, eq. dg_system) and particle balance. Face [f] is opposite
    vertex [f]; [area f] is the signed area (Omega.n) A of the face, negative where particles enter. *)
From Coq Require Import Reals.
From Verif Require Import Prelude.
Local Open Scope R_scope.

Definition sum4 (g : nat -> R) : R := g 0%nat + g 1%nat + g 2%nat + g 3%nat.
(** Sum over the three vertices of face [f]. *)
Definition sumFace (f : nat) (g : nat -> R) : R := sum4 (fun j => if Nat.eqb j f then 0 else g j).
(** Numerical flux at vertex [j] of face [f]: the cell's own value on an outflow face, the upwind
    neighbour's value [nb f j] otherwise. *)
Definition upwind (area : nat -> R) (psi : nat -> R) (nb : nat -> nat -> R) (f j : nat) : R :=
  if Rgt_dec (area f) 0 then psi j else nb f j.
(** Equation number [i] of the DG system. *)
Definition dg_row (V : R) (area : nat -> R) (sigma : R) (Q : nat -> R) (nb : nat -> nat -> R) (psi : nat -> R) (i : nat) : Prop :=
  sum4 (fun f => if Nat.eqb f i then 0 else / 12 * area f * (upwind area psi nb f i + sumFace f (upwind area psi nb f)))
  + / 12 * area i * sum4 psi + sigma * V / 20 * (psi i + sum4 psi)
  = V / 20 * (Q i + sum4 Q).
Definition dg (V : R) (area : nat -> R) (sigma : R) (Q : nat -> R) (nb : nat -> nat -> R) (psi : nat -> R) : Prop :=
  forall i, (i < 4)%nat -> dg_row V area sigma Q nb psi i.

(** Particle balance. A linear function on a tetrahedron or triangle has the mean of its vertex values. *)
Definition outflow (area : nat -> R) (psi : nat -> R) : R := sum4 (fun f => if Rgt_dec (area f) 0 then area f * (sumFace f psi / 3) else 0).
Definition inflow (area : nat -> R) (nb : nat -> nat -> R) : R := sum4 (fun f => if Rlt_dec (area f) 0 then - area f * (sumFace f (nb f) / 3) else 0).
Definition balance (V : R) (area : nat -> R) (sigma : R) (Q : nat -> R) (nb : nat -> nat -> R) (psi : nat -> R) : Prop :=
  outflow area psi - inflow area nb + sigma * (V * (sum4 psi / 4)) = V * (sum4 Q / 4).
