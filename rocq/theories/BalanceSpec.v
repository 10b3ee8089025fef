(** Specification for C75: what a flux on the serial mesh absorbs, and what leaves through the outside of the mesh. *)
From Coq Require Import Reals.
From Verif Require Import Prelude MeshModel MeshSpec CreateSpec GeometryModel GeometrySpec TransportSpec FluxSpec ViewSpec.
Local Open Scope R_scope.

Section Balance.
  Variables (sm : smesh) (dec : N -> R).
  Definition s_cells : list N := map N.of_nat (seq 0 (length (sm_cells sm))).
  (** Integral over the mesh of the function that is linear on every cell with the vertex values [f]. *)
  Definition s_integral (f : N -> nat -> R) : R := lsum s_cells (fun g => s_volume sm dec g * (TransportSpec.sum4 (f g) / 4)).
  (** What leaves the mesh through face [lf] of cell [g] in direction [om]: nothing through a face between two cells; through a face on the
      outside, the signed area if particles leave there, times the mean over the face. *)
  Definition s_escapes (om : q3 R) (psi : N -> nat -> R) (g : N) (lf : nat) (y : R) : Prop :=
    (exists h, s_next sm g lf h) /\ y = 0 \/
    (forall h, ~ s_next sm g lf h) /\ exists x, s_signed sm dec om g lf x /\ y = Rmax 0 x * (sumFace lf (psi g) / 3).
  Definition s_leakage (om : q3 R) (psi : N -> nat -> R) (L : R) : Prop :=
    exists y, (forall g sc lf, SM_cell sm g = Some sc -> (lf < 4)%nat -> s_escapes om psi g lf (y g lf)) /\ L = lsum s_cells (fun g => TransportSpec.sum4 (y g)).
  Variables (nAngles nGroups : nat) (om : nat -> q3 R) (sigma : N -> R) (pi : R) (wt : nat -> R) (sigmaS : N -> R).
  (** Balance of a group: particles leaving the mesh and particles absorbed make up the source. A particle that collides is scattered with probability
      [W sigmaS / (4 pi sigma)], [W] the sum of the weights. *)
  Definition s_balance (Q psi : nat -> nat -> N -> nat -> R) (G : nat) (imbalance : R) : Prop :=
    exists L, (forall a, (a < nAngles)%nat -> s_leakage (om a) (psi a G) (L a)) /\
      overAngles nAngles wt L + s_integral (fun g v => (sigma g - overAngles nAngles wt (fun _ => 1) / (4 * pi) * sigmaS g) * s_flux nAngles wt psi G g v) =
      overAngles nAngles wt (fun a => s_integral (Q a G)) + imbalance.
End Balance.
