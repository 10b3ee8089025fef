(** Exact solutions that the method can represent: continuous, linear in each cell. *)
From Coq Require Import Reals.
From Verif Require Import Prelude Bytes MeshModel CreateSpec TychoModel TychoSpec RefineSpec GeometrySpec FluxSpec ViewSpec.
Local Open Scope R_scope.

(** The linear function on the tetrahedron [p] with values [u] at the corners has gradient [grad]. *)
Definition gradient (p : q4 (q3 R)) (u : nat -> R) (grad : q3 R) : Prop :=
  forall i j x y, corner p i = Some x -> corner p j = Some y -> u j - u i = dotR grad (subR y x).
(** A function given by its values at the nodes of the mesh, for each direction and group: one value for all cells that meet at a node. *)
Notation nodal := (nat -> nat -> N -> R).
(** It as a field: by direction, group, cell and vertex. *)
Definition at_nodes (sm : smesh) (u : nodal) : nat -> nat -> N -> nat -> R := fun a G g v =>
  match SM_cell sm g with
  | Some sc => match nth_error (q4l (sc_nodes sc)) v with Some n => u a G n | None => 0 end
  | None => 0
  end.
(** [Q] = Omega . grad u + sigma u in each cell. *)
Definition transported (sm : smesh) (dec : N -> R) (om : nat -> q3 R) (sigma : N -> R) (u : nodal) (Q : nat -> nat -> N -> nat -> R) : Prop :=
  forall a G g p, s_cell sm dec g p -> exists grad, gradient p (at_nodes sm u a G g) grad /\
    forall v, (v < 4)%nat -> Q a G g v = dotR (om a) grad + sigma g * at_nodes sm u a G g v.
(** [u] vanishes where particles enter from outside: at the nodes of the faces on the boundary through which the direction points inwards. *)
Definition no_inflow (sm : smesh) (dec : N -> R) (nA nG : nat) (om : nat -> q3 R) (u : nodal) : Prop :=
  forall a G g lf f sf x n, (a < nA)%nat -> (G < nG)%nat -> s_opposite sm g lf f sf -> (forall h, ~ s_next sm g lf h) -> s_signed sm dec (om a) g lf x -> x < 0 -> In n (q3l (sf_nodes sf)) -> u a G n = 0.
