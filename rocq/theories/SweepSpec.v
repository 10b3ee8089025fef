(** What a sweep should solve: in every cell the DG system of TransportSpec with upwind values taken from
    the cell across the face, at the same point, wherever that cell lives. *)
From Coq Require Import Reals.
From Verif Require Import Prelude MeshModel TransportSpec.
Local Open Scope R_scope.

(** A field: rank, cell, angle, group, vertex. [node] names the points; [mate] pairs touching faces. *)
Section Global.
  Context {X : Type}.
  Variables (node : nat -> nat -> nat -> X) (mate : nat * nat * nat -> option (nat * nat * nat)).
  (** [y] is the value of the field on the far side of face [f], at vertex [j] of the cell; nothing enters from outside. *)
  Definition across (psi : nat -> nat -> nat -> nat -> nat -> R) (r c a G f j : nat) (y : R) : Prop :=
    match mate (r, c, f) with
    | None => y = 0
    | Some (q, c', f') => exists k, (k < 4)%nat /\ k <> f' /\ node q c' k = node r c j /\ y = psi q c' a G k
    end.
  (** The field solves the DG system in a cell. *)
  Definition dg_cell (V : R) (area : nat -> R) (sigma : R) (Q : nat -> R) (psi : nat -> nat -> nat -> nat -> nat -> R) (r c a G : nat) : Prop :=
    exists nb, (forall f j, (f < 4)%nat -> (j < 4)%nat -> j <> f -> ~ area f > 0 -> across psi r c a G f j (nb f j)) /\
      dg V area sigma Q nb (psi r c a G).
End Global.

(** What geometry and vertex numbering of all ranks must satisfy; [om r a c f] is Omega.n and [area] the area of a face. *)
Record geo_fits {X : Type} (nRanks nAngles : nat) (nCells : nat -> nat) (out : nat -> nat -> nat -> nat -> bool)
    (mate : nat * nat * nat -> option (nat * nat * nat)) (node : nat -> nat -> nat -> X)
    (volume : nat -> nat -> R) (area : nat -> nat -> nat -> R) (om : nat -> nat -> nat -> nat -> R)
    (c2f f2c nbr : nat -> nat -> nat -> nat -> nat) : Prop := {
  gf_out : forall r a c f, (r < nRanks)%nat -> (a < nAngles)%nat -> (c < nCells r)%nat -> (f < 4)%nat -> out r a c f = true <-> om r a c f > 0;
  gf_area : forall r c f, (r < nRanks)%nat -> (c < nCells r)%nat -> (f < 4)%nat -> 0 < area r c f;
  gf_volume : forall r c, (r < nRanks)%nat -> (c < nCells r)%nat -> 0 < volume r c;
  gf_closed : forall r a c, (r < nRanks)%nat -> (a < nAngles)%nat -> (c < nCells r)%nat -> sum4 (fun f => area r c f * om r a c f) = 0;
  gf_local : forall r c f c' f' j, mate (r, c, f) = Some (r, c', f') -> (j < 4)%nat -> j <> f ->
    let k := nbr r c f (c2f r c f j) in (k < 4)%nat /\ k <> f' /\ node r c' k = node r c j;
  gf_remote : forall r c f q c' f' j, mate (r, c, f) = Some (q, c', f') -> q <> r -> (j < 4)%nat -> j <> f ->
    let k := f2c q c' f' (c2f r c f j) in (k < 4)%nat /\ k <> f' /\ node q c' k = node r c j
}.
