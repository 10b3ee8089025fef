(** What the vectors of the Schur methods should hold, and the transport equation of one rank with given data at the
    interfaces. *)
From Coq Require Import Reals.
From Verif Require Import Prelude MeshModel GeometryModel TraverseModel TraverseSpec TraverseRun TransportSpec SweepModel SweepSpec SweepProofs FluxSpec SourceSpec.

(** The unknowns of rank [r]: values at the vertices of faces that lie between ranks, at angles that enter there. *)
Section Unknowns.
  Variables (nAngles nGroups : nat) (M : nat -> rmesh) (mate : site -> option site).
  Definition interface (r a c f : nat) : Prop := exists q c' f', mate (r, c, f) = Some (q, c', f') /\ q <> r /\ rm_out (M r) a c f = false.
  Definition unknown := (nat * nat * nat * nat * nat)%type.     (* angle cell face fvrtx group *)
  Definition is_unknown (r : nat) (u : unknown) : Prop := let '(a, c, f, fv, G) := u in interface r a c f /\ a < nAngles /\ fv < 3 /\ G < nGroups.
  (** A numbering of the unknowns of a rank, without gaps. *)
  Definition numbering (r : nat) (n : N) (no : unknown -> N) : Prop :=
    (forall u, is_unknown r u -> (no u < n)%N) /\ (forall u v, is_unknown r u -> is_unknown r v -> no u = no v -> u = v) /\
    (forall i, (i < n)%N -> exists u, is_unknown r u /\ no u = i).
  (** Boundary data at an unknown. *)
  Definition at_unknown {T} (r : nat) (b : nat -> nat -> nat -> nat -> T) (u : unknown) : T := let '(a, c, f, fv, G) := u in b (rm_side (M r) c f) a fv G.
End Unknowns.

Section Local.
  Context {X : Type}.
  Variables (node : nat -> nat -> nat -> X) (R0 : run (value R) (block R)) (nGroups : nat) (geo : nat -> rgeo R) (sigmaT : nat -> nat -> R).
  Notation GPsi := (nat -> nat -> nat -> nat -> nat -> R).        (* rank cell angle vertex group *)
  Notation GBnd := (nat -> nat -> nat -> nat -> nat -> R).        (* rank side angle fvrtx group *)
  (** Like [across], but data of other ranks is given. *)
  Definition entering (bnd : GBnd) (psi : GPsi) (r c a G f j : nat) (y : R) : Prop :=
    match u_mate R0 (r, c, f) with
    | None => y = 0%R
    | Some (q, c', f') =>
        if q =? r then exists k, k < 4 /\ k <> f' /\ node r c' k = node r c j /\ y = psi r c' a k G
        else y = bnd r (rm_side (u_mesh R0 r) c f) a (rg_c2f (geo r) c f j) G
    end.
  Definition local_eq (Q : GPsi) (bnd : GBnd) (psi : GPsi) : Prop := forall r c a G, okc R0 r c a -> G < nGroups ->
    exists nb, (forall f j, f < 4 -> j < 4 -> j <> f -> ~ (sarea geo r a c f > 0)%R -> entering bnd psi r c a G f j (nb f j)) /\
      dg (rg_volume (geo r) c) (sarea geo r a c) (sigmaT r c) (fun v => Q r c a v G) nb (fun v => psi r c a v G).
  Definition local_scattering (pi : R) (sigmaS : nat -> nat -> R) (wt : nat -> R) (Q : GPsi) (bnd : GBnd) (psi : GPsi) : Prop :=
    local_eq (fun r c a v G => scattered pi (sigmaS r c) (Q r c a v G) (scalarFlux R0 wt psi r c v G)) bnd psi.
  (** The boundary data is what the neighbouring ranks have. *)
  Definition exchanged (psi : GPsi) (bnd : GBnd) : Prop := forall r c f q c' f' a fv G, u_mate R0 (r, c, f) = Some (q, c', f') -> q <> r -> a < u_angles R0 ->
    rm_out (u_mesh R0 r) a c f = false -> fv < 3 -> G < nGroups -> bnd r (rm_side (u_mesh R0 r) c f) a fv G = psi q c' a (rg_f2c (geo q) c' f' fv) G.
  (** Face vertices are numbered 0, 1, 2 and are vertices of the cell. *)
  Definition face_vertices : Prop :=
    (forall r c f j, r < u_ranks R0 -> c < rm_nCells (u_mesh R0 r) -> f < 4 -> j < 4 -> j <> f -> rg_c2f (geo r) c f j < 3) /\
    (forall r c f fv, r < u_ranks R0 -> c < rm_nCells (u_mesh R0 r) -> f < 4 -> fv < 3 -> rg_f2c (geo r) c f fv < 4).
End Local.
