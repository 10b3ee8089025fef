(** The transport equation with and without scattering, discretised on the meshes of all ranks. *)
From Coq Require Import Reals.
From Verif Require Import Prelude MeshModel GeometryModel TraverseModel TraverseSpec TraverseRun TransportSpec SweepModel SweepSpec SweepProofs FluxSpec.

Section Equations.
  Context {X : Type}.
  Variables (node : nat -> nat -> nat -> X) (R0 : run (value R) (block R)) (nGroups : nat) (geo : nat -> rgeo R) (sigmaT : nat -> nat -> R).
  Notation GPsi := (nat -> nat -> nat -> nat -> nat -> R).        (* rank cell angle vertex group *)
  (** Meshes, geometry and cross sections as they should be. *)
  Record transport_ok : Prop := {
    to_dir : u_dir R0 = Forward; to_comm : u_comm R0 = true; to_mpi : u_mpi R0 = TychoTwoSided; to_max : u_max R0 > 0;
    to_good : good_run R0; to_acyclic : racyclic R0;
    to_geo : geo_fits (u_ranks R0) (u_angles R0) (fun r => rm_nCells (u_mesh R0 r)) (fun r => rm_out (u_mesh R0 r)) (u_mate R0) node (fun r => rg_volume (geo r)) (farea geo) (fom geo)
      (fun r => rg_c2f (geo r)) (fun r => rg_f2c (geo r)) (fun r => rg_nbr (geo r));
    to_sigma : forall r c, r < u_ranks R0 -> c < rm_nCells (u_mesh R0 r) -> (0 < sigmaT r c)%R;
    to_nodes : forall r c v w, r < u_ranks R0 -> c < rm_nCells (u_mesh R0 r) -> v < 4 -> w < 4 -> node r c v = node r c w -> v = w
  }.
  Definition okc (r c a : nat) : Prop := valid (u_ranks R0) (u_angles R0) (u_mesh R0) r c a.
  (** In every cell, angle and group the DG system with source [Q]. *)
  Definition transport_eq (Q psi : GPsi) : Prop := forall r c a G, okc r c a -> G < nGroups ->
    dg_cell node (u_mate R0) (rg_volume (geo r) c) (sarea geo r a c) (sigmaT r c) (fun v => Q r c a v G) (fun r c a G v => psi r c a v G) r c a G.
  (** The scalar flux of [psi]. *)
  Definition scalarFlux (wt : nat -> R) (psi : GPsi) (r c v G : nat) : R := overAngles (u_angles R0) wt (fun b => psi r c b v G).
  (** The same with isotropic scattering of the flux that is being computed. *)
  Definition scattering_eq (pi : R) (sigmaS : nat -> nat -> R) (wt : nat -> R) (Q psi : GPsi) : Prop :=
    transport_eq (fun r c a v G => scattered pi (sigmaS r c) (Q r c a v G) (scalarFlux wt psi r c v G)) psi.
  Definition same (psi psi' : GPsi) : Prop := forall r c a v G, okc r c a -> v < 4 -> G < nGroups -> psi r c a v G = psi' r c a v G.
End Equations.
Lemma to_sys {X} (node : nat -> nat -> nat -> X) R0 geo sigmaT : transport_ok node R0 geo sigmaT -> sys_ok (u_ranks R0) (u_angles R0) (u_mesh R0) (u_mate R0).
Proof. intros [_ C _ _ (G & _) A _ _ _]. unfold racyclic in A. rewrite C in A. exact (fit_ok _ _ _ _ _ G A). Qed.
