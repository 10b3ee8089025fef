(** The sweepers as source iteration and the Krylov solver see them: src/SweeperTraverse.cc, src/SweeperAbstract.hh.

    psi and the source are by rank, cell, angle, vertex, group, over the reals. *)
From Coq Require Import Reals.
From Verif Require Import Prelude MeshModel GeometryModel GaussModel TransportModel TraverseModel TraverseSpec TraverseRun SweepModel FluxModel.

Section Source.
  Variables (R0 : run (value R) (block R)) (g : gaussElim) (nGroups : nat) (geo : nat -> rgeo R) (sigmaT : nat -> nat -> R) (pr : nat -> nat -> nat -> N).
  Notation GPsi := (nat -> nat -> nat -> nat -> nat -> R).
  (** The run [R0] with this source. *)
  Definition withSource (src : GPsi) : run (value R) (block R) :=
    mkRun (u_dir R0) (u_comm R0) (u_mpi R0) (u_ranks R0) (u_angles R0) (u_threads R0) (u_max R0) (u_psize R0) (u_mesh R0)
      (sweepData Rops g nGroups geo sigmaT src pr) (u_mate R0).
  (** SweeperTraverse.cc:82-89 sweep: one complete traversal. With communication zeroPsiBound has no effect. *)
  Definition fullSweep (src psi psi' : GPsi) : Prop :=
    exists bnd0 S0 S, starts (withSource src) (fun r c a => Some (psi r c a)) bnd0 S0 /\ reaches (withSource src) S0 S /\ ends (withSource src) S /\
      psi' = fun r c a v G => getBlock Rops (r_val (g_r S r) c a) v G.
End Source.
