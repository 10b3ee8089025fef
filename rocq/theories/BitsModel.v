(** A sweep and source iteration in an arbitrary arithmetic (SourceModel.v is the same over the reals).

    psi and the source are by rank, cell, angle, vertex, group. *)
From Verif Require Import Prelude MeshModel GeometryModel GaussModel TransportModel TraverseModel TraverseSpec TraverseRun SweepModel FluxModel.

Section Source.
  Context {T : Type}.
  Variables (A : arith T) (R0 : run (value T) (block T)) (g : gaussElim) (nGroups : nat) (geo : nat -> rgeo T) (sigmaT : nat -> nat -> T) (pr : nat -> nat -> nat -> N).
  Notation GPsi := (nat -> nat -> nat -> nat -> nat -> T).
  (** The run [R0] with this source. *)
  Definition withSourceA (src : GPsi) : run (value T) (block T) :=
    mkRun (u_dir R0) (u_comm R0) (u_mpi R0) (u_ranks R0) (u_angles R0) (u_threads R0) (u_max R0) (u_psize R0) (u_mesh R0)
      (sweepData A g nGroups geo sigmaT src pr) (u_mate R0).
  (** A traversal from psi to its end (SweeperTraverse.cc:82-89); [S]: the state of the ranks then. *)
  Definition sweepEnds (src psi : GPsi) (S : gst (value T) (block T)) : Prop :=
    exists bnd0 S0, starts (withSourceA src) (fun r c a => Some (psi r c a)) bnd0 S0 /\ reaches (withSourceA src) S0 S /\ ends (withSourceA src) S.
  (** The same when no assertion of the cell solver fails (Transport.cc: gaussElim4); otherwise the program aborts. *)
  Definition fullSweepA (src psi psi' : GPsi) : Prop :=
    exists S, sweepEnds src psi S /\
      (forall r c a, valid (u_ranks R0) (u_angles R0) (u_mesh R0) r c a -> r_val (g_r S r) c a <> None) /\
      psi' = fun r c a v G => getBlock A (r_val (g_r S r) c a) v G.
  (** SourceIteration.cc:127-207; [gsum]: MPI_Allreduce (Comm::gsum), whatever the order it adds in. *)
  Variables (pi : T) (sigmaS : nat -> nat -> T) (wt : nat -> T) (gsum : (nat -> T) -> T).
  Definition sourceIterationA (iterMax : N) (errMax : T) (source psi : GPsi) (iters : N) (psi' : GPsi) (phiNew phiOld : nat -> nat -> nat -> nat -> T) (error : T) : Prop :=
    fixedPoint A pi (u_angles R0) nGroups wt (fun r => rm_nCells (u_mesh R0 r)) sigmaS gsum fullSweepA iterMax errMax source psi iters psi' phiNew phiOld error.
End Source.
