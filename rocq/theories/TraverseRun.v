(** Runs of the traversal, and what it means that two runs solve the same problem on different partitions. *)
From Coq Require Import Permutation.
From Verif Require Import Prelude TraverseModel TraverseSpec.

(** Everything a run depends on. *)
Record run (V D : Type) := mkRun {
  u_dir : direction; u_comm : bool; u_mpi : mpiType;
  u_ranks : nat; u_angles : nat; u_threads : nat; u_max : nat;  (* maxComputePerStep *)
  u_psize : N;                                                  (* bytes of a packet *)
  u_mesh : nat -> rmesh; u_data : tdata V D;
  u_mate : site -> option site
}.
Arguments u_dir {V D}. Arguments u_comm {V D}. Arguments u_mpi {V D}. Arguments u_ranks {V D}. Arguments u_angles {V D}. Arguments u_threads {V D}.
Arguments u_max {V D}. Arguments u_psize {V D}. Arguments u_mesh {V D}. Arguments u_data {V D}. Arguments u_mate {V D}. Arguments mkRun {V D}.

Section Runs.
  Context {V D : Type}.
  Notation gst := (gst V D).
  (** The meshes fit together, there is a thread, and no message reaches INT_MAX bytes (the code aborts otherwise). *)
  Definition good_run (R : run V D) : Prop :=
    sys_fit (u_dir R) (u_ranks R) (u_angles R) (u_mesh R) (u_mate R) /\ u_threads R > 0 /\ (0 < u_psize R)%N /\
    forall r, r < u_ranks R -> (N.of_nat (u_angles R * rm_nCells (u_mesh R r) * 4) * u_psize R < INT_MAX)%N.
  Definition rstep (R : run V D) (r : nat) (S : gst) (l : label) (S' : gst) : Prop :=
    r < u_ranks R /\ step (u_dir R) (u_comm R) (u_mpi R) (u_angles R) (u_threads R) (u_max R) (u_psize R) (u_mesh R) (u_data R) r S l S'.
  Definition starts (R : run V D) (val0 : nat -> nat -> nat -> V) (bnd0 : nat -> nat -> nat -> D) (S : gst) : Prop :=
    initial (u_dir R) (u_comm R) (u_mpi R) (u_angles R) (u_threads R) (u_mesh R) (u_data R) (u_ranks R) val0 bnd0 S.
  Definition reaches (R : run V D) (S0 S : gst) : Prop :=
    reach (u_dir R) (u_comm R) (u_mpi R) (u_angles R) (u_threads R) (u_max R) (u_psize R) (u_mesh R) (u_data R) (u_ranks R) S0 S.
  Definition ends (R : run V D) (S : gst) : Prop := finished (u_ranks R) S.
  Definition racyclic (R : run V D) : Prop := acyclic (u_dir R) (u_comm R) (u_ranks R) (u_angles R) (u_mesh R) (u_mate R).
  Definition pairs (R : run V D) (r : nat) : list (nat * nat) := list_prod (seq 0 (rm_nCells (u_mesh R r))) (seq 0 (u_angles R)).

  (** A problem on a whole mesh: cells have global numbers; [p_adj] pairs (cell, face); [p_read] is what a cell
      sees of its neighbour's value through a face. *)
  Record problem := mkProblem {
    p_adj : nat * nat -> option (nat * nat);
    p_out : nat -> nat -> nat -> bool;
    p_update : nat -> nat -> list (option D) -> V;
    p_read : nat -> nat -> nat -> V -> D
  }.
  (** A run solves [P] on the partition in which cell [c] of rank [r] is the global cell [gid r c]. *)
  Definition partition_of (P : problem) (R : run V D) (gid : nat -> nat -> nat) : Prop :=
    forall r c f, r < u_ranks R -> c < rm_nCells (u_mesh R r) -> f < 4 ->
      option_map (fun y => (gid (fst (fst y)) (snd (fst y)), snd y)) (u_mate R (r, c, f)) = p_adj P (gid r c, f) /\
      forall a, a < u_angles R ->
        rm_out (u_mesh R r) a c f = p_out P a (gid r c) f /\
        td_update (u_data R) r c a = p_update P (gid r c) a /\
        (forall v, td_read (u_data R) r c f a v = p_read P (gid r c) f a v) /\
        (forall q c' f' v, u_mate R (r, c, f) = Some (q, c', f') -> q <> r -> td_getData (u_data R) q c' f' a v = p_read P (gid r c) f a v).
End Runs.
Arguments problem : clear implicits.
