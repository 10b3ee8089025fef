(** Upwind paths and how often they change rank. *)
From Verif Require Import Prelude TraverseModel TraverseSpec TraverseRun.

(** [crossings R a x n]: some upwind path at angle [a] ends in cell [x] = (rank, cell) and changes rank [n] times. *)
Inductive crossings {V D : Type} (R : run V D) (a : nat) : nat * nat -> nat -> Prop :=
| cr_start x : crossings R a x 0
| cr_step y x n : crossings R a y n -> TraverseSpec.upwind Forward true (u_ranks R) (u_mesh R) (u_mate R) a y x ->
    crossings R a x (if fst y =? fst x then n else S n).
(** The solution of the sweep over the whole mesh. *)
Definition full_solution {V D : Type} (R : run V D) (val : nat -> nat -> nat -> V) : Prop :=
  forall bnd, solution Forward true (u_ranks R) (u_angles R) (u_mesh R) (u_data R) (u_mate R) bnd val.
Definition agree {V D : Type} (R : run V D) (val val' : nat -> nat -> nat -> V) : Prop :=
  forall r c a, valid (u_ranks R) (u_angles R) (u_mesh R) r c a -> val r c a = val' r c a.
