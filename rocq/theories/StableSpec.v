(** How far two fields, or two sources, are apart; superposition. *)
From Coq Require Import Reals.
From Verif Require Import Prelude Bytes MeshModel MeshSpec FluxSpec EnergySpec ViewSpec.
Local Open Scope R_scope.

Notation field := (nat -> nat -> N -> nat -> R).
(** x f + y h *)
Definition combine (x y : R) (f h : field) : field := fun a G g v => x * f a G g v + y * h a G g v.
(** Square of the L2 distance of two fields in one direction and group, each cell weighted with [w]: the integral over the mesh of w (f - h)^2,
    the fields being linear in each cell with the given values at the vertices. *)
Definition apart (sm : smesh) (dec : N -> R) (w : N -> R) (f h : field) (a G : nat) : R := s_norm sm dec w (fun G g v => f a G g v - h a G g v) G.
(** The same over all directions. *)
Definition apartAll (sm : smesh) (dec : N -> R) (w : N -> R) (nA : nat) (wt : nat -> R) (f h : field) (G : nat) : R := overAngles nA wt (fun a => apart sm dec w f h a G).
