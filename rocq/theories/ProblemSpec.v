(** The documented test problem: a hat of radius 30 and height 1 at the centre of the cube. *)
From Coq Require Import Reals.
From Verif Require Import Prelude MeshModel.
Local Open Scope R_scope.

(** Distance of (x, y, z) from the centre of the cube [0,100]^3. *)
Definition radius (x y z : R) : R := sqrt ((x - 50)^2 + (y - 50)^2 + (z - 50)^2).
Definition hat (x y z : R) : R := Rmax 0 (1 - radius x y z / 30).
(** [D] is the derivative of [f] at p in direction om. *)
Definition along (f : R -> R -> R -> R) (p om : q3 R) (D : R) : Prop :=
  derivable_pt_lim (fun s => f (t0 p + s * t0 om) (t1 p + s * t1 om) (t2 p + s * t2 om)) 0 D.
Definition rad (p : q3 R) : R := radius (t0 p) (t1 p) (t2 p).
Definition hatAt (p : q3 R) : R := hat (t0 p) (t1 p) (t2 p).
(** Mean of four points. *)
Definition mean (f : nat -> R) : R := (f 0%nat + f 1%nat + f 2%nat + f 3%nat) / 4.
Definition centroid (f : nat -> q3 R) : q3 R :=
  Q3 (mean (fun v => t0 (f v))) (mean (fun v => t1 (f v))) (mean (fun v => t2 (f v))).
