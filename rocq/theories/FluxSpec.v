(** Angular quadrature and scattering, over the reals. *)
From Coq Require Import Reals.
From Verif Require Import Prelude.
Local Open Scope R_scope.

Definition lsum {X : Type} (l : list X) (f : X -> R) : R := fold_right (fun x s => f x + s) 0 l.
(** Quadrature sum over the angles. *)
Definition overAngles (nAngles : nat) (wt : nat -> R) (f : nat -> R) : R := lsum (seq 0 nAngles) (fun a => wt a * f a).
(** The source of a cell with isotropic scattering: fixed source plus sigma_s / (4 pi) times the scalar flux. *)
Definition scattered (pi sigmaS q phi : R) : R := q + sigmaS / (4 * pi) * phi.
