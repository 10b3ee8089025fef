(** What an angular quadrature is for. *)
From Coq Require Import Reals.
From Verif Require Import Prelude QuadratureModel.
Local Open Scope R_scope.

(** Quadrature sum of a function on the sphere. *)
Definition qsum (q : list dir) (f : R -> R -> R -> R) : R :=
  fold_right Rplus 0 (map (fun d => d_w d * f (d_xi d) (d_eta d) (d_mu d)) q).
(** A direction after a change of signs, and turned by a right angle about the z axis. *)
Definition flip (sx sy sz : R) (d : dir) : dir := mkDir (sx * d_xi d) (sy * d_eta d) (sz * d_mu d) (d_w d).
Definition turn (d : dir) : dir := mkDir (- d_eta d) (d_xi d) (d_mu d) (d_w d).
Definition sign (s : R) : Prop := s = 1 \/ s = -1.
(** Polynomial with coefficients [p], lowest first. *)
Definition peval (p : list R) (x : R) : R := fold_right (fun a s => a + x * s) 0 p.
Definition pnorm (p : list R) : R := fold_right (fun a s => Rabs a + s) 0 p.
