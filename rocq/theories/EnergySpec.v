(** Norms in which source iteration converges. *)
From Coq Require Import Reals.
From Verif Require Import Prelude MeshModel GeometryModel TraverseModel TraverseSpec TraverseRun TransportSpec SweepModel SweepSpec SweepProofs FluxSpec SourceSpec.
Local Open Scope R_scope.

(** Integral over a tetrahedron of volume [V] of the product of two linear functions, given by vertex values. *)
Definition massForm (V : R) (x y : nat -> R) : R := V / 20 * (sum4 (fun i => x i * y i) + sum4 x * sum4 y).

Section Norm.
  Variables (R0 : run (value R) (block R)) (geo : nat -> rgeo R) (sigmaT : nat -> nat -> R).
  Definition cells : list (nat * nat) := flat_map (fun r => map (fun c => (r, c)) (seq 0 (rm_nCells (u_mesh R0 r)))) (seq 0 (u_ranks R0)).
  (** Square of the L2 norm of a group of a scalar flux, weighted with the total cross section, over the cells of all ranks. *)
  Definition fluxNorm (phi : nat -> nat -> nat -> nat -> R) (G : nat) : R :=
    lsum cells (fun rc => let '(r, c) := rc in sigmaT r c * massForm (rg_volume (geo r) c) (fun v => phi r c v G) (fun v => phi r c v G)).
  (** The same for an angular flux, with quadrature weights [wt]. *)
  Definition psiNorm (wt : nat -> R) (e : nat -> nat -> nat -> nat -> nat -> R) (G : nat) : R :=
    lsum cells (fun rc => let '(r, c) := rc in sigmaT r c * lsum (seq 0 (u_angles R0)) (fun a => wt a * massForm (rg_volume (geo r) c) (fun v => e r c a v G) (fun v => e r c a v G))).
  (** The two cells at a face agree on its area and normal. *)
  Definition faces_match : Prop := forall r c f q c' f' a, u_mate R0 (r, c, f) = Some (q, c', f') -> (a < u_angles R0)%nat -> sarea geo r a c f = - sarea geo q a c' f'.
  (** Weights are not negative and not all zero. *)
  Definition weights_ok (pi : R) (wt : nat -> R) : Prop := 0 < pi /\ (forall a, (a < u_angles R0)%nat -> 0 <= wt a) /\ 0 < overAngles (u_angles R0) wt (fun _ => 1).
  (** Scattering is at most [k] times the total cross section; if the weights do not add up to 4 pi exactly, what counts is
      how much they make of the scattering, sum w / (4 pi) sigma_s. *)
  Definition scatters (pi : R) (wt : nat -> R) (k : R) (sigmaS : nat -> nat -> R) : Prop := 0 <= k /\ forall r c, (r < u_ranks R0)%nat -> (c < rm_nCells (u_mesh R0 r))%nat ->
    0 <= sigmaS r c /\ overAngles (u_angles R0) wt (fun _ => 1) / (4 * pi) * sigmaS r c <= k * sigmaT r c.
End Norm.
