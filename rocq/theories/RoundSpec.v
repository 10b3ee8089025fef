(** C77: when double precision resolves on which side of a triangle a vector points. *)
From Coq Require Import ZArith Reals.
From Flocq Require Import Core IEEE754.Binary IEEE754.Bits.
From Verif Require Import Prelude Bytes MeshModel MeshSpec CreateSpec TychoSpec GeometrySpec DoubleModel ViewSpec.
Local Open Scope R_scope.

(** Triple product o.(a x b), and the same with all six terms positive. *)
Definition triple (o a b : q3 R) : R :=
  t0 o * (t1 a * t2 b - t2 a * t1 b) + t1 o * (t2 a * t0 b - t0 a * t2 b) + t2 o * (t0 a * t1 b - t1 a * t0 b).
Definition tripleAbs (o a b : q3 R) : R :=
  Rabs (t0 o) * (Rabs (t1 a * t2 b) + Rabs (t2 a * t1 b)) + Rabs (t1 o) * (Rabs (t2 a * t0 b) + Rabs (t0 a * t2 b)) + Rabs (t2 o) * (Rabs (t0 a * t1 b) + Rabs (t1 a * t0 b)).
(** [o] is clear of the plane of the triangle [F]: the exact triple product with two sides exceeds 2^-49 of the sum of its terms. *)
Definition clear_of (o : q3 R) (F : q3 (q3 R)) : Prop :=
  let a := subR (t1 F) (t0 F) in let b := subR (t2 F) (t0 F) in / 562949953421312 * tripleAbs o a b < Rabs (triple o a b).

(** A double as a real; zero or of moderate size: from 2^-100 to 2^100. *)
Definition real (x : binary64) : R := B2R 53 1024 x.
Definition moderate (x : binary64) : Prop :=
  is_finite 53 1024 x = true /\ (real x = 0 \/ / 2 ^ 100 <= Rabs (real x)) /\ Rabs (real x) <= 2 ^ 100.
Definition real3 (p : q3 binary64) : q3 R := Q3 (real (t0 p)) (real (t1 p)) (real (t2 p)).
Definition rdec (n : N) : R := real (ddec n).

Section Mesh.
  Variables (sm : smesh) (nA : nat) (om : nat -> q3 binary64).
  Definition coords_moderate : Prop := forall n s x, SM_node sm n = Some s -> In x (q3l (sn_coords s)) -> moderate (ddec x).
  Definition omegas_moderate : Prop := forall a x, (a < nA)%nat -> In x (q3l (om a)) -> moderate x.
  (** The face of cell [g] opposite vertex [lf]: the vertex and the directions are clear of its plane. *)
  Definition resolved_at (g : N) (lf : nat) : Prop := forall p f sf F v, s_cell sm rdec g p -> s_opposite sm g lf f sf -> s_face sm rdec f F -> corner p lf = Some v ->
    clear_of (subR v (t0 F)) F /\ forall a, (a < nA)%nat -> clear_of (real3 (om a)) F.
  Definition resolved : Prop := forall g lf h, s_next sm g lf h -> resolved_at g lf.
End Mesh.
