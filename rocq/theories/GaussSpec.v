(** 4x4 linear systems over the reals. *)
From Coq Require Import Reals.
From Verif Require Import Prelude Bytes MeshModel.
Local Open Scope R_scope.

Definition dot4 (a x : q4 R) : R := r0 a * r0 x + r1 a * r1 x + r2 a * r2 x + r3 a * r3 x.
Definition zero4 : q4 R := Q4 0 0 0 0.
(** [M x = b] *)
Definition solves (M : q4 (q4 R)) (b x : q4 R) : Prop :=
  dot4 (r0 M) x = r0 b /\ dot4 (r1 M) x = r1 b /\ dot4 (r2 M) x = r2 b /\ dot4 (r3 M) x = r3 b.
Definition nonsingular (M : q4 (q4 R)) : Prop := forall x, solves M zero4 x -> x = zero4.
(** Determinant by expansion along the first row. *)
Definition det3 (a b c d e f g h i : R) : R := a * (e * i - f * h) - b * (d * i - f * g) + c * (d * h - e * g).
Definition det4 (M : q4 (q4 R)) : R :=
  match M with Q4 (Q4 a b c d) (Q4 e f g h) (Q4 i j k l) (Q4 m n o p) =>
    a * det3 f g h j k l n o p - b * det3 e g h i k l m o p + c * det3 e f h i j l m n p - d * det3 e f g i j k m n o
  end.
(** Leading principal minors: the pivots of elimination without row exchange exist iff they are nonzero. *)
Definition minor1 (M : q4 (q4 R)) : R := r0 (r0 M).
Definition minor2 (M : q4 (q4 R)) : R := r0 (r0 M) * r1 (r1 M) - r1 (r0 M) * r0 (r1 M).
Definition minor3 (M : q4 (q4 R)) : R :=
  det3 (r0 (r0 M)) (r1 (r0 M)) (r2 (r0 M)) (r0 (r1 M)) (r1 (r1 M)) (r2 (r1 M)) (r0 (r2 M)) (r1 (r2 M)) (r2 (r2 M)).
