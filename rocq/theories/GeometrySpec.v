(** Elementary solid geometry over the reals. *)
From Coq Require Import Reals Permutation.
From Verif Require Import Prelude Bytes MeshModel RefineSpec.
Local Open Scope R_scope.

Definition dotR (a b : q3 R) : R := t0 a * t0 b + t1 a * t1 b + t2 a * t2 b.
Definition subR (a b : q3 R) : q3 R := Q3 (t0 a - t0 b) (t1 a - t1 b) (t2 a - t2 b).
Definition scaleR (k : R) (a : q3 R) : q3 R := Q3 (k * t0 a) (k * t1 a) (k * t2 a).
Definition addR (a b : q3 R) : q3 R := Q3 (t0 a + t0 b) (t1 a + t1 b) (t2 a + t2 b).
Definition oppR (a : q3 R) : q3 R := Q3 (- t0 a) (- t1 a) (- t2 a).
Definition zeroR : q3 R := Q3 0 0 0.

(** [f] lists the three corners of the tetrahedron [p] other than its corner number [lf], in any order. *)
Definition face_of (p : q4 (q3 R)) (lf : nat) (f : q3 (q3 R)) : Prop :=
  exists t, nth_error (tet_faces p) lf = Some t /\ same_tri t f.
Definition corner (p : q4 (q3 R)) (lf : nat) : option (q3 R) := nth_error (q4l p) lf.

(** Outward unit normal of a face: unit length, orthogonal to the face, the corner off the face is behind it. *)
Definition outward_unit_normal (p : q4 (q3 R)) (lf : nat) (f : q3 (q3 R)) (n : q3 R) : Prop :=
  dotR n n = 1 /\ dotR n (subR (t1 f) (t0 f)) = 0 /\ dotR n (subR (t2 f) (t0 f)) = 0 /\
  forall v, corner p lf = Some v -> dotR n (subR v (t0 f)) < 0.

(** Area of a triangle by Heron's formula in terms of squared side lengths: 16 A^2. *)
Definition heron16 (f : q3 (q3 R)) : R :=
  let a := dist2 (t0 f) (t1 f) in let b := dist2 (t1 f) (t2 f) in let c := dist2 (t2 f) (t0 f) in
  4 * a * b - (a + b - c) * (a + b - c).
