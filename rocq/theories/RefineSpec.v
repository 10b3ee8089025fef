(** What refining a tetrahedron and a mesh means. *)
From Coq Require Import Reals Permutation.
From Verif Require Import Prelude Bytes MeshModel MeshSpec.

(** Six times the signed volume of a tetrahedron. *)
Definition vol6 (t : q4 (q3 R)) : R :=
  match t with Q4 (Q3 x0 y0 z0) (Q3 x1 y1 z1) (Q3 x2 y2 z2) (Q3 x3 y3 z3) =>
    ((x1-x0) * ((y2-y0)*(z3-z0) - (y3-y0)*(z2-z0))
   - (x2-x0) * ((y1-y0)*(z3-z0) - (y3-y0)*(z1-z0))
   + (x3-x0) * ((y1-y0)*(z2-z0) - (y2-y0)*(z1-z0)))%R
  end.
(** [x] is the point with barycentric coordinates [a b c d]. *)
Definition bary (t : q4 (q3 R)) (a b c d : R) : q3 R :=
  let f k := (a * k (r0 t) + b * k (r1 t) + c * k (r2 t) + d * k (r3 t))%R in Q3 (f t0) (f t1) (f t2).
Definition inside (t : q4 (q3 R)) (x : q3 R) : Prop :=
  exists a b c d, (0 <= a /\ 0 <= b /\ 0 <= c /\ 0 <= d /\ a + b + c + d = 1)%R /\ x = bary t a b c d.
Definition strictly_inside (t : q4 (q3 R)) (x : q3 R) : Prop :=
  exists a b c d, (0 < a /\ 0 < b /\ 0 < c /\ 0 < d /\ a + b + c + d = 1)%R /\ x = bary t a b c d.
Definition dist2 (p q : q3 R) : R :=
  ((t0 p - t0 q) * (t0 p - t0 q) + (t1 p - t1 q) * (t1 p - t1 q) + (t2 p - t2 q) * (t2 p - t2 q))%R.

(** Triangles and faces of tetrahedra; triangles are compared as sets of three points. *)
Definition same_tri {A} (a b : q3 A) : Prop := Permutation (q3l a) (q3l b).
Definition tet_faces {A} (t : q4 A) : list (q3 A) :=
  [Q3 (r1 t) (r2 t) (r3 t); Q3 (r0 t) (r2 t) (r3 t); Q3 (r0 t) (r1 t) (r3 t); Q3 (r0 t) (r1 t) (r2 t)].
(** Two lists of triangles are the same up to order and naming of corners. *)
Definition same_tris {A} (l m : list (q3 A)) : Prop :=
  exists l', Permutation l l' /\ Forall2 same_tri l' m.
(** The four triangles a triangle is divided into by its edge midpoints. *)
Definition quarter_tri {A} (half : A -> A -> A) (f : q3 A) : list (q3 A) :=
  match f with Q3 p q r =>
    [Q3 p (half p q) (half p r); Q3 q (half p q) (half q r); Q3 r (half p r) (half q r);
     Q3 (half p q) (half p r) (half q r)] end.

(** Triangles of mesh nodes, compared as sets. *)
Definition same_set (a b : q3 N) : Prop := forall n, In n (q3l a) <-> In n (q3l b).
Definition same_setb (a b : q3 N) : bool :=
  forallb (fun x => existsb (N.eqb x) (q3l b)) (q3l a) && forallb (fun x => existsb (N.eqb x) (q3l a)) (q3l b).
(** All (cell, triangle) incidences of a list of cells, in order. *)
Definition incidences (cells : list scell) : list (N * q3 N) :=
  flat_map (fun ic => map (fun f => (N.of_nat (fst ic), f)) (tet_faces (sc_nodes (snd ic))))
           (combine (seq 0 (length cells)) cells).
(** The cells having a given triangle as a face. *)
Definition owners (cells : list scell) (tri : q3 N) : list N :=
  map fst (filter (fun i => same_setb tri (snd i)) (incidences cells)).

Definition strict_weak {K} (less : K -> K -> bool) (P : K -> Prop) : Prop :=
  (forall a, P a -> less a a = false) /\
  (forall a b c, P a -> P b -> P c -> less a b = true -> less b c = true -> less a c = true) /\
  (forall a b c, P a -> P b -> P c -> less a b = false -> less b a = false -> less b c = false -> less c b = false ->
     less a c = false /\ less c a = false).
Definition incomparable {K} (less : K -> K -> bool) (a b : K) : Prop := less a b = false /\ less b a = false.

(** [rm] has the tetrahedra [ts] (with materials) as its cells, merged nodes and faces. *)
Record refined_mesh (less : q3 N -> q3 N -> bool) (ts : list (N * q4 (q3 N))) (rm : smesh) : Prop := {
  rf_counts : sm_numCells rm = lenN (sm_cells rm) /\ sm_numFaces rm = lenN (sm_faces rm) /\ sm_numNodes rm = lenN (sm_nodes rm);
  rf_cells : Forall2 (fun mt sc => sc_mat sc = fst mt /\
               Forall2 (fun n p => exists sn, nth_error (sm_nodes rm) (N.to_nat n) = Some sn /\ incomparable less p (sn_coords sn))
                       (q4l (sc_nodes sc)) (q4l (snd mt))) ts (sm_cells rm);
  rf_distinct_nodes : forall i j a b, nth_error (sm_nodes rm) i = Some a -> nth_error (sm_nodes rm) j = Some b ->
               incomparable less (sn_coords a) (sn_coords b) -> i = j;
  rf_face_nodes : forall c sc j f tri, nth_error (sm_cells rm) c = Some sc -> nth_error (q4l (sc_faces sc)) j = Some f ->
               nth_error (tet_faces (sc_nodes sc)) j = Some tri ->
               exists sf, nth_error (sm_faces rm) (N.to_nat f) = Some sf /\ same_set (sf_nodes sf) tri;
  rf_distinct_faces : forall i j a b, nth_error (sm_faces rm) i = Some a -> nth_error (sm_faces rm) j = Some b ->
               same_set (sf_nodes a) (sf_nodes b) -> i = j;
  rf_face_cells : forall f sf, nth_error (sm_faces rm) f = Some sf ->
               exists c0 rest, owners (sm_cells rm) (sf_nodes sf) = c0 :: rest /\ sf_cells sf = Q2 c0 (last rest INVALID)
}.
