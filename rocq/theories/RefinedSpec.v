(** What refining a mesh of tetrahedra with exact midpoints means. *)
From Coq Require Import Reals.
From Verif Require Import Prelude Bytes MeshModel MeshSpec CreateSpec RefineSpec TychoSpec ViewSpec.

(** [x] is coordinate [k] of a corner of a cell, or the midpoint [mid] of two such of one cell. *)
Definition cell_coord (sm : smesh) (k : q3 N -> N) (sc : scell) (x : N) : Prop :=
  exists n sn, In n (q4l (sc_nodes sc)) /\ SM_node sm n = Some sn /\ x = k (sn_coords sn).
Definition refined_coord (sm : smesh) (mid : N -> N -> N) (k : q3 N -> N) (x : N) : Prop :=
  exists sc, In sc (sm_cells sm) /\ (cell_coord sm k sc x \/ exists y z, cell_coord sm k sc y /\ cell_coord sm k sc z /\ x = mid y z).
(** [mid] is exact on the corners of each cell, and the comparisons with tolerance tell different coordinates of refined points apart. *)
Record exact_midpoints (sm : smesh) (dec : N -> R) (mid : N -> N -> N) : Prop := {
  em_mid : forall k sc x y, In k [t0; t1; t2] -> In sc (sm_cells sm) -> cell_coord sm k sc x -> cell_coord sm k sc y -> dec (mid x y) = ((dec x + dec y) / 2)%R;
  em_bits : forall x y, (mid x y < two64)%N }.
Definition separates (sm : smesh) (dec : N -> R) (mid : N -> N -> N) (lt gt : N -> N -> bool) : Prop :=
  forall k x y, In k [t0; t1; t2] -> refined_coord sm mid k x -> refined_coord sm mid k y ->
    (lt x y = true <-> (dec x < dec y)%R) /\ (gt x y = true <-> (dec x > dec y)%R).

(** Triangle [F] is a face on the boundary of the mesh. *)
Definition boundary (sm : smesh) (dec : N -> R) (F : q3 (q3 R)) : Prop :=
  exists f sf, SM_face sm f = Some sf /\ In INVALID (q2l (sf_cells sf)) /\ s_face sm dec f F.
(** Point [x] is in a triangle, off its edges. *)
Definition in_triangle (F : q3 (q3 R)) (x : q3 R) : Prop :=
  exists a b c, (0 < a /\ 0 < b /\ 0 < c /\ a + b + c = 1)%R /\
    x = Q3 (a * t0 (t0 F) + b * t0 (t1 F) + c * t0 (t2 F))%R (a * t1 (t0 F) + b * t1 (t1 F) + c * t1 (t2 F))%R (a * t2 (t0 F) + b * t2 (t1 F) + c * t2 (t2 F))%R.
(** A boundary face does not touch, off its edges, a cell other than its own. *)
Definition face_to_face (sm : smesh) (dec : N -> R) : Prop :=
  forall f sf F g h p x, SM_face sm f = Some sf -> In INVALID (q2l (sf_cells sf)) -> s_face sm dec f F ->
    In g (q2l (sf_cells sf)) -> g <> INVALID -> h <> g -> s_cell sm dec h p -> in_triangle F x -> ~ inside p x.
(** The points of the boundary of the mesh. *)
Definition on_triangle (F : q3 (q3 R)) (x : q3 R) : Prop :=
  exists a b c, (0 <= a /\ 0 <= b /\ 0 <= c /\ a + b + c = 1)%R /\
    x = Q3 (a * t0 (t0 F) + b * t0 (t1 F) + c * t0 (t2 F))%R (a * t1 (t0 F) + b * t1 (t1 F) + c * t1 (t2 F))%R (a * t2 (t0 F) + b * t2 (t1 F) + c * t2 (t2 F))%R.
Definition on_surface (sm : smesh) (dec : N -> R) (x : q3 R) : Prop := exists F, boundary sm dec F /\ on_triangle F x.
(** The points of the solid. *)
Definition in_mesh (sm : smesh) (dec : N -> R) (x : q3 R) : Prop := exists g p, s_cell sm dec g p /\ inside p x.
