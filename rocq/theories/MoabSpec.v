(** What it means for a serial mesh to be the mesh held in a MOAB database. *)
From Coq Require Import ZArith Reals Permutation.
From Flocq Require Import Core IEEE754.BinarySingleNaN IEEE754.Binary IEEE754.Bits.
From Verif Require Import Prelude Bytes MeshModel MeshSpec CreateSpec RefineSpec TychoSpec ViewSpec DoubleModel GridSpec MoabModel.
Local Open Scope N_scope.

(** Position of a handle among those of its kind in ascending order. *)
Definition rank {A} (l : list (N * A)) (h : N) : N := N.of_nat (length (filter (fun e => fst e <? h) l)).
Definition node_of (db : mdb) (v : N) : N := rank (mb_vert db) v.
Definition cell_of (db : mdb) (h : N) : N := rank (mb_tet db) h.

Definition tet_has (t : q4 N) (s : q3 N) : Prop := forall v, In v (q3l s) -> In v (q4l t).
(** A database holding a tetrahedral mesh: handles identify entities, tetrahedra and triangles have
    different corners and use existing vertices, at most two tetrahedra meet at three corners, no two
    triangles have the same corners, each triangle is a side of a tetrahedron, and ids will fit in an int. *)
Record moab_ok (db : mdb) : Prop := {
  mo_vert : NoDup (map fst (mb_vert db));
  mo_trih : NoDup (map fst (mb_tri db));
  mo_teth : NoDup (map fst (mb_tet db));
  mo_coords : forall h p x, In (h, p) (mb_vert db) -> In x (q3l p) -> u64 x;
  mo_tet : forall h t, In (h, t) (mb_tet db) -> NoDup (q4l t) /\ forall v, In v (q4l t) -> exists p, In (v, p) (mb_vert db);
  mo_tri : forall h s, In (h, s) (mb_tri db) -> NoDup (q3l s) /\ exists h' t, In (h', t) (mb_tet db) /\ tet_has t s;
  mo_once : forall h s h' s', In (h, s) (mb_tri db) -> In (h', s') (mb_tri db) -> same_set s s' -> h = h';
  mo_two : forall s h1 t1 h2 t2 h3 t3, NoDup (q3l s) ->
             In (h1, t1) (mb_tet db) -> In (h2, t2) (mb_tet db) -> In (h3, t3) (mb_tet db) ->
             tet_has t1 s -> tet_has t2 s -> tet_has t3 s -> h1 = h2 \/ h1 = h3 \/ h2 = h3;
  mo_small : 4 * lenN (mb_tet db) + lenN (mb_tri db) < 2^31 /\ lenN (mb_vert db) < 2^31 }.

(** [sm] is that mesh: the nodes are the vertices and the cells the tetrahedra in order of their
    handles, and the faces are the sides of the tetrahedra, each once, between the one or two tetrahedra
    having it. *)
Record imported (db : mdb) (sm : smesh) : Prop := {
  im_counts : lenN (sm_cells sm) = lenN (mb_tet db) /\ lenN (sm_nodes sm) = lenN (mb_vert db);
  im_node : forall h p, In (h, p) (mb_vert db) -> SM_node sm (node_of db h) = Some (mkSnode p);
  im_cell : forall h t, In (h, t) (mb_tet db) -> exists sc, SM_cell sm (cell_of db h) = Some sc /\
              Permutation (q4l (sc_nodes sc)) (map (node_of db) (q4l t)) /\
              forall s, In s (tet_faces t) -> exists f sf, In f (q4l (sc_faces sc)) /\ SM_face sm f = Some sf /\
                Permutation (q3l (sf_nodes sf)) (map (node_of db) (q3l s));
  im_face : forall f sf, SM_face sm f = Some sf -> exists h t s, In (h, t) (mb_tet db) /\ In s (tet_faces t) /\
              Permutation (q3l (sf_nodes sf)) (map (node_of db) (q3l s)) /\
              p0 (sf_cells sf) <> INVALID /\
              forall c, c <> INVALID -> (In c (q2l (sf_cells sf)) <-> exists h' t', In (h', t') (mb_tet db) /\ tet_has t' s /\ c = cell_of db h');
  im_once : forall f sf g sg, SM_face sm f = Some sf -> SM_face sm g = Some sg -> same_set (sf_nodes sf) (sf_nodes sg) -> f = g }.

(** Material 2 is the open box (25,75)^3 of the nested problem, by the mean of the corners. *)
Definition mean (dec : N -> R) (k : q3 N -> N) (P : q4 (q3 N)) : R :=
  ((dec (k (r0 P)) + dec (k (r1 P)) + dec (k (r2 P)) + dec (k (r3 P))) / 4)%R.
Definition in_box (dec : N -> R) (P : q4 (q3 N)) : Prop := forall k, In k [t0; t1; t2] -> (25 < mean dec k P < 75)%R.
(** The corners of a tetrahedron. *)
Definition m_corners (db : mdb) (t : q4 N) (P : q4 (q3 N)) : Prop := Forall2 (fun v p => In (v, p) (mb_vert db)) (q4l t) (q4l P).
Definition materials_ok (db : mdb) (dec : N -> R) (nested : bool) (sm : smesh) : Prop :=
  forall h t P sc, In (h, t) (mb_tet db) -> m_corners db t P -> SM_cell sm (cell_of db h) = Some sc ->
    (sc_mat sc = 1 \/ sc_mat sc = 2) /\ (sc_mat sc = 2 <-> nested = true /\ in_box dec P).
(** The points of the tetrahedra of a database. *)
Definition points (dec : N -> R) (P : q4 (q3 N)) : q4 (q3 R) :=
  let f p := Q3 (dec (t0 p)) (dec (t1 p)) (dec (t2 p)) in Q4 (f (r0 P)) (f (r1 P)) (f (r2 P)) (f (r3 P)).
Definition m_solid (db : mdb) (dec : N -> R) : Prop :=
  (forall h t P, In (h, t) (mb_tet db) -> m_corners db t P -> vol6 (points dec P) <> 0%R) /\
  (forall h t P h' t' P' x, In (h, t) (mb_tet db) -> m_corners db t P -> In (h', t') (mb_tet db) -> m_corners db t' P' -> h <> h' ->
     strictly_inside (points dec P) x -> strictly_inside (points dec P') x -> False).
(** A triangle with the same corners as a side of exactly one tetrahedron. *)
Definition m_boundary (db : mdb) (dec : N -> R) (F : q3 (q3 R)) : Prop := exists h t s p q r,
  In (h, t) (mb_tet db) /\ In s (tet_faces t) /\ In (t0 s, p) (mb_vert db) /\ In (t1 s, q) (mb_vert db) /\ In (t2 s, r) (mb_vert db) /\
  (forall h' t', In (h', t') (mb_tet db) -> tet_has t' s -> h' = h) /\
  F = let f p := Q3 (dec (t0 p)) (dec (t1 p)) (dec (t2 p)) in Q3 (f p) (f q) (f r).

(** New handles are not in use. *)
Definition fresh (alloc : list N -> N) : Prop := forall l, ~ In (alloc l) l.
(** Every coordinate is a finite double and a multiple of 2^e by at most 2^50. *)
Definition m_grid (db : mdb) (e : Z) : Prop := forall h p x, In (h, p) (mb_vert db) -> In x (q3l p) ->
  is_finite 53 1024 (ddec x) = true /\ exists m : Z, (Z.abs m <= 2 ^ 50)%Z /\ number x = (IZR m * bpow radix2 e)%R.

(** ---- export ---- *)
(** [P] are the corners of a cell of the serial mesh, of a partition. *)
Definition sm_corners (sm : smesh) (sc : scell) (P : q4 (q3 N)) : Prop := Forall2 (fun n p => SM_node sm n = Some (mkSnode p)) (q4l (sc_nodes sc)) (q4l P).
Definition pt_corners (pt : partition) (pc : pcell) (P : q4 (q3 N)) : Prop := Forall2 (fun n p => option_map pn_coords (P_node pt n) = Some p) (q4l (pc_nodes pc)) (q4l P).
(** The tetrahedra with handles [hs] are these cells, corner by corner. *)
Definition exported {C} (corners : C -> q4 (q3 N) -> Prop) (cells : list C) (db : mdb) (hs : list N) : Prop :=
  Forall2 (fun c h => exists t P, In (h, t) (mb_tet db) /\ m_corners db t P /\ corners c P) cells hs.
(** Handles identify entities. *)
Definition handles_ok (db : mdb) : Prop := NoDup (map fst (mb_vert db)) /\ NoDup (map fst (mb_tri db)) /\ NoDup (map fst (mb_tet db)).
(** [d] is [n] written in decimal. *)
Definition is_decimal (d : list N) (n : N) : Prop :=
  d <> [] /\ Forall (fun c => 48 <= c <= 57) d /\ fold_left (fun a c => 10 * a + (c - 48)) d 0 = n /\ (n <> 0 -> hd 0 d <> 48).
(** A parallel mesh whose counts are right and whose cells have existing nodes. *)
Definition parts_ok (m : pmesh) : Prop := pm_numPartitions m = lenN (pm_parts m) /\
  forall pt, In pt (pm_parts m) -> pt_numCells pt = lenN (pt_cells pt) /\
    forall pc n, In pc (pt_cells pt) -> In n (q4l (pc_nodes pc)) -> exists pn, P_node pt n = Some pn.
