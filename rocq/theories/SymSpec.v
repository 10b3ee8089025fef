(** Moving a mesh: renumbering its nodes, faces and cells and the vertices of each cell, and moving the points by an isometry. *)
From Coq Require Import Reals.
From Verif Require Import Prelude Bytes MeshModel MeshSpec CreateSpec TychoSpec GeometrySpec ViewSpec MainModel.

(** [I] moves points without changing lengths or angles; [L] is what it does to directions. *)
Record isometry (I L : q3 R -> q3 R) : Prop := {
  iso_sub : forall x y, subR (I x) (I y) = L (subR x y);
  iso_dot : forall u v, dotR (L u) (L v) = dotR u v }.
(** [sm'] is [sm] moved by [I]: node [n] becomes node [node n], and so on; vertex [v] of cell [g] becomes vertex [vert g v] of cell [cell g]. The lists
    inside cells and faces may come in any order. *)
Record moved (dec : N -> R) (sm sm' : smesh) (I : q3 R -> q3 R) (cell face node : N -> N) (vert : N -> nat -> nat) : Prop := {
  mv_node : forall n x, s_point sm dec n = Some x -> s_point sm' dec (node n) = Some (I x);
  mv_cell : forall g sc, SM_cell sm g = Some sc -> exists sc', SM_cell sm' (cell g) = Some sc' /\ sc_mat sc' = sc_mat sc /\
    (forall v n, nth_error (q4l (sc_nodes sc)) v = Some n -> nth_error (q4l (sc_nodes sc')) (vert g v) = Some (node n)) /\
    (forall f, In f (q4l (sc_faces sc)) -> In (face f) (q4l (sc_faces sc')));
  mv_face : forall f sf, SM_face sm f = Some sf -> exists sf', SM_face sm' (face f) = Some sf' /\
    (forall n, In n (q3l (sf_nodes sf)) -> In (node n) (q3l (sf_nodes sf'))) /\
    (forall c, In c (q2l (sf_cells sf)) -> In (if N.eqb c INVALID then INVALID else cell c) (q2l (sf_cells sf')));
  mv_nodes : forall n m x y, s_point sm dec n = Some x -> s_point sm dec m = Some y -> node n = node m -> n = m;
  mv_cells : forall g h sg sh, SM_cell sm g = Some sg -> SM_cell sm h = Some sh -> cell g = cell h -> g = h;
  mv_onto : length (sm_cells sm') = length (sm_cells sm) }.
(** The quadrature is mapped to itself: direction [a] turns into direction [angle a]. *)
Record turned (q : angles R) (L : q3 R -> q3 R) (angle : nat -> nat) : Prop := {
  tu_angle : forall a, a < q_num q -> angle a < q_num q /\ q_omega q (angle a) = L (q_omega q a) /\ q_weight q (angle a) = q_weight q a;
  tu_apart : forall a b, a < q_num q -> b < q_num q -> angle a = angle b -> a = b }.
(** The centre of the cube, where the source of the program is centred. *)
Definition centre : q3 R := Q3 50%R 50%R 50%R.
