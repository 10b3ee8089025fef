(** What the local mesh of a rank must say about the partition it was read from. *)
From Verif Require Import Prelude Bytes MeshModel MeshSpec CreateSpec.
Local Open Scope N_scope.

(** Face [f], with record [F], is the face of cell [c] opposite its vertex [lf]. *)
Definition opposite (P : partition) (c lf : nat) (f : N) (F : pface) : Prop :=
  exists C, nth_error (pt_cells P) c = Some C /\ In f (q4l (pc_faces C)) /\ P_face P f = Some F /\ (lf < 4)%nat /\
    forall v n, nth_error (q4l (pc_nodes C)) v = Some n -> (In n (q3l (pf_nodes F)) <-> v <> lf).

(** A partition as produced by the partitioner from a mesh of non-degenerate tetrahedra. *)
Record part_wf (P : partition) (rank : N) : Prop := {
  pw_size : lenN (pt_cells P) < INVALID;
  pw_cell : forall c C, nth_error (pt_cells P) c = Some C -> NoDup (q4l (pc_nodes C)) /\
              forall n, In n (q4l (pc_nodes C)) -> (N.to_nat n < length (pt_nodes P))%nat;
  pw_face : forall c C f, nth_error (pt_cells P) c = Some C -> In f (q4l (pc_faces C)) ->
              exists F, P_face P f = Some F /\ NoDup (q3l (pf_nodes F)) /\ incl (q3l (pf_nodes F)) (q4l (pc_nodes C));
  pw_distinct : forall c C i j f g F G, nth_error (pt_cells P) c = Some C ->
              nth_error (q4l (pc_faces C)) i = Some f -> nth_error (q4l (pc_faces C)) j = Some g ->
              P_face P f = Some F -> P_face P g = Some G ->
              (forall n, In n (q3l (pf_nodes F)) <-> In n (q3l (pf_nodes G))) -> i = j;
  pw_inner : forall c C f F, nth_error (pt_cells P) c = Some C -> In f (q4l (pc_faces C)) -> P_face P f = Some F ->
              pf_bdry F = NotBoundary ->
              pf_part F = Q2 rank rank /\
              exists c' C', c' <> c /\ nth_error (pt_cells P) c' = Some C' /\ In f (q4l (pc_faces C')) /\
                (pf_cells F = Q2 (N.of_nat c) (N.of_nat c') \/ pf_cells F = Q2 (N.of_nat c') (N.of_nat c));
  pw_outer : forall c C f F, nth_error (pt_cells P) c = Some C -> In f (q4l (pc_faces C)) -> P_face P f = Some F ->
              pf_bdry F <> NotBoundary ->
              In rank (q2l (pf_part F)) /\
              forall c' C', nth_error (pt_cells P) c' = Some C' -> In f (q4l (pc_faces C')) -> c' = c;
  pw_gids : NoDup (faceGids P)
}.

(** The partition across a boundary face. *)
Definition otherPart (rank : N) (F : pface) : N :=
  match pf_part F with Q2 a b => if a =? rank then b else a end.

(** Strict weak order on a set of values. *)
Definition weak_order (ltb : N -> N -> bool) (Good : N -> Prop) : Prop :=
  (forall a, Good a -> ltb a a = false) /\
  (forall a b c, Good a -> Good b -> Good c -> ltb a b = true -> ltb b c = true -> ltb a c = true) /\
  (forall a b c, Good a -> Good b -> Good c -> ltb a b = false -> ltb b c = false -> ltb a c = false).

(** Non-degenerate tetrahedra: vertices of cells and faces differ, a face has two different
    cells, different faces of a cell have different vertices. *)
Record tets_ok (sm : smesh) : Prop := {
  to_cell : forall c sc, SM_cell sm c = Some sc -> NoDup (q4l (sc_nodes sc));
  to_face : forall f sf, SM_face sm f = Some sf -> NoDup (q3l (sf_nodes sf)) /\ MeshModel.p0 (sf_cells sf) <> MeshModel.p1 (sf_cells sf);
  to_distinct : forall c sc i j f g sf sg, SM_cell sm c = Some sc ->
    nth_error (q4l (sc_faces sc)) i = Some f -> nth_error (q4l (sc_faces sc)) j = Some g ->
    SM_face sm f = Some sf -> SM_face sm g = Some sg ->
    (forall n, In n (q3l (sf_nodes sf)) <-> In n (q3l (sf_nodes sg))) -> i = j
}.
(** Face [f] of the serial mesh is the face of cell [g] opposite its vertex [lf]. *)
Definition s_opposite (sm : smesh) (g : N) (lf : nat) (f : N) (sf : sface) : Prop :=
  exists sc, SM_cell sm g = Some sc /\ In f (q4l (sc_faces sc)) /\ SM_face sm f = Some sf /\ (lf < 4)%nat /\
    forall v n, nth_error (q4l (sc_nodes sc)) v = Some n -> (In n (q3l (sf_nodes sf)) <-> v <> lf).
(** The cell across face [f] of cell [g]; INVALID outside the domain. *)
Definition s_across (sf : sface) (g : N) : N :=
  match sf_cells sf with Q2 a b => if a =? g then b else a end.
