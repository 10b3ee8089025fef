(** What a well-formed serial mesh is and what its partitioning must look like. *)
From Verif Require Import Prelude Bytes MeshModel MeshSpec.
Local Open Scope N_scope.

Definition SM_cell (sm : smesh) (c : N) : option scell := nth_error (sm_cells sm) (N.to_nat c).
Definition SM_face (sm : smesh) (f : N) : option sface := nth_error (sm_faces sm) (N.to_nat f).
Definition SM_node (sm : smesh) (n : N) : option snode := nth_error (sm_nodes sm) (N.to_nat n).

(** References in range, cell->face and face->cell references agree, the nodes of a face are
    nodes of its cells, face and node ids fit in an int. *)
Record serial_mesh_ok (sm : smesh) : Prop := {
  smo_wf : serial_wf sm;
  smo_cells : lenN (sm_cells sm) < INVALID;
  smo_faces : lenN (sm_faces sm) < 2^31;
  smo_nodes : lenN (sm_nodes sm) < 2^31;
  smo_cf : forall c sc f, SM_cell sm c = Some sc -> In f (q4l (sc_faces sc)) ->
             exists sf, SM_face sm f = Some sf /\ In c (q2l (sf_cells sf)) /\
               forall n, In n (q3l (sf_nodes sf)) -> In n (q4l (sc_nodes sc));
  smo_fc : forall f sf c, SM_face sm f = Some sf -> In c (q2l (sf_cells sf)) -> c <> INVALID ->
             exists sc, SM_cell sm c = Some sc /\ In f (q4l (sc_faces sc));
  smo_cn : forall c sc n, SM_cell sm c = Some sc -> In n (q4l (sc_nodes sc)) -> exists sn, SM_node sm n = Some sn
}.

(** A partition vector for [np] partitions: one entry below [np] per cell. *)
Definition partition_vector_ok (sm : smesh) (pv : list N) (np : nat) : Prop :=
  length pv = length (sm_cells sm) /\ Forall (fun p => p < N.of_nat np) pv /\ N.of_nat np < 2^31.
Definition owner (pv : list N) (c : N) : option N := nth_error pv (N.to_nat c).

(** Lookups in a partition by local index. *)
Definition P_cell (P : partition) (c : N) : option pcell := nth_error (pt_cells P) (N.to_nat c).
Definition P_face (P : partition) (f : N) : option pface := nth_error (pt_faces P) (N.to_nat f).
Definition P_node (P : partition) (n : N) : option pnode := nth_error (pt_nodes P) (N.to_nat n).
Definition cellGid (P : partition) (c : N) : option N := option_map pc_gid (P_cell P c).
Definition faceGid (P : partition) (f : N) : option N := option_map pf_gid (P_face P f).
Definition nodeGid (P : partition) (n : N) : option N := option_map pn_gid (P_node P n).
Definition PM_part (m : pmesh) (p : N) : option partition := nth_error (pm_parts m) (N.to_nat p).

(** One side of a face record: the cell and partition it names denote global cell [g]. *)
Definition side_ok (m : pmesh) (pv : list N) (g c q : N) : Prop :=
  (g = INVALID /\ c = INVALID /\ q = INVALID) \/
  (g <> INVALID /\ owner pv g = Some q /\ exists Q, PM_part m q = Some Q /\ cellGid Q c = Some g).

(** Global ids of the faces stored in a partition. *)
Definition faceGids (P : partition) : list N := map pf_gid (pt_faces P).
Definition cellGids (P : partition) : list N := map pc_gid (pt_cells P).
