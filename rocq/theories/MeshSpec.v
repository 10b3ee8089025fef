(** Mesh file formats as documented in src/SerialMesh.hh:44-66 and src/ParallelMesh.hh:44-75,
    and well-formedness of in-memory meshes. *)
From Coq Require Import String.
From Verif Require Import Prelude Bytes DeckModel MeshModel.
Local Open Scope N_scope.

Definition u64 (x : N) : Prop := x < 18446744073709551616.
Definition lenN {A} (l : list A) : N := N.of_nat (length l).

(** magic string padded with zeros to 32 characters *)
Definition magic32 (s : string) : bytes := firstn 32 (str s ++ repeat 0 32).

Definition scell_fmt (c : scell) : list N :=
  match c with mkScell (Q4 f0 f1 f2 f3) (Q4 n0 n1 n2 n3) m => [f0; f1; f2; f3; n0; n1; n2; n3; m] end.
Definition sface_fmt (f : sface) : list N :=
  match f with mkSface (Q2 c0 c1) (Q3 n0 n1 n2) => [c0; c1; n0; n1; n2] end.
Definition snode_fmt (n : snode) : list N := match n with mkSnode (Q3 x y z) => [x; y; z] end.

Definition serial_file (cells : list scell) (faces : list sface) (nodes : list snode) : bytes :=
  magic32 "Tycho 2 Serial Mesh" ++
  words_bytes ([2; lenN cells; lenN faces; lenN nodes] ++
    flat_map scell_fmt cells ++ flat_map sface_fmt faces ++ flat_map snode_fmt nodes).

(** A serial mesh object whose counts agree with its vectors, every field a uint64_t, and
    small enough that its tables can be addressed. *)
Definition serial_wf (m : smesh) : Prop :=
  sm_numCells m = lenN (sm_cells m) /\ sm_numFaces m = lenN (sm_faces m) /\ sm_numNodes m = lenN (sm_nodes m) /\
  u64 (9 * lenN (sm_cells m)) /\ u64 (5 * lenN (sm_faces m)) /\ u64 (3 * lenN (sm_nodes m)) /\
  Forall (fun c => Forall u64 (scell_fmt c)) (sm_cells m) /\
  Forall (fun f => Forall u64 (sface_fmt f)) (sm_faces m) /\
  Forall (fun n => Forall u64 (snode_fmt n)) (sm_nodes m).

Definition pcell_fmt (c : pcell) : list N :=
  match c with mkPcell (Q4 f0 f1 f2 f3) (Q4 n0 n1 n2 n3) g m => [f0; f1; f2; f3; n0; n1; n2; n3; g; m] end.
Definition pface_fmt (f : pface) : list N :=
  match f with mkPface (Q2 c0 c1) (Q3 n0 n1 n2) g (Q2 q0 q1) b => [c0; c1; n0; n1; n2; g; q0; q1; b] end.
Definition pnode_fmt (n : pnode) : list N := match n with mkPnode (Q3 x y z) g => [x; y; z; g] end.
Definition partition_fmt (p : partition) : list N :=
  [lenN (pt_cells p); lenN (pt_faces p); lenN (pt_nodes p)] ++
  flat_map pcell_fmt (pt_cells p) ++ flat_map pface_fmt (pt_faces p) ++ flat_map pnode_fmt (pt_nodes p).
Definition parallel_file (offs : list N) (parts : list partition) : bytes :=
  magic32 "Tycho 2 Parallel Mesh" ++
  words_bytes ([2; lenN parts] ++ offs ++ flat_map partition_fmt parts).

Definition partition_wf (p : partition) : Prop :=
  pt_numCells p = lenN (pt_cells p) /\ pt_numFaces p = lenN (pt_faces p) /\ pt_numNodes p = lenN (pt_nodes p) /\
  u64 (10 * lenN (pt_cells p)) /\ u64 (9 * lenN (pt_faces p)) /\ u64 (4 * lenN (pt_nodes p)) /\
  Forall (fun c => Forall u64 (pcell_fmt c)) (pt_cells p) /\
  Forall (fun f => Forall u64 (pface_fmt f)) (pt_faces p) /\
  Forall (fun n => Forall u64 (pnode_fmt n)) (pt_nodes p).
Definition parallel_wf (m : pmesh) : Prop :=
  pm_numPartitions m = lenN (pm_parts m) /\ lenN (pm_bytesOffset m) = lenN (pm_parts m) + 1 /\
  u64 (lenN (pm_parts m) + 1) /\ Forall u64 (pm_bytesOffset m) /\ Forall partition_wf (pm_parts m).

(** Offsets point at the partitions: offset i is the number of bytes before partition i. *)
Definition offsets_ok (m : pmesh) : Prop :=
  forall i, (i < length (pm_parts m))%nat ->
    nth_error (pm_bytesOffset m) i =
    Some (N.of_nat (32 + 8 * (3 + length (pm_parts m) +
                              length (flat_map partition_fmt (firstn i (pm_parts m))))%nat)).

(** Sizes for which the int byte count of MPI_File_read does not overflow. *)
Definition fits_int_reads (p : partition) : Prop :=
  80 * lenN (pt_cells p) < 2147483648 /\ 72 * lenN (pt_faces p) < 2147483648 /\
  32 * lenN (pt_nodes p) < 2147483648.
Definition boundary_types_ok (p : partition) : Prop := Forall (fun f => pf_bdry f < 3) (pt_faces p).
