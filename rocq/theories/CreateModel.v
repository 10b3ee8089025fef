(** src/ParallelMesh.cc:397-562 ParallelMesh::createFromSerialMesh. *)
From Verif Require Import Prelude Bytes PsiFileModel MeshModel.
Local Open Scope N_scope.

(** std::set<uint64_t>: ascending list without repetition; insert. *)
Fixpoint insertN (x : N) (s : list N) : list N :=
  match s with
  | [] => [x]
  | y :: t => if x <? y then x :: s else if x =? y then s else y :: insertN x t
  end.

(** std::map<uint64_t,uint64_t>::find; a missing key dereferences end() = undefined behaviour. *)
Fixpoint findN (x : N) (m : list (N * N)) : option N :=
  match m with
  | [] => None
  | (k, v) :: t => if x =? k then Some v else findN x t
  end.

Definition updN {A} (l : list A) (i : N) (f : A -> A) : option (list A) :=
  let* a := nthN l i in
  Some (firstn (N.to_nat i) l ++ f a :: skipn (S (N.to_nat i)) l).

(** The sets of one partition (lines 410-412). *)
Record psets := mkPsets { ps_cells : list N; ps_faces : list N; ps_nodes : list N }.

(** Lines 422 and 428: ids pass through [int] and back to uint64_t. *)
Definition viaInt (x : N) : N := i32_to_u64 (to_i32 x).

(** src/ParallelMesh.cc:417-431 loop body. *)
Definition addCell (cell : N) (sc : scell) (s : psets) : psets :=
  mkPsets (insertN cell (ps_cells s))
          (fold_left (fun s f => insertN (viaInt f) s) (q4l (sc_faces sc)) (ps_faces s))
          (fold_left (fun s n => insertN (viaInt n) s) (q4l (sc_nodes sc)) (ps_nodes s)).

(** src/ParallelMesh.cc:413-431 loop over cells. *)
Fixpoint sortIntoSets (sm : smesh) (pv : list N) (cells : list N) (acc : list psets) : option (list psets) :=
  match cells with
  | [] => Some acc
  | c :: t =>
      let* p := nthN pv c in
      let* sc := nthN (sm_cells sm) c in
      let* acc := updN acc p (addCell c sc) in
      sortIntoSets sm pv t acc
  end.

(** src/ParallelMesh.cc:434-460 global to partition indices. *)
Definition gpMap (s : list N) : list (N * N) := combine s (map N.of_nat (seq 0 (length s))).

(** src/ParallelMesh.cc:480-494 CellData.  The loop visits the set in ascending order, so the
    index gpCells.find(gcell) it writes to is the loop position. *)
Definition createCell (sm : smesh) (s : psets) (gcell : N) : option pcell :=
  let* sc := nthN (sm_cells sm) gcell in
  let face g := findN g (gpMap (ps_faces s)) in
  let node g := findN g (gpMap (ps_nodes s)) in
  let* f0 := face (r0 (sc_faces sc)) in let* f1 := face (r1 (sc_faces sc)) in
  let* f2 := face (r2 (sc_faces sc)) in let* f3 := face (r3 (sc_faces sc)) in
  let* n0 := node (r0 (sc_nodes sc)) in let* n1 := node (r1 (sc_nodes sc)) in
  let* n2 := node (r2 (sc_nodes sc)) in let* n3 := node (r3 (sc_nodes sc)) in
  Some (mkPcell (Q4 f0 f1 f2 f3) (Q4 n0 n1 n2 n3) gcell (sc_mat sc)).

(** src/ParallelMesh.cc:505-522 body of the lcell loop: local cell, partition, boundary type. *)
Definition createFaceSide (pv : list N) (sets : list psets) (part : N) (s : psets) (bdry gcell : N) : option (N * N * N) :=
  if gcell =? INVALID then Some (INVALID, INVALID, MeshBoundary)
  else
    let* q := nthN pv gcell in
    if negb (q =? part) then
      let part2 := viaInt q in
      let* s2 := nthN sets part2 in
      let* c := findN gcell (gpMap (ps_cells s2)) in
      Some (c, part2, PartitionBoundary)
    else
      let* c := findN gcell (gpMap (ps_cells s)) in
      Some (c, part, bdry).

(** src/ParallelMesh.cc:497-528 FaceData. *)
Definition createFace (sm : smesh) (pv : list N) (sets : list psets) (part : N) (s : psets) (gface : N) : option pface :=
  let* sf := nthN (sm_faces sm) gface in
  let* (c0, q0, b) := createFaceSide pv sets part s NotBoundary (p0 (sf_cells sf)) in
  let* (c1, q1, b) := createFaceSide pv sets part s b (p1 (sf_cells sf)) in
  let node g := findN g (gpMap (ps_nodes s)) in
  let* n0 := node (t0 (sf_nodes sf)) in let* n1 := node (t1 (sf_nodes sf)) in let* n2 := node (t2 (sf_nodes sf)) in
  Some (mkPface (Q2 c0 c1) (Q3 n0 n1 n2) gface (Q2 q0 q1) b).

(** src/ParallelMesh.cc:532-540 NodeData. *)
Definition createNode (sm : smesh) (gnode : N) : option pnode :=
  let* sn := nthN (sm_nodes sm) gnode in
  Some (mkPnode (sn_coords sn) gnode).

(** src/ParallelMesh.cc:464-541 one partition. *)
Definition createPartition (sm : smesh) (pv : list N) (sets : list psets) (part : N) : option partition :=
  let* s := nthN sets part in
  let* cells := mapM (createCell sm s) (ps_cells s) in
  let* faces := mapM (createFace sm pv sets part s) (ps_faces s) in
  let* nodes := mapM (createNode sm) (ps_nodes s) in
  Some (mkPartition (N.of_nat (length (ps_cells s))) (N.of_nat (length (ps_faces s))) (N.of_nat (length (ps_nodes s)))
          cells faces nodes).

(** src/ParallelMesh.cc:545-561 byte offsets. *)
Definition sizeOfPartition (p : partition) : N :=
  w64 (3 * 8 + pt_numCells p * 80 + pt_numFaces p * 72 + pt_numNodes p * 32).
Fixpoint createOffsets (off : N) (parts : list partition) : list N :=
  off :: match parts with
         | [] => []
         | p :: t => createOffsets (w64 (off + sizeOfPartition p)) t
         end.

(** src/ParallelMesh.cc:397-562; name and version are filled in by write. *)
Definition createFromSerialMesh (sm : smesh) (pv : list N) (numPartitions : nat) : option pmesh :=
  if negb (N.of_nat (length pv) =? sm_numCells sm) then None else
  let* sets := sortIntoSets sm pv (map N.of_nat (seq 0 (N.to_nat (sm_numCells sm))))
                 (repeat (mkPsets [] [] []) numPartitions) in
  let* parts := mapM (createPartition sm pv sets) (map N.of_nat (seq 0 numPartitions)) in
  Some (mkPmesh [] 0 (N.of_nat numPartitions)
          (createOffsets (w64 (32 + (3 + N.of_nat numPartitions) * 8)) parts) parts).
