(** util/PartitionMetis.cc:54-117 partitionMesh. *)
From Verif Require Import Prelude Bytes MeshModel CreateModel TychoModel.
Local Open Scope N_scope.

(** idx_t is a signed integer of [w] bits (32 or 64, fixed when METIS is built); a uint64_t is
    reduced modulo 2^w when stored, and sign extended when read back. *)
Definition toIdx (w x : N) : Z :=
  let m := x mod 2^w in
  if m <? 2^(w-1) then Z.of_N m else (Z.of_N m - Z.of_N (2^w))%Z.
Definition ofIdx (z : Z) : N := Z.to_N (z mod Z.of_N two64).

(** Lines 89-99: body of the lface loop.  State: adjncy and numConnections. *)
Definition connect (w : N) (sm : smesh) (cell : N) (start : Z) (st : list Z * N) (face : N) : option (list Z * N) :=
  let '(adjncy, num) := st in
  let* f := nthN (sm_faces sm) face in
  let cell1 := p0 (sf_cells f) in
  let cell2 := p1 (sf_cells f) in
  let adj := if cell1 =? cell then cell2 else cell1 in
  if adj =? INVALID then Some (adjncy, num)
  else
    let* adjncy := updN adjncy (w64 (ofIdx start + num)) (fun _ => toIdx w adj) in
    Some (adjncy, w64 (num + 1)).

(** Lines 87-101: body of the cell loop.  State: xadj and adjncy. *)
Definition metisCell (w : N) (sm : smesh) (st : list Z * list Z) (cell : N) : option (list Z * list Z) :=
  let '(xadj, adjncy) := st in
  let* start := nthN xadj cell in
  let* c := nthN (sm_cells sm) cell in
  let* r := foldM (connect w sm cell start) (q4l (sc_faces c)) (adjncy, 0) in
  let '(adjncy, num) := r in
  let* xadj := updN xadj (w64 (cell + 1)) (fun _ => toIdx w (w64 (ofIdx start + num))) in
  Some (xadj, adjncy).

(** Lines 70-73, 86: the arrays; a negative size throws. *)
Definition zeros (n : Z) : option (list Z) := if (n <? 0)%Z then None else Some (repeat 0%Z (Z.to_nat n)).

(** Lines 69-101: the graph handed to METIS. *)
Definition metisGraph (w : N) (sm : smesh) : option (list Z * list Z) :=
  let nvtxs := toIdx w (sm_numCells sm) in
  let* xadj := zeros (nvtxs + 1) in
  let* adjncy := zeros (Z.of_N (w64 (2 * sm_numFaces sm))) in
  foldM (metisCell w sm) (map N.of_nat (seq 0 (N.to_nat (sm_numCells sm)))) (xadj, adjncy).

(** Lines 54-117.  METIS_PartGraphKway is a parameter: number of vertices, xadj, adjncy, number
    of parts give the return status (true = METIS_OK) and the contents of [part]. *)
Definition partitionMetis (w : N) (metis : Z -> list Z -> list Z -> Z -> bool * list Z)
    (np : N) (sm : smesh) (pvSize : N) : option (list N) :=
  if negb (pvSize =? sm_numCells sm) then None
  else if np =? 1 then Some (repeat 0 (N.to_nat pvSize))
  else
    let* g := metisGraph w sm in
    let '(ok, part) := metis (toIdx w (sm_numCells sm)) (fst g) (snd g) (Z.of_N np) in
    if ok then
      mapM (fun c => let* p := nthN part c in Some (ofIdx p)) (map N.of_nat (seq 0 (N.to_nat pvSize)))
    else None.
