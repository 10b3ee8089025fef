(** Mesh files: SerialMesh and ParallelMesh records, writers and readers.

    Coordinates are opaque 64-bit patterns here (the code copies the bits of the doubles).
    A failing assert, an out-of-range vector access and a failing Insist are [None]. *)
From Coq Require Import String.
From Verif Require Import Prelude Bytes PsiFileModel DeckModel.
Local Open Scope N_scope.

(** C arrays of length 2, 3, 4. *)
Record q2 (A : Type) := Q2 { p0 : A; p1 : A }.
Record q3 (A : Type) := Q3 { t0 : A; t1 : A; t2 : A }.
Record q4 (A : Type) := Q4 { r0 : A; r1 : A; r2 : A; r3 : A }.
Arguments Q2 {A}. Arguments p0 {A}. Arguments p1 {A}.
Arguments Q3 {A}. Arguments t0 {A}. Arguments t1 {A}. Arguments t2 {A}.
Arguments Q4 {A}. Arguments r0 {A}. Arguments r1 {A}. Arguments r2 {A}. Arguments r3 {A}.
Definition q2l {A} (q : q2 A) : list A := [p0 q; p1 q].
Definition q3l {A} (q : q3 A) : list A := [t0 q; t1 q; t2 q].
Definition q4l {A} (q : q4 A) : list A := [r0 q; r1 q; r2 q; r3 q].

(** numeric_limits<uint64_t>::max(), INVALID_INDEX (src/SerialMesh.hh:80). *)
Definition INVALID : N := 18446744073709551615.

Definition obind {A B} (x : option A) (f : A -> option B) : option B :=
  match x with Some a => f a | None => None end.
Notation "'let*' x := e 'in' k" := (obind e (fun x => k)) (at level 200, x pattern, k at level 200).

(** vector access with a 64-bit index; out of range is undefined. *)
Definition nthN {A} (l : list A) (i : N) : option A :=
  if i <? N.of_nat (length l) then nth_error l (N.to_nat i) else None.

(** ---------------- SerialMesh ---------------- *)

(** src/SerialMesh.hh:86-107. *)
Record scell := mkScell { sc_faces : q4 N; sc_nodes : q4 N; sc_mat : N }.
Record sface := mkSface { sf_cells : q2 N; sf_nodes : q3 N }.
Record snode := mkSnode { sn_coords : q3 N }.
Record smesh := mkSmesh {
  sm_name : bytes; sm_version : N; sm_numCells : N; sm_numFaces : N; sm_numNodes : N;
  sm_cells : list scell; sm_faces : list sface; sm_nodes : list snode }.

(** src/SerialMesh.cc:47-49. *)
Definition serialName : bytes := str "Tycho 2 Serial Mesh" ++ repeat 0 13.

(** src/SerialMesh.cc:153-165, 169-176, 180-184: the pushes of one cell, face, node. *)
Definition scellWords (c : scell) : list N := q4l (sc_faces c) ++ q4l (sc_nodes c) ++ [sc_mat c].
Definition sfaceWords (f : sface) : list N := q2l (sf_cells f) ++ q3l (sf_nodes f).
Definition snodeWords (n : snode) : list N := q3l (sn_coords n).

(** One "for (i = 0; i < count; i++) push_back(...)" loop. *)
Definition bufferLoop {A} (words : A -> list N) (data : list A) (count : N) : option (list N) :=
  option_map (@concat N) (mapM (fun i => option_map words (nth_error data i)) (seq 0 (N.to_nat count))).

(** src/SerialMesh.cc:120-201 write: file contents and the mesh after the call (header filled in). *)
Definition serialWrite (m : smesh) : option (bytes * smesh) :=
  let m := mkSmesh serialName 2 (sm_numCells m) (sm_numFaces m) (sm_numNodes m)
             (sm_cells m) (sm_faces m) (sm_nodes m) in
  let* cells := bufferLoop scellWords (sm_cells m) (sm_numCells m) in
  let* faces := bufferLoop sfaceWords (sm_faces m) (sm_numFaces m) in
  let* nodes := bufferLoop snodeWords (sm_nodes m) (sm_numNodes m) in
  let bufferUint := [sm_version m; sm_numCells m; sm_numFaces m; sm_numNodes m] ++ cells ++ faces in
  Some (sm_name m ++ words_bytes bufferUint ++ words_bytes nodes, m).

(** Assignments of one record from buffer positions base+0, base+1, ...; [g k] is the
    access buffer[base + k]. *)
Definition scellOf (g : nat -> option N) : option scell :=
  let* a := g 0%nat in let* b := g 1%nat in let* c := g 2%nat in let* d := g 3%nat in
  let* e := g 4%nat in let* f := g 5%nat in let* h := g 6%nat in let* i := g 7%nat in
  let* m := g 8%nat in
  Some (mkScell (Q4 a b c d) (Q4 e f h i) m).
Definition sfaceOf (g : nat -> option N) : option sface :=
  let* a := g 0%nat in let* b := g 1%nat in let* c := g 2%nat in let* d := g 3%nat in
  let* e := g 4%nat in
  Some (mkSface (Q2 a b) (Q3 c d e)).
Definition snodeOf (g : nat -> option N) : option snode :=
  let* a := g 0%nat in let* b := g 1%nat in let* c := g 2%nat in
  Some (mkSnode (Q3 a b c)).

(** One "for (i = 0; i < count; i++) data[i].x = buffer[i * w + k]" loop. *)
Definition decodeLoop {A} (w : nat) (of_ : (nat -> option N) -> option A) (buf : list N) (count : N) : option (list A) :=
  mapM (fun i => of_ (fun k => nth_error buf (i * w + k)%nat)) (seq 0 (N.to_nat count)).

(** resize, fread, assert(numRead == count * w), decode loop. *)
Definition readTable {A} (w : nat) (of_ : (nat -> option N) -> option A) (count : N) (rest : bytes) : option (list A * bytes) :=
  let* (buf, rest) := fread_words (w64 (count * N.of_nat w)) rest in
  let* l := decodeLoop w of_ buf count in
  Some (l, rest).

Definition bytes_eqb (a b : bytes) : bool := if list_eq_dec N.eq_dec a b then true else false.

(** src/SerialMesh.cc:209-293 read. *)
Definition serialRead (file : bytes) : option smesh :=
  let* (name, rest) := fread_bytes 32 file in
  if negb (bytes_eqb name serialName) then None else
  let* (hdr, rest) := fread_words 4 rest in
  match hdr with
  | [version; numCells; numFaces; numNodes] =>
      if negb (version =? 2) then None else
      let* (cells, rest) := readTable 9 scellOf numCells rest in
      let* (faces, rest) := readTable 5 sfaceOf numFaces rest in
      let* (nodes, rest) := readTable 3 snodeOf numNodes rest in
      Some (mkSmesh name version numCells numFaces numNodes cells faces nodes)
  | _ => None
  end.

(** ---------------- ParallelMesh ---------------- *)

(** src/ParallelMesh.hh:91-126. *)
Record pcell := mkPcell { pc_faces : q4 N; pc_nodes : q4 N; pc_gid : N; pc_mat : N }.
Record pface := mkPface { pf_cells : q2 N; pf_nodes : q3 N; pf_gid : N; pf_part : q2 N; pf_bdry : N }.
Record pnode := mkPnode { pn_coords : q3 N; pn_gid : N }.
Record partition := mkPartition {
  pt_numCells : N; pt_numFaces : N; pt_numNodes : N;
  pt_cells : list pcell; pt_faces : list pface; pt_nodes : list pnode }.
Record pmesh := mkPmesh { pm_name : bytes; pm_version : N; pm_numPartitions : N;
  pm_bytesOffset : list N; pm_parts : list partition }.

(** src/ParallelMesh.hh:86-89 BoundaryType. *)
Definition MeshBoundary : N := 0.
Definition PartitionBoundary : N := 1.
Definition NotBoundary : N := 2.

(** src/ParallelMesh.cc:49-51. *)
Definition parallelName : bytes := str "Tycho 2 Parallel Mesh" ++ repeat 0 11.

(** src/ParallelMesh.cc:207-218, 224-236, 242-252. *)
Definition pcellWords (c : pcell) : list N := q4l (pc_faces c) ++ q4l (pc_nodes c) ++ [pc_gid c; pc_mat c].
Definition pfaceWords (f : pface) : list N :=
  q2l (pf_cells f) ++ q3l (pf_nodes f) ++ [pf_gid f] ++ q2l (pf_part f) ++ [pf_bdry f].
Definition pnodeWords (n : pnode) : list N := q3l (pn_coords n) ++ [pn_gid n].

(** src/ParallelMesh.cc:196-253 one partition. *)
Definition partitionWords (p : partition) : option (list N) :=
  let* cells := bufferLoop pcellWords (pt_cells p) (pt_numCells p) in
  let* faces := bufferLoop pfaceWords (pt_faces p) (pt_numFaces p) in
  let* nodes := bufferLoop pnodeWords (pt_nodes p) (pt_numNodes p) in
  Some ([pt_numCells p; pt_numFaces p; pt_numNodes p] ++ cells ++ faces ++ nodes).

(** src/ParallelMesh.cc:162-264 write. *)
Definition parallelWrite (m : pmesh) : option (bytes * pmesh) :=
  let m := mkPmesh parallelName 2 (pm_numPartitions m) (pm_bytesOffset m) (pm_parts m) in
  let* offs := mapM (fun i => nth_error (pm_bytesOffset m) i) (seq 0 (N.to_nat (w64 (pm_numPartitions m + 1)))) in
  let* parts := mapM (fun i => let* p := nth_error (pm_parts m) i in partitionWords p)
                     (seq 0 (N.to_nat (pm_numPartitions m))) in
  let bufferUint := [pm_version m; pm_numPartitions m] ++ offs ++ concat parts in
  Some (pm_name m ++ words_bytes bufferUint, m).

(** src/ParallelMesh.cc:318-331, 341-354, 364-370. *)
Definition pcellOf (g : nat -> option N) : option pcell :=
  let* a := g 0%nat in let* b := g 1%nat in let* c := g 2%nat in let* d := g 3%nat in
  let* e := g 4%nat in let* f := g 5%nat in let* h := g 6%nat in let* i := g 7%nat in
  let* gid := g 8%nat in let* m := g 9%nat in
  Some (mkPcell (Q4 a b c d) (Q4 e f h i) gid m).
Definition pfaceOf (g : nat -> option N) : option pface :=
  let* a := g 0%nat in let* b := g 1%nat in let* c := g 2%nat in let* d := g 3%nat in
  let* e := g 4%nat in let* gid := g 5%nat in let* x := g 6%nat in let* y := g 7%nat in
  let* bd := g 8%nat in
  Some (mkPface (Q2 a b) (Q3 c d e) gid (Q2 x y) bd).
Definition pnodeOf (g : nat -> option N) : option pnode :=
  let* a := g 0%nat in let* b := g 1%nat in let* c := g 2%nat in let* gid := g 3%nat in
  Some (mkPnode (Q3 a b c) gid).

(** src/ParallelMesh.cc:308-372 one partition. *)
Definition readPartition (rest : bytes) : option (partition * bytes) :=
  let* (hdr, rest) := fread_words 3 rest in
  match hdr with
  | [numCells; numFaces; numNodes] =>
      let* (cells, rest) := readTable 10 pcellOf numCells rest in
      let* (faces, rest) := readTable 9 pfaceOf numFaces rest in
      let* (nodes, rest) := readTable 4 pnodeOf numNodes rest in
      Some (mkPartition numCells numFaces numNodes cells faces nodes, rest)
  | _ => None
  end.
Fixpoint readPartitions (n : nat) (rest : bytes) : option (list partition * bytes) :=
  match n with
  | O => Some ([], rest)
  | S n' => let* (p, rest) := readPartition rest in
            let* (ps, rest) := readPartitions n' rest in
            Some (p :: ps, rest)
  end.

(** src/ParallelMesh.cc:272-389 read. *)
Definition parallelRead (file : bytes) : option pmesh :=
  let* (name, rest) := fread_bytes 32 file in
  if negb (bytes_eqb name parallelName) then None else
  let* (hdr, rest) := fread_words 2 rest in
  match hdr with
  | [version; numPartitions] =>
      if negb (version =? 2) then None else
      let* (offs, rest) := fread_words (w64 (numPartitions + 1)) rest in
      let* (parts, rest) := readPartitions (N.to_nat numPartitions) rest in
      Some (mkPmesh name version numPartitions offs parts)
  | _ => None
  end.

(** ---- MPI-IO reads (src/Comm.cc:358-402) ---- *)

(** src/Comm.cc:358-363 seek: MPI_Offset is signed. *)
Definition mpiSeek (file : bytes) (position : N) : option bytes :=
  if position <? 9223372036854775808 then Some (skipn (N.to_nat position) file) else None.

(** vector::resize. *)
Definition resize (n : N) (b : list N) : list N :=
  firstn (N.to_nat n) b ++ repeat 0 (N.to_nat n - length b).

(** src/Comm.cc:384-389 readUint64(file, data, int numData): numData is the UINT argument
    converted to int, the byte count sizeof(uint64_t) * numData is converted to int again;
    a negative count is an MPI error (Insist).  A read past the end of the file is short
    and not detected: the rest of [data] keeps its contents.
    Simplification: the bytes of an incomplete last word are not stored. *)
Definition mpiReadUint64 (rest : bytes) (data : list N) (numData : N) : option (list N * bytes) :=
  let count := to_i32 (w64 (8 * i32_to_u64 (to_i32 numData))) in
  if (count <? 0)%Z then None else
  let nbytes := Z.to_nat count in
  let ws := bytes_words (firstn nbytes rest) in
  if (length data <? length ws)%nat then None (* buffer overflow *) else
  Some (ws ++ skipn (length ws) data, skipn nbytes rest).

(** resize, readUint64, decode loop. *)
Definition mpiReadTable {A} (w : nat) (of_ : (nat -> option N) -> option A) (count : N)
    (buf : list N) (rest : bytes) : option (list A * list N * bytes) :=
  let buf := resize (w64 (count * N.of_nat w)) buf in
  let* (buf, rest) := mpiReadUint64 rest buf (w64 (count * N.of_nat w)) in
  let* l := decodeLoop w of_ buf count in
  Some (l, buf, rest).

(** src/ParallelMesh.cc:581-687 readInParallel on one rank.  The barrier of line 611 makes
    rank 0's header check precede everyone's reads; a failing check ends the job, so the
    check is part of every rank's outcome. *)
Definition headerCheck (file : bytes) (numRanks : N) : bool :=
  match fread_bytes 32 file with
  | Some (name, rest) =>
      match fread_words 2 rest with
      | Some ([version; numPartitions], _) =>
          bytes_eqb name parallelName && (version =? 2) && (numPartitions =? numRanks)
      | _ => false
      end
  | None => false
  end.
Definition readInParallel (file : bytes) (numRanks rank : N) : option partition :=
  if negb (headerCheck file numRanks) then None else
  let* rest := mpiSeek file (32 + (2 + rank) * 8) in
  let* (off, _) := mpiReadUint64 rest [0] 1 in
  let* rest := mpiSeek file (nth 0 off 0) in
  let buf := if rank =? 0 then resize 3 [2; numRanks] else resize 3 [] in
  let* (buf, rest) := mpiReadUint64 rest buf 3 in
  match buf with
  | [numCells; numFaces; numNodes] =>
      let* (cells, buf, rest) := mpiReadTable 10 pcellOf numCells buf rest in
      let* (faces, buf, rest) := mpiReadTable 9 pfaceOf numFaces buf rest in
      if negb (forallb (fun f => pf_bdry f <? 3) faces) then None else
      let* (nodes, buf, rest) := mpiReadTable 4 pnodeOf numNodes buf rest in
      Some (mkPartition numCells numFaces numNodes cells faces nodes)
  | _ => None
  end.
