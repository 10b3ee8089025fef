(** util/MoabToSerialMesh.cc, util/SerialMeshToMoab.cc and createMoabMesh of util/ParallelMeshToMoab.cc.

    MOAB is not part of the repository.  The few calls the utilities make are modelled on a database of
    vertices, triangles and tetrahedra identified by handles:
    get_entities_by_dimension and get_adjacencies fill a Range, which holds handles in ascending order
    without repetition; get_adjacencies of a tetrahedron to dimension 2 with create_if_missing finds or
    creates the triangle on each of its sides; of a triangle to dimension 3 it gives the tetrahedra
    having all its vertices; to dimension 0 it gives the vertices.  A new entity gets a handle chosen by
    [alloc] from the handles of its kind in use.  Other kinds of elements are not modelled. *)
From Coq Require Import String.
From Verif Require Import Prelude Bytes DeckModel MeshModel CreateModel TychoModel GeometryModel.
Local Open Scope N_scope.

Record mdb := mkMdb { mb_vert : list (N * q3 N); mb_tri : list (N * q3 N); mb_tet : list (N * q4 N) }.

(** moab::Range filled with the handles of a list. *)
Definition toRange (l : list N) : list N := fold_left (fun s x => insertN x s) l [].
(** The entity of a handle; an unknown handle gives an error code, on which the code asserts. *)
Fixpoint lookup {A} (h : N) (l : list (N * A)) : option A :=
  match l with [] => None | (k, a) :: t => if h =? k then Some a else lookup h t end.

Definition sides (t : q4 N) : list (q3 N) :=
  [Q3 (r0 t) (r1 t) (r3 t); Q3 (r1 t) (r2 t) (r3 t); Q3 (r0 t) (r3 t) (r2 t); Q3 (r0 t) (r2 t) (r1 t)].
Definition hasAll (l m : list N) : bool := forallb (fun x => existsb (N.eqb x) m) l.
Definition findTri (s : q3 N) (tris : list (N * q3 N)) : option N :=
  option_map fst (find (fun e => hasAll (q3l s) (q3l (snd e)) && hasAll (q3l (snd e)) (q3l s)) tris).

(** resize and reading back the first four, three entries; the asserts on the sizes of local ranges
    (MoabToSerialMesh.cc:129, 140, 184, 199). *)
Definition toQ4 {A} (l : list A) : option (q4 A) := match l with [a; b; c; d] => Some (Q4 a b c d) | _ => None end.
Definition toQ3 {A} (l : list A) : option (q3 A) := match l with [a; b; c] => Some (Q3 a b c) | _ => None end.

(** std::map from the handles of a Range to positions (MoabToSerialMesh.cc:107-116). *)
Definition posMap (range : list N) : list (N * N) := combine range (map N.of_nat (seq 0 (length range))).

Section Moab.
  Context (alloc : list N -> N).
  Context {T : Type} (A : arith T) (bits : N -> T).

  (** get_adjacencies(cell, FACE_DIMENSION, CREATE_MISSING): one side, then all four. *)
  Definition adjSide (st : mdb * list N) (s : q3 N) : mdb * list N :=
    let '(db, fs) := st in
    match findTri s (mb_tri db) with
    | Some h => (db, insertN h fs)
    | None => let h := alloc (map fst (mb_tri db)) in
              (mkMdb (mb_vert db) (mb_tri db ++ [(h, s)]) (mb_tet db), insertN h fs)
    end.
  Definition adjFaces (db : mdb) (cellHandle : N) : option (mdb * list N) :=
    let* t := lookup cellHandle (mb_tet db) in Some (fold_left adjSide (sides t) (db, [])).
  (** get_adjacencies(face, CELL_DIMENSION). *)
  Definition adjCells (db : mdb) (s : q3 N) : list N :=
    toRange (map fst (filter (fun e => hasAll (q3l s) (q4l (snd e))) (mb_tet db))).

  (** MoabToSerialMesh.cc:228-245 moabCreateAllFaces. *)
  Definition moabCreateAllFaces (db : mdb) : option mdb :=
    foldM (fun db h => option_map fst (adjFaces db h)) (toRange (map fst (mb_tet db))) db.

  (** 147-170: the centroid, and the material. *)
  Definition centroid (pts : list (q3 N)) : q3 T :=
    let sum k := fold_left (fun s p => aadd A s (bits (k p))) pts (azero A) in
    let div x := adiv A x (alit A (Z.of_nat (length pts))) in
    Q3 (div (sum t0)) (div (sum t1)) (div (sum t2)).
  Definition between (x : T) : bool := agt A x (alit A 25) && agt A (alit A 75) x.
  Definition materialIndex (nested : bool) (pts : list (q3 N)) : N :=
    let c := centroid pts in
    if nested && (between (t0 c) && between (t1 c) && between (t2 c)) then 2 else 1.

  (** 120-171: body of the cell loop. *)
  Definition cellData (nested : bool) (faceMap nodeMap : list (N * N)) (st : mdb * list scell) (cellHandle : N) : option (mdb * list scell) :=
    let '(db, cells) := st in
    let* r := adjFaces db cellHandle in
    let '(db, localFaceRange) := r in
    let* fs := mapM (fun h => findN h faceMap) localFaceRange in
    let* boundingFaces := toQ4 fs in
    let* t := lookup cellHandle (mb_tet db) in
    let localNodeRange := toRange (q4l t) in
    let* ns := mapM (fun h => findN h nodeMap) localNodeRange in
    let* boundingNodes := toQ4 ns in
    let* pts := mapM (fun h => lookup h (mb_vert db)) localNodeRange in
    Some (db, cells ++ [mkScell boundingFaces boundingNodes (materialIndex nested pts)]).

  (** 175-205: body of the face loop. *)
  Definition faceData (db : mdb) (cellMap nodeMap : list (N * N)) (faceHandle : N) : option sface :=
    let* s := lookup faceHandle (mb_tri db) in
    let* cs := mapM (fun h => findN h cellMap) (adjCells db s) in
    let* boundingCells := match cs with [a] => Some (Q2 a INVALID) | [a; b] => Some (Q2 a b) | _ => None end in
    let* ns := mapM (fun h => findN h nodeMap) (toRange (q3l s)) in
    let* boundingNodes := toQ3 ns in
    Some (mkSface boundingCells boundingNodes).

  (** 78-222 createSerialMesh.  Name and version are set when the mesh is written. *)
  Definition createSerialMesh (name0 : bytes) (version0 : N) (db : mdb) (nested : bool) : option smesh :=
    let cellRange := toRange (map fst (mb_tet db)) in
    let faceRange := toRange (map fst (mb_tri db)) in
    let nodeRange := toRange (map fst (mb_vert db)) in
    let len l := N.of_nat (length (l : list N)) in
    let cellMap := posMap cellRange in
    let faceMap := posMap faceRange in
    let nodeMap := posMap nodeRange in
    let* r := foldM (cellData nested faceMap nodeMap) cellRange (db, []) in
    let '(db, cells) := r in
    let* faces := mapM (faceData db cellMap nodeMap) faceRange in
    let* nodes := mapM (fun h => option_map mkSnode (lookup h (mb_vert db))) nodeRange in
    Some (mkSmesh name0 version0 (len cellRange) (len faceRange) (len nodeRange) cells faces nodes).

  (** 282-313: menu choice, conversion and output; [Some None] is "exiting without processing mesh". *)
  Definition moabToSerialMesh (name0 : bytes) (version0 : N) (menuChoice : Z) (db : mdb) : option (option bytes) :=
    if ((menuChoice =? 1) || (menuChoice =? 2))%Z then
      let* db := moabCreateAllFaces db in
      let* mesh := createSerialMesh name0 version0 db (menuChoice =? 2)%Z in
      let* w := serialWrite mesh in
      Some (Some (fst w))
    else Some None.
End Moab.

(** ---- the other way ---- *)
Section Export.
  Context (alloc : list N -> N).

  (** create_vertex. *)
  Definition createVertex (st : list (N * q3 N) * list N) (p : q3 N) : list (N * q3 N) * list N :=
    let '(verts, hs) := st in
    let h := alloc (map fst verts) in (verts ++ [(h, p)], hs ++ [h]).
  (** SerialMeshToMoab.cc:61-73, ParallelMeshToMoab.cc:65-78: body of the cell loop; [pts] are the
      coordinates of boundingNodes, the second component of the state is cellHandles. *)
  Definition createTet (st : mdb * list N) (pts : q4 (q3 N)) : option (mdb * list N) :=
    let '(db, cellHandles) := st in
    let '(verts, hs) := fold_left createVertex (q4l pts) (mb_vert db, []) in
    let* vrtxHandles := toQ4 hs in
    let h := alloc (map fst (mb_tet db)) in
    Some (mkMdb verts (mb_tri db) (mb_tet db ++ [(h, vrtxHandles)]), cellHandles ++ [h]).
  Definition noMesh : mdb := mkMdb [] [] [].

  (** SerialMeshToMoab.cc:53-79 createMoabMesh: the database, and the handles in the mesh set. *)
  Definition serialToMoab (sm : smesh) : option (mdb * list N) :=
    foldM (fun st cell =>
      let* sc := nthN (sm_cells sm) cell in
      let* pts := mapM (fun n => option_map sn_coords (nthN (sm_nodes sm) n)) (q4l (sc_nodes sc)) in
      let* pts := toQ4 pts in createTet st pts)
      (map N.of_nat (seq 0 (N.to_nat (sm_numCells sm)))) (noMesh, []).
  (** ParallelMeshToMoab.cc:55-84 createMoabMesh, for one partition. *)
  Definition partitionToMoab (P : partition) (db : mdb) : option (mdb * list N) :=
    foldM (fun st cell =>
      let* pc := nthN (pt_cells P) cell in
      let* pts := mapM (fun n => option_map pn_coords (nthN (pt_nodes P) n)) (q4l (pc_nodes pc)) in
      let* pts := toQ4 pts in createTet st pts)
      (map N.of_nat (seq 0 (N.to_nat (pt_numCells P)))) (db, []).
End Export.

(** inputFile.substr(length - 6) == suffix, and inputFile.substr(0, length - 6); length is an int, and
    substr from a negative position, converted to size_t, throws. *)
Definition stripSuffix (suffix name : list N) : option (list N) :=
  if (length name <? 6)%nat then None
  else if list_eq_dec N.eq_dec (skipn (length name - 6) name) suffix then Some (firstn (length name - 6) name) else None.
(** SerialMeshToMoab.cc:85-90 getOutputFile. *)
Definition getOutputFile (name : list N) : option (list N) :=
  option_map (fun p => p ++ str ".vtk") (stripSuffix (str ".smesh") name).
(** ParallelMeshToMoab.cc:90-95 getFilePrefix. *)
Definition getFilePrefix (name : list N) : option (list N) := stripSuffix (str ".pmesh") name.
(** std::to_string of an unsigned integer. *)
Fixpoint uintChars (d : Decimal.uint) : list N :=
  match d with
  | Decimal.Nil => [] | Decimal.D0 d => 48 :: uintChars d | Decimal.D1 d => 49 :: uintChars d | Decimal.D2 d => 50 :: uintChars d
  | Decimal.D3 d => 51 :: uintChars d | Decimal.D4 d => 52 :: uintChars d | Decimal.D5 d => 53 :: uintChars d
  | Decimal.D6 d => 54 :: uintChars d | Decimal.D7 d => 55 :: uintChars d | Decimal.D8 d => 56 :: uintChars d | Decimal.D9 d => 57 :: uintChars d
  end.
Definition toString (n : N) : list N := uintChars (N.to_uint n).
(** ParallelMeshToMoab.cc:157-160. *)
Definition partFile (prefix : list N) (part : N) : list N := prefix ++ str "-" ++ toString part ++ str "p.vtk".
(** 101-112 writeVisitFile: name and contents. *)
Definition visitFile (prefix : list N) (filenames : list (list N)) : list N * list N :=
  (prefix ++ str ".visit", str "!NBLOCKS " ++ toString (N.of_nat (length filenames)) ++ [10] ++ flat_map (fun f => f ++ [10]) filenames).

(** 141-170: the loop over partitions and the .visit file.  Each step gives the name of the file written
    and the handles in its mesh set; one database is used for all. *)
Definition parallelToMoab (alloc : list N -> N) (name : list N) (m : pmesh) : option (mdb * list (list N * list N) * (list N * list N)) :=
  let* prefix := getFilePrefix name in
  let* r := foldM (fun st part =>
      let '(db, files) := (st : mdb * list (list N * list N)) in
      let* P := nthN (pm_parts m) part in
      let* r := partitionToMoab alloc P db in
      Some (fst r, files ++ [(partFile prefix part, snd r)]))
    (map N.of_nat (seq 0 (N.to_nat (pm_numPartitions m)))) (noMesh, []) in
  Some (r, visitFile prefix (map fst (snd r))).
