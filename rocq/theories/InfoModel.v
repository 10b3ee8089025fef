(** The listings of meshes: src/SerialMesh.cc:55-112, src/ParallelMesh.cc:55-154, util/SerialMeshInfo.cc:52-90, util/ParallelMeshInfo.cc:50-120.
    What a program prints is the list of its characters. A program that stops in a failed check, or whose behaviour is undefined, has no result. *)
From Coq Require Import String.
From Verif Require Import Prelude Bytes DeckModel MeshModel CreateModel CommandModel.
Local Open Scope N_scope.

(** printf %lu: decimal digits without leading zeros. *)
Fixpoint putDigits (fuel : nat) (n : N) (acc : chars) : chars :=
  match fuel with
  | O => acc
  | S f => let acc' := (48 + n mod 10) :: acc in if n / 10 =? 0 then acc' else putDigits f (n / 10) acc'
  end.
Definition num (n : N) : chars := putDigits (S (N.to_nat (N.log2 n))) n [].
(** printf %s: up to the first zero byte; undefined if there is none in the array. *)
Fixpoint cstr (s : bytes) : option chars := match s with [] => None | c :: s' => if c =? 0 then Some [] else let* r := cstr s' in Some (c :: r) end.
Definition nl : chars := [10].
Definition sp : chars := [32].
(** for (uint64_t i = 0; i < n; i++), [i] being the first index. *)
Fixpoint printLoop (body : nat -> option chars) (i n : nat) : option chars :=
  match n with O => Some [] | S n' => let* a := body i in let* b := printLoop body (S i) n' in Some (a ++ b) end.
Definition num4 (q : q4 N) : chars := num (r0 q) ++ sp ++ num (r1 q) ++ sp ++ num (r2 q) ++ sp ++ num (r3 q).
Definition num3 (q : q3 N) : chars := num (t0 q) ++ sp ++ num (t1 q) ++ sp ++ num (t2 q).
Definition num2 (q : q2 N) : chars := num (p0 q) ++ sp ++ num (p1 q).

Section Print.
  (** [showf]: printf %f of the double with these bits. *)
  Variable showf : N -> chars.
  Definition coords (q : q3 N) : chars := str "(" ++ showf (t0 q) ++ str ", " ++ showf (t1 q) ++ str ", " ++ showf (t2 q) ++ str ")".

  (** src/SerialMesh.cc:75-89, 93-102, 106-111. *)
  Definition serialCell (m : smesh) (i : nat) : option chars :=
    let* c := nth_error (sm_cells m) i in
    Some (str "Cell " ++ num (N.of_nat i) ++ nl ++ str "   Faces " ++ num4 (sc_faces c) ++ nl ++ str "   Nodes " ++ num4 (sc_nodes c) ++ nl ++ str "   Material Index " ++ num (sc_mat c) ++ nl).
  Definition serialFace (m : smesh) (i : nat) : option chars :=
    let* f := nth_error (sm_faces m) i in
    Some (str "Face " ++ num (N.of_nat i) ++ nl ++ str "   Cells " ++ num2 (sf_cells f) ++ nl ++ str "   Nodes " ++ num3 (sf_nodes f) ++ nl).
  Definition serialNode (m : smesh) (i : nat) : option chars :=
    let* n := nth_error (sm_nodes m) i in
    Some (str "Node " ++ num (N.of_nat i) ++ str ": " ++ coords (sn_coords n) ++ nl).
  (** src/SerialMesh.cc:59-112. *)
  Definition serialPrint (verbose : bool) (m : smesh) : option chars :=
    let* name := cstr (sm_name m) in
    let head := str "Mesh Format Name: " ++ name ++ nl ++ str "Mesh Version: " ++ num (sm_version m) ++ nl ++ str "Num Cells: " ++ num (sm_numCells m) ++ nl ++
      str "Num Faces: " ++ num (sm_numFaces m) ++ nl ++ str "Num Nodes: " ++ num (sm_numNodes m) ++ nl in
    if negb verbose then Some head else
    let* a := printLoop (serialCell m) 0 (N.to_nat (sm_numCells m)) in
    let* b := printLoop (serialFace m) 0 (N.to_nat (sm_numFaces m)) in
    let* c := printLoop (serialNode m) 0 (N.to_nat (sm_numNodes m)) in
    Some (head ++ a ++ b ++ c).

  (** src/ParallelMesh.cc:88-90, 138-140. *)
  Definition boundaryName (b : N) : option chars :=
    if b =? MeshBoundary then Some (str "MeshBoundary") else if b =? PartitionBoundary then Some (str "PartitionBoundary") else if b =? NotBoundary then Some (str "NotBoundary") else None.
  (** src/ParallelMesh.cc:104-120, 124-141, 145-153. *)
  Definition partCell (p : partition) (i : nat) : option chars :=
    let* c := nth_error (pt_cells p) i in
    Some (str "   Cell " ++ num (N.of_nat i) ++ nl ++ str "      Faces " ++ num4 (pc_faces c) ++ nl ++ str "      Nodes " ++ num4 (pc_nodes c) ++ nl ++
      str "      globalID: " ++ num (pc_gid c) ++ nl ++ str "      materialIndex: " ++ num (pc_mat c) ++ nl).
  Definition partFace (p : partition) (i : nat) : option chars :=
    let* f := nth_error (pt_faces p) i in
    let* b := boundaryName (pf_bdry f) in
    Some (str "   Face " ++ num (N.of_nat i) ++ nl ++ str "      Cells " ++ num2 (pf_cells f) ++ nl ++ str "      Nodes " ++ num3 (pf_nodes f) ++ nl ++
      str "      globalID: " ++ num (pf_gid f) ++ nl ++ str "      partition: " ++ num2 (pf_part f) ++ nl ++ str "      boundaryType: " ++ b ++ nl).
  Definition partNode (p : partition) (i : nat) : option chars :=
    let* n := nth_error (pt_nodes p) i in
    Some (str "   Node " ++ num (N.of_nat i) ++ nl ++ str "      coords: " ++ coords (pn_coords n) ++ nl ++ str "      globalID: " ++ num (pn_gid n) ++ nl).
  (** src/ParallelMesh.cc:85-154. *)
  Definition printPartitionData (verbose : bool) (p : partition) : option chars :=
    let head := str "   Num Cells: " ++ num (pt_numCells p) ++ nl ++ str "   Num Faces: " ++ num (pt_numFaces p) ++ nl ++ str "   Num Nodes: " ++ num (pt_numNodes p) ++ nl in
    if negb verbose then Some head else
    let* a := printLoop (partCell p) 0 (N.to_nat (pt_numCells p)) in
    let* b := printLoop (partFace p) 0 (N.to_nat (pt_numFaces p)) in
    let* c := printLoop (partNode p) 0 (N.to_nat (pt_numNodes p)) in
    Some (head ++ a ++ b ++ c).
  (** src/ParallelMesh.cc:73-76; util/ParallelMeshInfo.cc:103-109 prints the same two pieces. *)
  Definition printPart (verbose : bool) (part : nat -> option partition) (i : nat) : option chars :=
    let* p := part i in
    let* t := printPartitionData verbose p in
    Some (str "Partition " ++ num (N.of_nat i) ++ nl ++ t).
  (** src/ParallelMesh.cc:60-77. The number of offsets is one more than that of partitions. *)
  Definition parallelPrint (verbose : bool) (m : pmesh) : option chars :=
    let* name := cstr (pm_name m) in
    let* offs := printLoop (fun i => let* o := nth_error (pm_bytesOffset m) i in Some (str "   " ++ num o ++ nl)) 0 (N.to_nat (w64 (pm_numPartitions m + 1))) in
    let* parts := printLoop (printPart verbose (nth_error (pm_parts m))) 0 (N.to_nat (pm_numPartitions m)) in
    Some (str "Mesh Format Name: " ++ name ++ nl ++ str "Mesh Version: " ++ num (pm_version m) ++ nl ++ str "Num partitions " ++ num (pm_numPartitions m) ++ nl ++ str "Bytes Offset" ++ nl ++ offs ++ parts).

  (** The arguments of both programs: util/SerialMeshInfo.cc:64-77, util/ParallelMeshInfo.cc:72-87. *)
  Definition infoArgs (argv : list chars) : option (chars * bool) :=
    match argv with
    | [_; f] => Some (f, false)
    | [_; f; v] => if chars_eqb v (str "verbose") then Some (f, true) else None
    | _ => None
    end.
  (** util/SerialMeshInfo.cc:52-90. *)
  Definition serialInfo (argv : list chars) (fs : files) : option chars :=
    let head := str "--- SerialMeshInfo Utility ---" ++ nl in
    match infoArgs argv with
    | Some (f, verbose) =>
        let* file := fs f in
        let* m := serialRead file in
        let* t := serialPrint verbose m in
        Some (head ++ t ++ nl ++ nl ++ nl)
    | None => Some (head ++ str "Incorrect number of arguments" ++ nl ++ str "Usage: ./SerialMeshInfo.x <inputFile> (verbose)" ++ nl ++ nl ++ nl ++ nl)
    end.
  (** util/ParallelMeshInfo.cc:50-120 on [np] ranks: rank 0 reads everything, then every rank its part; a barrier after each rank keeps the order. *)
  Definition parallelInfo (np : nat) (argv : list chars) (fs : files) : option chars :=
    let head := str "--- ParallelMeshInfo Utility ---" ++ nl in
    match infoArgs argv with
    | Some (f, verbose) =>
        let* file := fs f in
        let* m := parallelRead file in
        let* t := parallelPrint verbose m in
        let* u := printLoop (printPart verbose (fun r => readInParallel file (N.of_nat np) (N.of_nat r))) 0 np in
        Some (head ++ str "Parallel mesh data read serially." ++ nl ++ t ++ nl ++ nl ++ nl ++ str "Parallel mesh data read in parallel." ++ nl ++ u ++ nl ++ nl ++ nl)
    | None => Some (head ++ str "Incorrect number of arguments" ++ nl ++ str "Usage: ./ParallelMeshInfo.x <inputFile> (verbose)" ++ nl ++ nl ++ nl ++ nl)
    end.
End Print.
