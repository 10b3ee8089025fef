(** The programs as commands on files: util/PartitionColumns.cc:180-227, util/PartitionMetis.cc:121-163, util/RefineSerialMesh.cc:519-560 and
    src/Main.cc:186-359 with their arguments. What they print is left out (printMeshData only prints).  A file is opened, written and
    closed in one step; a program that stops in a failed check, or whose behaviour is undefined, has no result. *)
From Verif Require Import Prelude Bytes LayoutModel PsiFileModel DeckModel MeshModel CreateModel GeometryModel ColumnsModel MetisModel GridModel.
Local Open Scope N_scope.

Definition files := chars -> option bytes.
(** fopen with "wb"; src/Comm.cc:314-338 openFileForWrite, which deletes a file that is there. *)
Definition put (fs : files) (name : chars) (b : bytes) : files := fun n => if list_eq_dec N.eq_dec n name then Some b else fs n.

(** atoi of the C library: white space, a sign, digits; undefined if the value is not an int. *)
Definition isSpace (c : N) : bool := (c =? 32) || (9 <=? c) && (c <=? 13).
Definition isDigit (c : N) : bool := (48 <=? c) && (c <=? 57).
Fixpoint skipSpace (s : chars) : chars := match s with c :: s' => if isSpace c then skipSpace s' else s | [] => [] end.
Fixpoint digits (acc : Z) (s : chars) : Z := match s with c :: s' => if isDigit c then digits (10 * acc + Z.of_N (c - 48)) s' else acc | [] => acc end.
Definition atoi (s : chars) : option Z :=
  let v := match skipSpace s with
           | c :: s' => if c =? 45 then (- digits 0 s')%Z else if c =? 43 then digits 0 s' else digits 0 (c :: s')
           | [] => 0%Z
           end in
  if ((- 2 ^ 31 <=? v) && (v <? 2 ^ 31))%Z then Some v else None.

Section Tools.
  Context {T : Type}.
  (** [sortX], [sortY]: std::sort; [w], [metis]: see MetisModel.v. *)
  Variables (A : arith T) (dec : N -> T) (sortX sortY : list (centroid T) -> list (centroid T)) (w : N) (metis : Z -> list Z -> list Z -> Z -> bool * list Z).

  (** util/PartitionColumns.cc:124-139: the coordinates of a node. *)
  Definition nodeX (sm : smesh) (v : N) : option T := let* n := nthN (sm_nodes sm) v in Some (dec (t0 (sn_coords n))).
  Definition nodeY (sm : smesh) (v : N) : option T := let* n := nthN (sm_nodes sm) v in Some (dec (t1 (sn_coords n))).
  Definition less (x y : T) : bool := agt A y x.
  (** util/PartitionColumns.cc:180-227.  The product of the two numbers is an int. *)
  Definition columnsMain (argv : list chars) (fs : files) : option files :=
    match argv with
    | [_; x; y; inputFile; outputFile] =>
        let* nx := atoi x in let* ny := atoi y in
        if (nx <=? 0)%Z || (ny <=? 0)%Z || (2 ^ 31 <=? nx * ny)%Z then None else
        let* file := fs inputFile in
        let* sm := serialRead file in
        let* pv := partitionColumns (azero A) (aadd A) (fun s => adiv A s (alit A 4)) sortX sortY (nodeX sm) (nodeY sm) (map sc_nodes (sm_cells sm)) (Z.to_nat nx) (Z.to_nat ny) in
        let* m := createFromSerialMesh sm (map N.of_nat pv) (Z.to_nat (nx * ny)) in
        let* r := parallelWrite m in
        Some (put fs outputFile (fst r))
    | _ => Some fs
    end.
  (** util/PartitionMetis.cc:121-163. *)
  Definition metisMain (argv : list chars) (fs : files) : option files :=
    match argv with
    | [_; n; inputFile; outputFile] =>
        let* np := atoi n in
        if (np <=? 0)%Z then None else
        let* file := fs inputFile in
        let* sm := serialRead file in
        let* pv := partitionMetis w metis (Z.to_N np) sm (sm_numCells sm) in
        let* m := createFromSerialMesh sm pv (Z.to_nat np) in
        let* r := parallelWrite m in
        Some (put fs outputFile (fst r))
    | _ => Some fs
    end.
  (** util/RefineSerialMesh.cc:519-560; [name0], [version0]: the members of refinedMesh that the refinement does not set. *)
  Definition refineMain (name0 : list N) (version0 : N) (argv : list chars) (fs : files) : option files :=
    match argv with
    | [_; inputFile; outputFile] =>
        let* file := fs inputFile in
        let* coarse := serialRead file in
        let* refined := refineMeshD name0 version0 coarse in
        let* r := serialWrite refined in
        Some (put fs outputFile (fst r))
    | _ => Some fs
    end.
End Tools.

(** src/Main.cc:212-219, 255, 349-350 around [program], which gets the name and contents of the deck and the contents of the mesh file, and gives a
    number of iterations and the output file if there is one. *)
Definition sweepMain (program : chars -> chars -> bytes -> N -> option (chars * file) -> Prop) (argv : list chars) (fs : files) (iters : N) (fs' : files) : Prop :=
  match argv with
  | _ :: meshName :: deckName :: _ => exists deck mesh out,
      fs deckName = Some deck /\ fs meshName = Some mesh /\ program deckName deck mesh iters out /\
      match out with
      | Some (name, f) => exists b, (forall p, f p = nth_error b (N.to_nat p)) /\ fs' = put fs name b
      | None => fs' = fs
      end
  | _ => iters = 0 /\ fs' = fs
  end.
