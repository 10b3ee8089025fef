(** util/PartitionColumns.cc: splitting a mesh into columns. *)
From Verif Require Import Prelude MeshModel.

(** util/PartitionColumns.cc:75-87 splitIntoChunks (sizes below 2^64: no wrap).
    [chunkLoop] runs the loop from index [i] with [k] iterations left and chunkIndices[i] = cur. *)
Fixpoint chunkLoop (size numChunks i k cur : nat) : list nat :=
  match k with
  | 0 => [cur]
  | S k' => cur :: chunkLoop size numChunks (S i) k'
                    (cur + size / numChunks + (if i <? size mod numChunks then 1 else 0))
  end.
Definition splitIntoChunks (size numChunks : nat) : list nat := chunkLoop size numChunks 0 numChunks 0.

Section Columns.
  (** Coordinates: an arbitrary type with the operations of [double] the code uses (lines 124-139:
      sum of four coordinates divided by four) and the comparison of lines 93-105. *)
  Context {T : Type} (zero : T) (add : T -> T -> T) (quarter : T -> T) (ltb : T -> T -> bool).
  (** Lines 59-63; coord[2] is not used. *)
  Record centroid := mkCentroid { ct_cell : nat; ct_x : T; ct_y : T }.
  Definition compareX (a b : centroid) : bool := ltb (ct_x a) (ct_x b).
  Definition compareY (a b : centroid) : bool := ltb (ct_y a) (ct_y b).
  (** std::sort, as the two calls of lines 144 and 154; an arbitrary function here. *)
  Context (sortX sortY : list centroid -> list centroid).

  (** Lines 122-141.  [node v] = coordinates (x,y) of node v. *)
  Definition mean4 (f : N -> option T) (q : q4 N) : option T :=
    let* a := f (r0 q) in let* b := f (r1 q) in let* c := f (r2 q) in let* d := f (r3 q) in
    Some (quarter (add (add (add (add zero a) b) c) d)).
  Definition centroidOf (nodeX nodeY : N -> option T) (cells : list (q4 N)) (cell : nat) : option centroid :=
    let* nodes := nth_error cells cell in
    let* x := mean4 nodeX nodes in
    let* y := mean4 nodeY nodes in
    Some (mkCentroid cell x y).

  (** Lines 150-156: sort each x chunk by y, in place. *)
  Definition sortRange (b e : nat) (l : list centroid) : list centroid :=
    firstn b l ++ sortY (firstn (e - b) (skipn b l)) ++ skipn e l.
  Fixpoint sortColumns (chunksX : list nat) (l : list centroid) : list centroid :=
    match chunksX with
    | b :: ((e :: _) as rest) => sortColumns rest (sortRange b e l)
    | _ => l
    end.

  (** Lines 172-175: the k loop. *)
  Definition assignOne (cs : list centroid) (part : nat) (pv : option (list nat)) (idx : nat) : option (list nat) :=
    let* pv := pv in
    let* c := nth_error cs idx in
    if ct_cell c <? length pv then Some (firstn (ct_cell c) pv ++ part :: skipn (S (ct_cell c)) pv) else None.
  Definition assignBlock (cs : list centroid) (part begin num : nat) (pv : option (list nat)) : option (list nat) :=
    fold_left (fun pv k => assignOne cs part pv (begin + k)) (seq 0 num) pv.

  (** Lines 160-176: the i and j loops. *)
  Definition assignColumn (cs : list centroid) (cx : list nat) (numX numY i : nat) (pv : option (list nat)) : option (list nat) :=
    let* b := nth_error cx i in
    let* e := nth_error cx (S i) in
    let chunksY := splitIntoChunks (e - b) numY in
    fold_left (fun pv j =>
      let* c0 := nth_error chunksY j in
      let* c1 := nth_error chunksY (S j) in
      assignBlock cs (i * numY + j) (b + c0) (c1 - c0) pv) (seq 0 numY) pv.

  (** Lines 112-177 partitionMesh; the vector has numCells entries (main, line 216). *)
  Definition partitionColumns (nodeX nodeY : N -> option T) (cells : list (q4 N)) (numX numY : nat) : option (list nat) :=
    let* centroids := mapM (centroidOf nodeX nodeY cells) (seq 0 (length cells)) in
    let cx := splitIntoChunks (length centroids) numX in
    let cs := sortColumns cx (sortX centroids) in
    fold_left (fun pv i => assignColumn cs cx numX numY i pv) (seq 0 numX) (Some (repeat 0 (length cells))).
End Columns.
Arguments centroid T : clear implicits.
