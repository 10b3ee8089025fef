(** The graph of a mesh in compressed form. *)
From Verif Require Import Prelude Bytes MeshModel CreateSpec.
Local Open Scope N_scope.

(** Entries from position [b] up to, but not including, position [e]. *)
Definition slice {A} (l : list A) (b e : nat) : list A := firstn (e - b) (skipn b l).

(** The cells a face lists. *)
Definition faceCells (sm : smesh) (f : N) : list N :=
  match SM_face sm f with Some sf => q2l (sf_cells sf) | None => [] end.

(** How many faces of cell [c] also list cell [d]. *)
Definition shared (sm : smesh) (c d : N) : nat :=
  match SM_cell sm c with
  | Some sc => length (filter (fun f => existsb (N.eqb d) (faceCells sm f)) (q4l (sc_faces sc)))
  | None => 0
  end.

(** [xadj], [adj] is the compressed adjacency of the cells: one entry for every face shared with
    another cell, nothing else. *)
Record cell_graph (sm : smesh) (xadj adj : list Z) : Prop := {
  cg_len : length xadj = S (length (sm_cells sm));
  cg_zero : nth 0 xadj (-1)%Z = 0%Z;
  cg_mono : forall c, (c < length (sm_cells sm))%nat -> (nth c xadj (-1) <= nth (S c) xadj (-1))%Z;
  cg_fits : (nth (length (sm_cells sm)) xadj (-1) <= Z.of_nat (length adj))%Z;
  cg_range : forall c x, (c < length (sm_cells sm))%nat ->
    In x (slice adj (Z.to_nat (nth c xadj (-1)%Z)) (Z.to_nat (nth (S c) xadj (-1)%Z))) ->
    exists d, x = Z.of_nat d /\ (d < length (sm_cells sm))%nat /\ d <> c;
  cg_edges : forall c d, (c < length (sm_cells sm))%nat -> (d < length (sm_cells sm))%nat -> c <> d ->
    count_occ Z.eq_dec (slice adj (Z.to_nat (nth c xadj (-1)%Z)) (Z.to_nat (nth (S c) xadj (-1)%Z))) (Z.of_nat d) =
    shared sm (N.of_nat c) (N.of_nat d)
}.

(** What METIS promises for such a graph: if it reports success every vertex has a part number. *)
Definition metis_ok (metis : Z -> list Z -> list Z -> Z -> bool * list Z) : Prop :=
  forall sm xadj adj np part, cell_graph sm xadj adj -> (1 < np)%Z ->
    metis (Z.of_nat (length (sm_cells sm))) xadj adj np = (true, part) ->
    length part = length (sm_cells sm) /\ Forall (fun p => 0 <= p < np)%Z part.
