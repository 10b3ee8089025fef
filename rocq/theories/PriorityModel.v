(** src/Priorities.cc: b-levels and priorities, as data of the backward traversal without communication.
    UINT is 64-bit unsigned with wrap-around. What update reads through a face is tagged with [true] if it
    comes from a cell of this rank (BoundaryType_OutInt), [false] if from a side (BoundaryType_OutIntBdry). *)
From Verif Require Import Prelude Bytes MeshModel TraverseModel.
Local Open Scope N_scope.

Definition input := (bool * N)%type.
(** Priorities.cc:116-138 BLevelData::update. *)
Definition bLevelStep (b : N) (x : option input) : N :=
  match x with Some (_, adj) => N.max b (w64 (adj + 1)) | None => b end.
Definition bLevelUpdate (l : list (option input)) : N := fold_left bLevelStep l 0.
(** 61-105: getData is the b-level, getPriority is 1. *)
Definition bLevelData : tdata N input :=
  mkTdata N input (fun _ _ _ => bLevelUpdate) (fun _ _ _ _ v => (false, v)) (fun _ _ _ _ v => (true, v)) (fun _ _ _ => 1).
(** 226-253 NeighborPriorityData::update; [parentShift] is the int -1 or 0 converted to 64 bits. *)
Definition neighborStep (boundScale boundShift parentShift : N) (p : N) (x : option input) : N :=
  let priority := match x with
    | Some (false, side) => w64 (w64 (side * boundScale) + boundShift)
    | Some (true, adj) => w64 (adj + parentShift)
    | None => 0
    end in
  N.max p priority.
Definition neighborUpdate (boundScale boundShift parentShift : N) (l : list (option input)) : N :=
  fold_left (neighborStep boundScale boundShift parentShift) l 0.
Definition neighborData (boundScale boundShift parentShift : N) : tdata N input :=
  mkTdata N input (fun _ _ _ => neighborUpdate boundScale boundShift parentShift) (fun _ _ _ _ v => (false, v)) (fun _ _ _ _ v => (true, v)) (fun _ _ _ => 1).
Definition minusOne : N := UINT64_MAX.

(** 128-144, 284-294: the maximum of the b-levels of all updates (each pair once, C28), then over ranks (gmax). *)
Definition maxBLevel (nRanks nAngles : nat) (nCells : nat -> nat) (bLevels : nat -> nat -> nat -> N) : N :=
  fold_left (fun m x => let '(r, c, a) := x in N.max m (bLevels r c a))
    (flat_map (fun r => map (fun ca => (r, fst ca, snd ca)) (list_prod (seq 0 (nCells r)) (seq 0 nAngles))) (seq 0 nRanks)) 0.

(** 342-387 anglePriorities on one rank; [ncells] is the number of cells of all ranks. *)
Definition offset (k : nat) (nlevels ncells : N) : N := w64 (w64 (N.of_nat k * nlevels) * ncells).
(** 345-351. *)
Definition highPriority (nCells : nat) (p : nat -> nat -> N) (angle : nat) : N :=
  fold_left (fun h cell => N.max h (p cell angle)) (seq 0 nCells) 0.
(** 356-366: globally prioritized. *)
Definition globalAngles (nlevels ncells : N) (p : nat -> nat -> N) : nat -> nat -> N :=
  fun cell angle => w64 (p cell angle + offset angle nlevels ncells).
(** 367-385: locally prioritized; [sorted] is the sorted array of (highPriority, angle). *)
Fixpoint localLoop (numAngles order : nat) (nlevels ncells : N) (l : list (N * nat)) (p : nat -> nat -> N) : nat -> nat -> N :=
  match l with
  | [] => p
  | (_, angle) :: l =>
      let order := Datatypes.S order in
      localLoop numAngles order nlevels ncells l
        (fun c a => if (a =? angle)%nat then w64 (p c a + offset (numAngles - order) nlevels ncells) else p c a)
  end.
Definition localAngles (numAngles : nat) (nlevels ncells : N) (sorted : list (N * nat)) (p : nat -> nat -> N) : nat -> nat -> N :=
  localLoop numAngles 0 nlevels ncells (rev sorted) p.
(** 312-321 levelPriorities copies the b-levels; 300-309 randomPriorities takes rand(), at most RAND_MAX. *)
Definition RAND_MAX : N := 2147483647.
