(** src/SweepSchedule.cc:675-735: the constructor, from the options to the list of work.

    Simplifications: as in ScheduleModel. A rank has at least one cell and there is at least one angle (otherwise 501 reads
    element 0 of an empty table). The tables are (angle, cell); those of PriorityModel are (cell, angle). *)
From Coq Require Import Permutation Sorted.
From Verif Require Import Prelude MeshModel TraverseModel ScheduleModel PriorityModel.

Section Construct.
  Variables (nRanks : nat) (M : nat -> rmesh) (angles : list nat) (over under : nat -> nat -> nat -> nat -> bool).
  Notation nAng := (nAng angles).
  Notation table := (nat -> nat -> N).
  (** 501-507, the end of calcLevels: the largest level of all ranks. *)
  Definition calcNlevels (S : nat -> srank (X:=levels)) : N :=
    N.of_nat (list_max (flat_map (fun r => flat_map (fun a => map (fun c => fst (s_x (S r)) a c) (seq 0 (rm_nCells (M r)))) (seq 0 nAng)) (seq 0 nRanks))).
  (** 633-634. *)
  Definition totalCells : N := w64 (N.of_nat (list_sum (map (fun r => rm_nCells (M r)) (seq 0 nRanks)))).
  (** 701-725; 514-522 randomPriorities takes rand(); 528-536 levelPriorities copies the levels. Mat2 starts with zeros. *)
  Inductive intra (maxCells : N) (S : nat -> srank (X:=levels)) (r : nat) : N -> table -> Prop :=
  | intra_random p : (forall a c, p a c <= RAND_MAX)%N -> intra maxCells S r 0 p
  | intra_levels : intra maxCells S r 1 (fun a c => N.of_nat (fst (s_x (S r)) a c))
  | intra_breadth p : neighborPriorities M angles over under (fun a side => N.of_nat (snd (s_x (S r)) a side)) 1 0 0 maxCells r p -> intra maxCells S r 2 p
  | intra_depth p : neighborPriorities M angles over under (fun a side => N.of_nat (snd (s_x (S r)) a side)) 1 (calcNlevels S) minusOne maxCells r p -> intra maxCells S r 3 p
  | intra_strict p : neighborPriorities M angles over under (fun a side => N.of_nat (snd (s_x (S r)) a side)) (calcNlevels S) (calcNlevels S) minusOne maxCells r p -> intra maxCells S r 4 p
  | intra_other o : (4 < o)%N -> intra maxCells S r o (fun _ _ => 0%N).
  (** 622-668 anglePriorities; the pairs that are sorted hold the largest priority as a double (648-651). Their angles differ, so no two are equal. *)
  Definition pairBefore (x y : N * nat) : Prop := (fst x < fst y)%N \/ fst x = fst y /\ snd x < snd y.
  Inductive inter (nlevels : N) (r : nat) : N -> table -> table -> Prop :=
  | inter_global p : inter nlevels r 1 p (fun a c => globalAngles nlevels totalCells (fun c a => p a c) c a)
  | inter_local p sorted : Permutation sorted (map (fun a => (roundDouble (highPriority (rm_nCells (M r)) (fun c a => p a c) a), a)) (seq 0 nAng)) -> StronglySorted pairBefore sorted ->
      inter nlevels r 2 p (fun a c => localAngles nAng nlevels totalCells sorted (fun c a => p a c) c a)
  | inter_other o p : o <> 1%N -> o <> 2%N -> inter nlevels r o p p.
  (** 675-735. A priority reaches the queue of calcOrdering through a double (74-75). *)
  Definition constructed (maxCells intraP interP : N) (L : list (nat -> list (nat * nat))) : Prop :=
    exists (S : nat -> srank (X:=levels)) (p q prio : nat -> table),
      levelled nRanks M angles over under maxCells S /\
      (forall r, r < nRanks -> intra maxCells S r intraP (p r)) /\
      (forall r, r < nRanks -> inter (calcNlevels S) r interP (p r) (q r)) /\
      (forall r a c, r < nRanks -> a < nAng -> c < rm_nCells (M r) -> queuePriority (q r a c) = Some (prio r a c)) /\
      ordering nRanks M angles over under prio maxCells L.
End Construct.
