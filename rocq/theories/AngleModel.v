(** Distribution of angles over threads (angle groups), and chunking of sorted cells. *)
From Verif Require Import Prelude.

(** src/GraphTraverser.cc:151-176 angleGroupIndex, loop at 160-170.
    [fuel] counts the remaining iterations of angleGroup = group .. nThreads-1;
    falling out of the loop is the failing Assert(false) of line 174. *)
Fixpoint angleGroupLoop (fuel group lowIndex chunkSize numBigger angle : nat) : option nat :=
  match fuel with
  | O => None
  | S fuel' =>
      let next := lowIndex + chunkSize in
      let next := if group <? numBigger then S next else next in
      if angle <? next then Some group
      else angleGroupLoop fuel' (S group) next chunkSize numBigger angle
  end.

Definition angleGroupIndex (nAngles nThreads angle : nat) : option nat :=
  angleGroupLoop nThreads 0 0 (nAngles / nThreads) (nAngles mod nThreads) angle.

(** util/PartitionColumns.cc:75-87 splitIntoChunks, and the identical loop
    src/Sweeper.cc:327-335 computing angleBdryIndices. *)
Fixpoint chunkLoop (fuel i cur size numChunks : nat) : list nat :=
  match fuel with
  | O => []
  | S fuel' =>
      let next := cur + size / numChunks in
      let next := if i <? size mod numChunks then S next else next in
      next :: chunkLoop fuel' (S i) next size numChunks
  end.

Definition splitIntoChunks (size numChunks : nat) : list nat :=
  0 :: chunkLoop numChunks 0 0 size numChunks.

(** src/Sweeper.cc:339-345: the angles given to the schedule of one angle group. *)
Definition sweeperAngles (nAngles nGroups group : nat) : list nat :=
  let bdry := splitIntoChunks nAngles nGroups in
  let lo := nth group bdry 0 in
  let numAngles := nth (S group) bdry 0 - lo in
  map (fun angle => angle + lo) (seq 0 numAngles).
