(** Messages between ranks: packets (global side, angle, face data).

    Simplification: byte counts are [nat] (the code asserts sizes below INT_MAX before
    sending); UINT header words are [N] below 2^64. *)
From Verif Require Import Prelude Bytes.

(** src/GraphTraverser.cc:107-118 createPacket.  memcpy of [dataSize] bytes from a shorter
    array is undefined. *)
Definition createPacket (globalSide angle : N) (dataSize : nat) (data : bytes) : option bytes :=
  if dataSize <=? length data
  then Some (u64_bytes globalSide ++ u64_bytes angle ++ firstn dataSize data)
  else None.

(** src/GraphTraverser.cc:91-98 splitPacket; the third component is the pointer to the
    remaining bytes of the whole buffer. *)
Definition splitPacket (packet : bytes) : option (N * N * bytes) :=
  if 16 <=? length packet
  then Some (le_word (firstn 8 packet), le_word (firstn 8 (skipn 8 packet)), skipn 16 packet)
  else None.

(** src/GraphTraverser.cc:638-640 append to the send buffer (vector insert at end), for a
    sequence of packets. *)
Fixpoint packAll (dataSize : nat) (buf : bytes) (ps : list (N * N * bytes)) : option bytes :=
  match ps with
  | [] => Some buf
  | (gs, a, d) :: ps' =>
      match createPacket gs a dataSize d with
      | None => None
      | Some p => packAll dataSize (buf ++ p) ps'
      end
  end.

(** src/GraphTraverser.cc:696-704 unpack loop (size check and one splitPacket per packet). *)
Definition unpackAll (dataSize : nat) (dataPackets : bytes) : option (list (N * N * bytes)) :=
  let packetSizeInBytes := 16 + dataSize in
  let numPackets := length dataPackets / packetSizeInBytes in
  if length dataPackets mod packetSizeInBytes =? 0 then
    mapM (fun i => splitPacket (skipn (i * packetSizeInBytes) dataPackets)) (seq 0 numPackets)
  else None.

(** src/SweepData.hh:81-84 getDataSizeInBytes. *)
Definition getDataSizeInBytes (nGroups : nat) : nat := nGroups * 3 * 8.

(** Mat2 index of localFaceData(fvrtx, group) with xlen = g_nVrtxPerFace (src/Mat.hh:170-176). *)
Definition lfd (fvrtx group : nat) : nat := group * 3 + fvrtx.

(** src/SweepData.hh:92-103 getData: fills the (reused) per-thread buffer and returns its bytes.
    [faceVal group fvrtx] stands for c_psi(group, getFaceToCellVrtx(cell, face, fvrtx), angle, cell). *)
Definition getData (nGroups : nat) (old : nat -> N) (faceVal : nat -> nat -> N) : bytes :=
  let filled := fold_left (fun b gf => fupd b (lfd (snd gf) (fst gf)) (faceVal (fst gf) (snd gf)))
                          (list_prod (seq 0 nGroups) (seq 0 3)) old in
  words_bytes (map filled (seq 0 (nGroups * 3))).

(** PsiBoundData as a four-index array (group, face vertex, angle, side); see C01. *)
Definition bound4 := nat -> nat -> N -> N -> N.
Definition bound_set (b : bound4) (g f : nat) (a s : N) (x : N) : bound4 :=
  fun g' f' a' s' =>
    if (g' =? g) && (f' =? f) && (a' =? a)%N && (s' =? s)%N then x else b g' f' a' s'.

(** src/SweepData.hh:111-120 setSideData. *)
Definition setSideData (nGroups : nat) (b : bound4) (side angle : N) (data : bytes) : option bound4 :=
  match fread_words (N.of_nat (nGroups * 3)) data with
  | None => None
  | Some (ws, _) =>
      Some (fold_left (fun b fg => bound_set b (snd fg) (fst fg) angle side (nth (lfd (fst fg) (snd fg)) ws 0%N))
                      (list_prod (seq 0 3) (seq 0 nGroups)) b)
  end.
