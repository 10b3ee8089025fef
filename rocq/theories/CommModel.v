(** src/CommSides.cc: exchange of partition-boundary data for the block methods.

    Simplifications:
    - Indices are [nat]; BOUNDARY_FACE and BAD_RANK are [None]; a packet is (global side, angle, data), see
      PacketModel for the bytes; data is the block of one face.
    - MPI: the one message of each (source, destination).  A receive that is posted for a message that is
      never sent waits for ever; a message longer than the posted buffer is an error; a message nobody posts
      a receive for stays pending (and would be taken by the next call): [Mismatch].
    - MPI_Waitany returns the posted receives in any order. *)
From Verif Require Import Prelude MeshModel TraverseModel.

Section Comm.
  Context {V D : Type}.
  Variables (nAngles : nat) (M : nat -> rmesh) (getData : nat -> nat -> nat -> nat -> V -> D).  (* rank cell face angle value *)
  Variable zeroD : D.                             (* what a zero-filled buffer contains *)

  (** 52-67: the same loop as in GraphTraverser.cc. *)
  Definition commAdjRanks (r : nat) : list nat := adjRanks M r.
  (** 80-100: the loops over cell, face and angle; true if the packet is sent, false if it is received. *)
  Definition metaOf (r p : nat) (cf : nat * nat) : list (nat * nat * nat * bool) :=     (* cell face angle *)
    match rm_adjRank (M r) (fst cf) (snd cf) with
    | Some q => if q =? p then map (fun a => (fst cf, snd cf, a, rm_out (M r) a (fst cf) (snd cf))) (seq 0 nAngles) else []
    | None => []
    end.
  Definition meta (r p : nat) : list (nat * nat * nat * bool) := flat_map (metaOf r p) (list_prod (seq 0 (rm_nCells (M r))) (seq 0 4)).
  Definition sendMetaData (r p : nat) : list (nat * nat * nat * bool) := filter (fun m => snd m) (meta r p).
  Definition numSendPackets (r p : nat) : nat := length (sendMetaData r p).
  Definition numRecvPackets (r p : nat) : nat := length (filter (fun m => negb (snd m)) (meta r p)).

  (** 163-202: the message rank [r] sends to rank [p]; empty if none is sent. *)
  Definition packetOf (psi : nat -> nat -> nat -> V) (r : nat) (m : nat * nat * nat * bool) : packet D :=
    let '(c, f, a, _) := m in (rm_lgSide (M r) (rm_side (M r) c f), a, getData r c f a (psi r c a)).
  Definition message (psi : nat -> nat -> nat -> V) (r p : nat) : list (packet D) :=
    if existsb (Nat.eqb p) (commAdjRanks r) then map (packetOf psi r) (sendMetaData r p) else [].

  (** 137-160, 205-213: what the buffer for rank [p] holds when the receive has completed. *)
  Inductive arrival := Nothing | Packets (l : list (packet D)) | Hang | Mismatch.
  Definition arrives (psi : nat -> nat -> nat -> V) (r p : nat) : arrival :=
    match numRecvPackets r p, message psi p r with
    | 0, [] => Nothing
    | 0, _ => Mismatch
    | _, [] => Hang
    | n, m => if length m <=? n then Packets (m ++ repeat (0%N, 0, zeroD) (n - length m)) else Mismatch
    end.
  (** 216-234: store the packets of a buffer. [None]: getGLSide of an unknown side. *)
  Definition storePacket (r : nat) (bnd : option (nat -> nat -> D)) (m : packet D) : option (nat -> nat -> D) :=
    let* b := bnd in
    let '(g, a, d) := m in
    let* side := rm_glSide (M r) g in
    Some (fupd2 b side a d).                       (* psiBound by side and angle *)
  Definition storeFrom (psi : nat -> nat -> nat -> V) (r : nat) (bnd : option (nat -> nat -> D)) (p : nat) : option (nat -> nat -> D) :=
    match arrives psi r p with
    | Packets l => fold_left (storePacket r) l bnd
    | _ => None
    end.
  (** 119-245 commSides on rank [r]; [order]: in which order MPI_Waitany returns the posted receives. *)
  Definition posted (r : nat) : list nat := filter (fun p => negb (numRecvPackets r p =? 0)) (commAdjRanks r).
  Definition commSides (psi : nat -> nat -> nat -> V) (r : nat) (order : list nat) (bnd : nat -> nat -> D) : option (nat -> nat -> D) :=
    fold_left (storeFrom psi r) order (Some bnd).
End Comm.
