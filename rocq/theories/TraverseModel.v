(** src/GraphTraverser.cc: the parallel graph traversal, as a transition system of all ranks, their
    threads and the messages between them.

    Simplifications:
    - Indices are [nat]; BOUNDARY_FACE and BAD_RANK are [None].  Dependency counters and the number of
      pairs left are 64-bit unsigned with wrap-around.
    - Arrays indexed by the index of a neighbouring rank (c_adjRankIndexToRank) are functions of the rank.
    - A message payload is a list of packets (global side, angle, data); PacketModel has the bytes.
    - One iteration of a thread's loop is one step.  Threads of a rank share only what is indexed by
      angle, and the atomic counter (see C56).
    - std::priority_queue: pop returns any element of the largest priority.
    - MPI: one FIFO channel for each (source, destination, tag).  Isend appends; a receive takes the
      oldest message.  A Waitall on sends may return at any time (the library may buffer); steps that
      are possible even if it waits for all own messages to be received are marked strict.
    - Fields g_* are history variables that no step reads. *)
From Verif Require Import Prelude Bytes MeshModel AngleModel.

(** ** The mesh of one rank, as the traversal sees it (src/TychoMesh.hh:68-117) *)
Record rmesh := mkRmesh {
  rm_nCells : nat;
  rm_adjCell : nat -> nat -> option nat;
  rm_adjRank : nat -> nat -> option nat;
  rm_side : nat -> nat -> nat;
  rm_lgSide : nat -> N;
  rm_glSide : N -> option nat;
  rm_sideCell : nat -> nat;
  rm_out : nat -> nat -> nat -> bool  (* isOutgoing angle cell face; isIncoming is its negation *)
}.

(** GraphTraverser.hh:70-74. *)
Inductive direction := Forward | Backward.
(** GraphTraverser.cc:127-138 isIncoming. *)
Definition isIncoming (d : direction) (m : rmesh) (a c f : nat) : bool :=
  match d with Forward => negb (rm_out m a c f) | Backward => rm_out m a c f end.
(** GraphTraverser.cc:567-573 and 594-600. *)
Definition isOutgoingWrt (d : direction) (m : rmesh) (a c f : nat) : bool :=
  if rm_out m a c f then match d with Forward => true | Backward => false end
  else match d with Forward => false | Backward => true end.

(** ** TraverseData (GraphTraverser.hh:81-96)
    [td_update] computes the new value of a (cell, angle) from what it reads through its incoming faces:
    [td_read] of the value of the neighbour on the same rank, or the stored side data. *)
Record tdata (V D : Type) := mkTdata {
  td_update : nat -> nat -> nat -> list (option D) -> V;     (* rank cell angle, input of faces 0-3 *)
  td_getData : nat -> nat -> nat -> nat -> V -> D;           (* rank cell face angle value *)
  td_read : nat -> nat -> nat -> nat -> V -> D;              (* rank cell face angle neighbour's value *)
  td_priority : nat -> nat -> nat -> N                       (* rank cell angle *)
}.
Arguments td_update {V D}. Arguments td_getData {V D}. Arguments td_read {V D}. Arguments td_priority {V D}.

(** src/Global.hh MPIType. *)
Inductive mpiType := TychoTwoSided | CapsaicinTwoSided.
Definition UINT64_MAX : N := 18446744073709551615%N.
Definition INT_MAX : N := 2147483647%N.
Definition dec64 (n : N) : N := w64 (n + UINT64_MAX).
Definition fupd2 {X} (t : nat -> nat -> X) (i j : nat) (v : X) : nat -> nat -> X :=
  fun i' j' => if (i' =? i) && (j' =? j) then v else t i' j'.

Definition packet (D : Type) := (N * nat * D)%type.  (* global side, angle, data *)
Definition tuple := (nat * nat * N)%type.             (* Tuple, GraphTraverser.cc:62-82: cell, angle, priority *)

(** Where a rank is in traverse. *)
Inductive phase (D : Type) :=
| Work (steps : nat -> nat)                                   (* 521-645, per-thread stepsTaken *)
| Send (kill : bool) (todo : list nat)                        (* 326-363 *)
| Recv (kill : bool) (pend : list nat) (cur : option (nat * N)) (pk : list (packet D))   (* 367-397 *)
| WaitSends (kill : bool) (pk : list (packet D))              (* 400-405 *)
| CSend (todo : list nat)                                     (* 193-208 *)
| CWait                                                       (* 211-216 *)
| CProbe (todo : list nat) (pk : list (packet D))             (* 230-255 *)
| Failed                                                      (* an Assert or Insist *)
| Done.
Arguments Work {D}. Arguments Send {D}. Arguments Recv {D}. Arguments WaitSends {D}. Arguments CSend {D}.
Arguments CWait {D}. Arguments CProbe {D}. Arguments Failed {D}. Arguments Done {D}.

Record rst (V D : Type) := mkRst {
  r_nd : nat -> nat -> N;                         (* numDependencies(angle, cell) *)
  r_queue : nat -> list tuple;                    (* canCompute[thread] *)
  r_left : N;                                     (* numCellAnglePairsToCalculate *)
  r_buf : nat -> nat -> list (packet D);          (* sendBuffers(thread, rank) *)
  r_buf1 : nat -> list (packet D);                (* sendBuffers1[rank] *)
  r_dark : nat -> bool;                           (* commDark[rank] *)
  r_val : nat -> nat -> V;                        (* (cell, angle) *)
  r_bnd : nat -> nat -> D;                        (* (side, angle) *)
  r_ph : phase D;
  g_round : nat;                                  (* exchanges completed *)
  g_log : list (nat * nat)                        (* (cell, angle) in the order of update, latest first *)
}.
Arguments mkRst {V D}. Arguments r_nd {V D}. Arguments r_queue {V D}. Arguments r_left {V D}. Arguments r_buf {V D}.
Arguments r_buf1 {V D}. Arguments r_dark {V D}. Arguments r_val {V D}. Arguments r_bnd {V D}. Arguments r_ph {V D}.
Arguments g_round {V D}. Arguments g_log {V D}.

Section Traverse.
  Context {V D : Type}.
  Variables (dir : direction) (doComm : bool) (mpi : mpiType) (nAngles nThreads : nat) (maxCompute : nat) (psize : N).
  Variables (M : nat -> rmesh) (T : tdata V D).
  Notation rst := (rst V D). Notation packet := (packet D).

  (** ** The constructor (GraphTraverser.cc:416-459) *)
  (** 421-435: ranks across faces, in the order of first appearance. *)
  Definition adjRankStep (r : nat) (l : list nat) (cf : nat * nat) : list nat :=
    match rm_adjCell (M r) (fst cf) (snd cf), rm_adjRank (M r) (fst cf) (snd cf) with
    | None, Some q => if existsb (Nat.eqb q) l then l else l ++ [q]
    | _, _ => l
    end.
  Definition adjRanks (r : nat) : list nat := fold_left (adjRankStep r) (list_prod (seq 0 (rm_nCells (M r))) (seq 0 4)) [].
  (** 440-458: the faces whose data a pair waits for, counted. *)
  Definition isDep (r a c f : nat) : bool :=
    if doComm then isIncoming dir (M r) a c f && (match rm_adjRank (M r) c f with Some _ => true | None => false end)
    else isIncoming dir (M r) a c f && (match rm_adjCell (M r) c f with Some _ => true | None => false end).
  Definition initNumDependencies (r a c : nat) : N :=
    fold_left (fun n f => if isDep r a c f then N.succ n else n) (seq 0 4) 0%N.

  (** ** traverse, start (467-510) *)
  Definition push (r : nat) (q : nat -> list tuple) (t c a : nat) : nat -> list tuple :=
    fupd q t ((c, a, td_priority T r c a) :: q t).
  Definition initQueueStep (r : nat) (q : option (nat -> list tuple)) (ca : nat * nat) : option (nat -> list tuple) :=
    let* q := q in
    if N.eqb (initNumDependencies r (snd ca) (fst ca)) 0 then
      let* t := angleGroupIndex nAngles nThreads (snd ca) in Some (push r q t (fst ca) (snd ca))
    else Some q.
  Definition initQueue (r : nat) : option (nat -> list tuple) :=
    fold_left (initQueueStep r) (list_prod (seq 0 (rm_nCells (M r))) (seq 0 nAngles)) (Some (fun _ => [])).
  (** 518, 723-731: top of the while loop and what follows it. *)
  Definition nondark (r : nat) (dark : nat -> bool) : list nat := filter (fun q => negb (dark q)) (adjRanks r).
  Definition loopTest (r : nat) (left : N) (dark : nat -> bool) : phase D :=
    if N.eqb left 0 then
      match mpi with TychoTwoSided => if doComm then Send true (nondark r dark) else Done | CapsaicinTwoSided => Done end
    else Work (fun _ => 0).
  Definition initRank (r : nat) (val : nat -> nat -> V) (bnd : nat -> nat -> D) : option rst :=
    let left := w64 (N.of_nat nAngles * N.of_nat (rm_nCells (M r))) in
    let* q := initQueue r in
    Some (mkRst (initNumDependencies r) q left (fun _ _ => []) (fun _ => []) (fun _ => false) val bnd (loopTest r left (fun _ => false)) 0 []).

  (** ** One pair (521-645) *)
  (** What update reads through a face (e.g. Transport.cc:740-776, Priorities.cc:120-144). *)
  Definition readFace (r : nat) (val : nat -> nat -> V) (bnd : nat -> nat -> D) (c a f : nat) : option D :=
    if isIncoming dir (M r) a c f then
      match rm_adjCell (M r) c f with
      | Some c' => Some (td_read T r c f a (val c' a))
      | None => match rm_adjRank (M r) c f with Some _ => Some (bnd (rm_side (M r) c f) a) | None => None end
      end
    else None.
  (** 616-625 and 708-715: one dependency less, queue the pair when none is left. *)
  Definition release (r t : nat) (s : (nat -> nat -> N) * (nat -> list tuple)) (c a : nat) : (nat -> nat -> N) * (nat -> list tuple) :=
    let '(nd, q) := s in
    let nd := fupd2 nd a c (dec64 (nd a c)) in
    if N.eqb (nd a c) 0 then (nd, push r q t c a) else (nd, q).
  (** 609-641, one face. [None]: map::at fails. *)
  Definition childStep (r t c a : nat) (v : V) (s : option ((nat -> nat -> N) * (nat -> list tuple) * (nat -> nat -> list packet))) (f : nat)
    : option ((nat -> nat -> N) * (nat -> list tuple) * (nat -> nat -> list packet)) :=
    let* s := s in
    let '(nd, q, buf) := s in
    if isOutgoingWrt dir (M r) a c f then
      match rm_adjCell (M r) c f with
      | Some c' => Some (release r t (nd, q) c' a, buf)
      | None =>
          match rm_adjRank (M r) c f with
          | Some q' => if doComm then
              if existsb (Nat.eqb q') (adjRanks r) then
                let p := (rm_lgSide (M r) (rm_side (M r) c f), a, td_getData T r c f a v) in
                Some (nd, q, fupd2 buf t q' (buf t q' ++ [p]))
              else None
            else Some (nd, q, buf)
          | None => Some (nd, q, buf)
          end
      end
    else Some (nd, q, buf).
  Definition compute (r t : nat) (st : rst) (steps : nat -> nat) (c a : nat) (rest : list tuple) : rst :=
    let v := td_update T r c a (map (readFace r (r_val st) (r_bnd st) c a) (seq 0 4)) in
    match fold_left (childStep r t c a v) (seq 0 4) (Some (r_nd st, fupd (r_queue st) t rest, r_buf st)) with
    | Some (nd, q, buf) =>
        mkRst nd q (dec64 (r_left st)) buf (r_buf1 st) (r_dark st) (fupd2 (r_val st) c a v) (r_bnd st)
          (Work (fupd steps t (S (steps t)))) (g_round st) ((c, a) :: g_log st)
    | None =>
        mkRst (r_nd st) (r_queue st) (r_left st) (r_buf st) (r_buf1 st) (r_dark st) (r_val st) (r_bnd st) Failed (g_round st) (g_log st)
    end.

  (** ** After the parallel region *)
  Definition setPh (st : rst) (ph : phase D) : rst :=
    mkRst (r_nd st) (r_queue st) (r_left st) (r_buf st) (r_buf1 st) (r_dark st) (r_val st) (r_bnd st) ph (g_round st) (g_log st).
  (** 648-655. *)
  Definition merge (r : nat) (st : rst) : nat -> list packet :=
    fold_left (fun b tq => fupd b (snd tq) (b (snd tq) ++ r_buf st (fst tq) (snd tq)))
              (list_prod (seq 0 nThreads) (adjRanks r)) (r_buf1 st).
  (** 648-681: merge, then enter the exchange; without communication test the loop condition again. *)
  Definition endWork (r : nat) (st : rst) : rst :=
    let st := mkRst (r_nd st) (r_queue st) (r_left st) (r_buf st) (merge r st) (r_dark st) (r_val st) (r_bnd st) (r_ph st) (g_round st) (g_log st) in
    if doComm then
      match mpi with
      | TychoTwoSided => setPh st (Send false (nondark r (r_dark st)))
      | CapsaicinTwoSided => setPh st (CSend (adjRanks r))
      end
    else mkRst (r_nd st) (r_queue st) (r_left st) (r_buf st) (r_buf1 st) (r_dark st) (r_val st) (r_bnd st) (loopTest r (r_left st) (r_dark st)) (g_round st) (g_log st).
  (** 696-716, one packet. *)
  Definition unpackStep (r : nat) (st : option ((nat -> nat -> N) * (nat -> list tuple) * (nat -> nat -> D))) (p : packet)
    : option ((nat -> nat -> N) * (nat -> list tuple) * (nat -> nat -> D)) :=
    let* st := st in
    let '(nd, q, bnd) := st in
    let '(g, a, d) := p in
    let* side := rm_glSide (M r) g in
    let bnd := fupd2 bnd side a d in
    let* t := angleGroupIndex nAngles nThreads a in
    Some (release r t (nd, q) (rm_sideCell (M r) side) a, bnd).
  (** 685-717, then the loop condition. *)
  Definition endExchange (r : nat) (st : rst) (pk : list packet) : rst :=
    match fold_left (unpackStep r) pk (Some (r_nd st, r_queue st, r_bnd st)) with
    | Some (nd, q, bnd) =>
        mkRst nd q (r_left st) (fun _ _ => []) (fun _ => []) (r_dark st) (r_val st) bnd (loopTest r (r_left st) (r_dark st)) (S (g_round st)) (g_log st)
    | None => setPh st Failed
    end.

  (** ** The machine *)
  Record gst := mkGst {
    g_r : nat -> rst;
    ch0 : nat -> nat -> list N;                   (* sizes, source destination *)
    ch1 : nat -> nat -> list (list packet);       (* data *)
    g_sent : nat -> nat -> nat;                   (* history: exchanges source has posted to destination *)
    g_rcvd : nat -> nat -> nat                    (* history: exchanges destination has received from source; (source, destination) *)
  }.
  Definition setR (S : gst) (r : nat) (st : rst) : gst := mkGst (fupd (g_r S) r st) (ch0 S) (ch1 S) (g_sent S) (g_rcvd S).
  Definition bytesOf (l : list packet) : N := (N.of_nat (length l) * psize)%N.
  Definition payload (l : list packet) : list (list packet) := match l with [] => [] | _ => [l] end.
  Definition own_received (S : gst) (r : nat) : Prop := forall q, ch0 S r q = [] /\ ch1 S r q = [].

  Inductive label := LWork | LComm | LEager.
  (** One step of rank [r]. *)
  Inductive step (r : nat) (S : gst) : label -> gst -> Prop :=
  (** 525-538: thread [t] takes a pair of the largest priority. *)
  | step_work t steps c a p rest1 rest2 :
      r_ph (g_r S r) = Work steps -> t < nThreads -> steps t < maxCompute ->
      r_queue (g_r S r) t = rest1 ++ (c, a, p) :: rest2 ->
      (forall c' a' p', In (c', a', p') (r_queue (g_r S r) t) -> (p' <= p)%N) ->
      step r S LWork (setR S r (compute r t (g_r S r) steps c a (rest1 ++ rest2)))
  (** End of the parallel region: all threads have left their loop. *)
  | step_end steps :
      r_ph (g_r S r) = Work steps -> (forall t, t < nThreads -> r_queue (g_r S r) t = [] \/ maxCompute <= steps t) ->
      step r S LComm (setR S r (endWork r (g_r S r)))
  (** 326-363: post the size and the data (if any) to one neighbour. *)
  | step_send kill q todo :
      r_ph (g_r S r) = Send kill (q :: todo) ->
      let st := g_r S r in
      let size := if kill then UINT64_MAX else bytesOf (r_buf1 st q) in
      let data := N.ltb 0 size && negb (N.eqb size UINT64_MAX) in
      step r S LComm
        (if data && negb (N.ltb (bytesOf (r_buf1 st q)) INT_MAX) then setR S r (setPh st Failed) else
         mkGst (fupd (g_r S) r (setPh st (Send kill todo))) (fupd2 (ch0 S) r q (ch0 S r q ++ [size]))
               (if data then fupd2 (ch1 S) r q (ch1 S r q ++ [r_buf1 st q]) else ch1 S)
               (fupd2 (g_sent S) r q (Datatypes.S (g_sent S r q))) (g_rcvd S))
  | step_sent kill :
      r_ph (g_r S r) = Send kill [] ->
      step r S LComm (setR S r (setPh (g_r S r) (Recv kill (nondark r (r_dark (g_r S r))) None [])))
  (** 369-374 Waitany: the size from some neighbour has arrived; 391-395 mark a finished neighbour. *)
  | step_size kill q p1 p2 pk n sizes :
      r_ph (g_r S r) = Recv kill (p1 ++ q :: p2) None pk -> ch0 S q r = n :: sizes ->
      let st := g_r S r in
      let st := mkRst (r_nd st) (r_queue st) (r_left st) (r_buf st) (r_buf1 st) (if N.eqb n UINT64_MAX then fupd (r_dark st) q true else r_dark st)
                  (r_val st) (r_bnd st)
                  (Recv kill (p1 ++ p2) (if N.ltb 0 n && negb (N.eqb n UINT64_MAX) then Some (q, n) else None) pk) (g_round st) (g_log st) in
      step r S LComm (mkGst (fupd (g_r S) r st) (fupd2 (ch0 S) q r sizes) (ch1 S) (g_sent S) (fupd2 (g_rcvd S) q r (Datatypes.S (g_rcvd S q r))))
  (** 378-388: blocking receive of the announced number of bytes. *)
  | step_data kill pend q n pk l ls :
      r_ph (g_r S r) = Recv kill pend (Some (q, n)) pk -> ch1 S q r = l :: ls ->
      step r S LComm
        (if N.eqb (bytesOf l) n then
           mkGst (fupd (g_r S) r (setPh (g_r S r) (Recv kill pend None (pk ++ l)))) (ch0 S) (fupd2 (ch1 S) q r ls) (g_sent S) (g_rcvd S)
         else setR S r (setPh (g_r S r) Failed))
  | step_recvd kill pk :
      r_ph (g_r S r) = Recv kill [] None pk ->
      step r S LComm (setR S r (setPh (g_r S r) (WaitSends kill pk)))
  (** 400-405, and the end of the exchange. In the kill round the received data is dropped (723-731). *)
  | step_wait (kill : bool) pk (eager : bool) :
      r_ph (g_r S r) = WaitSends kill pk -> (eager = false -> own_received S r) ->
      step r S (if eager then LEager else LComm) (setR S r (if kill then setPh (g_r S r) Done else endExchange r (g_r S r) pk))
  (** 193-208. *)
  | step_csend q todo :
      r_ph (g_r S r) = CSend (q :: todo) ->
      step r S LComm
        (mkGst (fupd (g_r S) r (setPh (g_r S r) (CSend todo))) (ch0 S) (fupd2 (ch1 S) r q (ch1 S r q ++ payload (r_buf1 (g_r S r) q))) (g_sent S) (g_rcvd S))
  | step_csent :
      r_ph (g_r S r) = CSend [] -> step r S LComm (setR S r (setPh (g_r S r) CWait))
  (** 211-216. *)
  | step_cwait (eager : bool) :
      r_ph (g_r S r) = CWait -> (eager = false -> own_received S r) ->
      step r S (if eager then LEager else LComm) (setR S r (setPh (g_r S r) (CProbe (adjRanks r) [])))
  (** 230-255: probe one neighbour; a message in flight may or may not be visible yet. *)
  | step_cnone q todo pk :
      r_ph (g_r S r) = CProbe (q :: todo) pk ->
      step r S LComm (setR S r (setPh (g_r S r) (CProbe todo pk)))
  | step_crecv q todo pk l ls :
      r_ph (g_r S r) = CProbe (q :: todo) pk -> ch1 S q r = l :: ls ->
      step r S LComm (mkGst (fupd (g_r S) r (setPh (g_r S r) (CProbe todo (pk ++ l)))) (ch0 S) (fupd2 (ch1 S) q r ls) (g_sent S) (g_rcvd S))
  | step_cend pk :
      r_ph (g_r S r) = CProbe [] pk ->
      step r S LComm (setR S r (endExchange r (g_r S r) pk)).

  Definition initial (nRanks : nat) (val : nat -> nat -> nat -> V) (bnd : nat -> nat -> nat -> D) (S : gst) : Prop :=
    (forall r, r < nRanks -> initRank r (val r) (bnd r) = Some (g_r S r)) /\
    (forall q r, ch0 S q r = [] /\ ch1 S q r = [] /\ g_sent S q r = 0 /\ g_rcvd S q r = 0).
  Inductive reach (nRanks : nat) (S0 : gst) : gst -> Prop :=
  | reach_refl : reach nRanks S0 S0
  | reach_step S r l S' : reach nRanks S0 S -> r < nRanks -> step r S l S' -> reach nRanks S0 S'.
  Definition finished (nRanks : nat) (S : gst) : Prop := forall r, r < nRanks -> r_ph (g_r S r) = Done.
End Traverse.
Arguments gst : clear implicits. Arguments mkGst {V D}. Arguments g_r {V D}. Arguments ch0 {V D}. Arguments ch1 {V D}. Arguments g_sent {V D}. Arguments g_rcvd {V D}.
