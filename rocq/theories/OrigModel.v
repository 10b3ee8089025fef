(** src/Sweeper.cc: the sweep over a precomputed schedule (SweepType OriginalTycho1 and OriginalTycho2), as a
    transition system of all ranks and threads.

    Simplifications:
    - Indices are [nat]; BOUNDARY_FACE and BAD_RANK are [None]. The values at the vertices and groups of a face are
      one datum; a packet is (global side, angle, datum). [flatten] below has the vectors that are sent.
    - One thread works on one angle group (g_nAngleGroups = number of threads). One work item is one step.
    - The three messages of one exchange (114-191, tags 3g, 3g+1, 3g+2) are one message of one FIFO channel
      for each (source, destination, angle group). iSend appends; a receive takes the oldest message and waits for it.
      MPI_Waitall on the sends returns at any time, or, if [rendezvous], when all own messages have been received.
    - [None] from getGLSide (unknown side) would be undefined behaviour: no step is possible then. *)
From Verif Require Import Prelude MeshModel TraverseModel ScheduleModel CommModel.

Section Orig.
  Context {V D : Type}.
  Variables (nRanks nGroups : nat) (M : nat -> rmesh) (T : tdata V D).
  Variables (over : nat -> nat -> nat -> nat -> bool).          (* rank angle cell face: OmegaDotN > TOL *)
  Variables (ang : nat -> list nat).                             (* the angles of an angle group *)
  Variables (sched : nat -> list (nat -> list (nat * nat))).     (* g_sweepSchedule[group]: steps, ranks, (cell, angle) *)

  (** ** Data of one rank (390-393) *)
  Record ost := mkOst {
    o_val : nat -> nat -> V;                            (* psi by cell, angle *)
    o_bnd : nat -> nat -> D;                            (* psiBound by side, angle *)
    o_out : nat -> nat -> list (packet D)               (* commSidesAngles, commPsi by angle group, rank *)
  }.
  (** 233-254 updateBoundData, one face. *)
  Definition boundFace (r c a : nat) (v : V) (bnd : nat -> nat -> D) (f : nat) : nat -> nat -> D :=
    match rm_adjCell (M r) c f with
    | Some _ => bnd
    | None => if rm_out (M r) a c f then fupd2 bnd (rm_side (M r) c f) a (td_getData T r c f a v) else bnd
    end.
  (** 200-224 updateComm, one face: what it appends for rank [p]. *)
  Definition commFace (r c a p : nat) (bnd : nat -> nat -> D) (f : nat) : list (packet D) :=
    match rm_adjCell (M r) c f, rm_adjRank (M r) c f with
    | None, Some p' => if rm_out (M r) a c f && (p' =? p) then [(rm_lgSide (M r) (rm_side (M r) c f), a, bnd (rm_side (M r) c f) a)] else []
    | _, _ => []
    end.
  (** 264-310 doComputation, one work item of angle group [g]. *)
  Definition doWork (r g : nat) (s : ost) (c a : nat) : ost :=
    let v := td_update T r c a (map (readFace Forward M T r (o_val s) (o_bnd s) c a) (seq 0 4)) in
    let bnd := fold_left (boundFace r c a v) (seq 0 4) (o_bnd s) in
    mkOst (fupd2 (o_val s) c a v) bnd (fun g' p => if g' =? g then o_out s g' p ++ flat_map (commFace r c a p bnd) (seq 0 4) else o_out s g' p).

  (** ** The program of a thread *)
  Inductive act := AWork (c a : nat) | ASend (p : nat) | ARecv (p : nat) | AWait | ABarrier.
  (** One step (407-435, 452-489); nothing is done after the last step of the group (118, 155, 277). *)
  Definition stepProg (barriers : bool) (r g k : nat) : list act :=
    match nth_error (sched g) k with
    | Some w => map (fun ca => AWork (fst ca) (snd ca)) (w r) ++ map ASend (sendProcs nRanks M (ang g) over w r) ++ map ARecv (recvProcs nRanks M (ang g) over w r)
    | None => []
    end ++ AWait :: (if barriers then [ABarrier] else []).
  (** 384-387 maxNSteps. *)
  Definition maxNSteps : nat := fold_left (fun m g => Nat.max m (length (sched g))) (seq 0 nGroups) 0.
  Definition prog (barriers : bool) (r g : nat) : list (nat * act) := flat_map (fun k => map (pair k) (stepProg barriers r g k)) (seq 0 maxNSteps).

  (** ** All ranks *)
  Record gos := mkGos {
    os : nat -> ost;
    och : nat -> nat -> nat -> list (list (packet D));      (* source, destination, angle group *)
    otodo : nat -> nat -> list (nat * act)                  (* rank, angle group: what is left to do *)
  }.
  Definition fupd3 {X} (t : nat -> nat -> nat -> X) (i j k : nat) (x : X) : nat -> nat -> nat -> X :=
    fun i' j' k' => if (i' =? i) && (j' =? j) && (k' =? k) then x else t i' j' k'.
  Definition clearOut (s : ost) (g p : nat) : ost := mkOst (o_val s) (o_bnd s) (fupd2 (o_out s) g p []).
  Definition setBnd (s : ost) (bnd : nat -> nat -> D) : ost := mkOst (o_val s) bnd (o_out s).
  (** What a rank has entered or left the barrier of step [k]. *)
  Definition arrived (S : gos) (g k r : nat) : Prop := In (k, ABarrier) (otodo S r g) -> exists l, otodo S r g = (k, ABarrier) :: l.

  (** One action of the thread of group [g] on rank [r]. *)
  Inductive doAct (rendezvous : bool) (r g k : nat) (S : gos) : act -> (nat -> ost) -> (nat -> nat -> nat -> list (list (packet D))) -> Prop :=
  | do_work c a : doAct rendezvous r g k S (AWork c a) (fupd (os S) r (doWork r g (os S r) c a)) (och S)
  | do_send p : doAct rendezvous r g k S (ASend p) (fupd (os S) r (clearOut (os S r) g p)) (fupd3 (och S) r p g (och S r p g ++ [o_out (os S r) g p]))
  | do_recv p m l bnd : och S p r g = m :: l -> fold_left (storePacket M r) m (Some (o_bnd (os S r))) = Some bnd ->
      doAct rendezvous r g k S (ARecv p) (fupd (os S) r (setBnd (os S r) bnd)) (fupd3 (och S) p r g l)
  | do_wait : (rendezvous = true -> forall p, p < nRanks -> och S r p g = []) -> doAct rendezvous r g k S AWait (os S) (och S)
  | do_barrier : (forall r', r' < nRanks -> arrived S g k r') -> doAct rendezvous r g k S ABarrier (os S) (och S).

  (** ** The two sweep types *)
  (** OriginalTycho1 (404-436): all threads compute; then one thread sends for all groups, receives for all groups, and waits. *)
  Definition phase1 (g : nat) (x : act) : nat :=
    match x with AWork _ _ => 0 | ASend _ => 1 + g | ARecv _ => 1 + nGroups + g | _ => 1 + 2 * nGroups end.
  Definition key1 (g : nat) (kx : nat * act) : nat := fst kx * (2 + 2 * nGroups) + phase1 g (snd kx).
  Definition allowed1 (S : gos) (r g : nat) (kx : nat * act) : Prop :=
    forall g' kx' l, g' < nGroups -> otodo S r g' = kx' :: l -> key1 g kx <= key1 g' kx'.
  (** OriginalTycho2 (442-491): threads compute at any time; they communicate in the order of commNumber, with a barrier of all ranks. *)
  Definition slot (g k : nat) : nat := k * nGroups + g.
  Definition allowed2 (S : gos) (r g : nat) (kx : nat * act) : Prop :=
    match snd kx with
    | AWork _ _ => True
    | _ => forall g' k' x' l, g' < nGroups -> otodo S r g' = (k', x') :: l -> slot g (fst kx) <= slot g' k'
    end.
  Inductive sweepType := Tycho1 | Tycho2.
  Definition allowed (ty : sweepType) : gos -> nat -> nat -> nat * act -> Prop := match ty with Tycho1 => allowed1 | Tycho2 => allowed2 end.
  Definition hasBarrier (ty : sweepType) : bool := match ty with Tycho1 => false | Tycho2 => true end.

  Inductive ostep (ty : sweepType) (rendezvous : bool) (S : gos) : gos -> Prop :=
  | ostep_do r g k x l os' ch' : r < nRanks -> g < nGroups -> otodo S r g = (k, x) :: l -> allowed ty S r g (k, x) ->
      doAct rendezvous r g k S x os' ch' -> ostep ty rendezvous S (mkGos os' ch' (fupd2 (otodo S) r g l)).
  Inductive oreach (ty : sweepType) (rendezvous : bool) (S0 : gos) : nat -> gos -> Prop :=
  | oreach_refl : oreach ty rendezvous S0 0 S0
  | oreach_step n S S' : oreach ty rendezvous S0 n S -> ostep ty rendezvous S S' -> oreach ty rendezvous S0 (Datatypes.S n) S'.
  Definition ostart (ty : sweepType) (val : nat -> nat -> nat -> V) (bnd : nat -> nat -> nat -> D) : gos :=
    mkGos (fun r => mkOst (val r) (bnd r) (fun _ _ => [])) (fun _ _ _ => []) (prog (hasBarrier ty)).
  Definition oend (S : gos) : Prop := forall r g, r < nRanks -> g < nGroups -> otodo S r g = [].
End Orig.
Arguments mkOst {V D}. Arguments o_val {V D}. Arguments o_bnd {V D}. Arguments o_out {V D}. Arguments mkGos {V D}. Arguments os {V D}. Arguments och {V D}. Arguments otodo {V D}.

(** ** What a message contains: commSidesAngles and commPsi as flat vectors *)
Section Flat.
  Context {X : Type}.
  Variables (zero : X) (nGroups : nat).        (* g_nGroups: energy groups *)
  Definition sideData := (nat -> nat -> X)%type.    (* energy group, vertex of the face *)
  (** 65-68 VG; g_nVrtxPerFace = 3. *)
  Definition VG (vrtx group : nat) : nat := vrtx + 3 * group.
  Definition setAt (l : list X) (i : nat) (x : X) : list X := firstn i l ++ match skipn i l with [] => [] | _ :: t => x :: t end.
  (** 76-84 getBoundData, on the vector of line 206. *)
  Definition getBoundData (d : sideData) : list X :=
    fold_left (fun l vg => setAt l (VG (fst vg) (snd vg)) (d (snd vg) (fst vg))) (list_prod (seq 0 3) (seq 0 nGroups)) (repeat zero (3 * nGroups)).
  (** 217-221. *)
  Definition flatten (l : list (N * nat * sideData)) : list N * list X :=
    fold_left (fun s m => let '(side, angle, d) := m in (fst s ++ [side; N.of_nat angle], snd s ++ getBoundData d)) l ([], []).
  (** 176-184, 96-103: entry [i] of what has arrived. [None]: past the end of a vector. *)
  Definition sideOf (s : list N * list X) (i : nat) : option N := nth_error (fst s) (2 * i).
  Definition angleOf (s : list N * list X) (i : nat) : option N := nth_error (fst s) (2 * i + 1).
  Definition psiOf (s : list N * list X) (i group vrtx : nat) : option X := nth_error (snd s) (i * 3 * nGroups + VG vrtx group).
  (** 122-123 nSides. *)
  Definition nSides (s : list N * list X) : nat := length (fst s) / 2.
End Flat.
