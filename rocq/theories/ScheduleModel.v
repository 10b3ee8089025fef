(** src/SweepSchedule.cc: construction of the precomputed sweep schedule.

    Simplifications:
    - Indices are [nat]; BOUNDARY_FACE and BAD_RANK are [None].  Dependency counters are 64-bit unsigned
      with wrap-around, maxCellsPerStep is the 64-bit value and is truncated where the code truncates it.
    - The comparisons of getOmegaDotN with TOL (113, 117) are parameters.
    - std::priority_queue: pop returns any element of the largest priority; std::set iterates in
      increasing order.
    - allDone (166-182) is an Allreduce on all ranks, so all ranks are in the same iteration of the loop:
      one iteration of all ranks is one step.  MPI_Send is taken to buffer (see C33 for what happens
      otherwise), a message of zero sides carries no vector.
    - Levels do not wrap (they are less than the number of cells).
    - calcOrdering and calcLevels share the loop; what calcLevels does in addition is the parameters
      [after], [payload], [accept] on a private state [X]. *)
From Verif Require Import Prelude MeshModel TraverseModel.

Section Schedule.
  Variables (nRanks : nat) (M : nat -> rmesh) (angles : list nat).
  Variables (over under : nat -> nat -> nat -> nat -> bool).   (* rank angle cell face: OmegaDotN > TOL, < -TOL *)
  Definition isSome {A} (o : option A) : bool := match o with Some _ => true | None => false end.
  Definition nAng : nat := length angles.

  (** 107-125 calcDependencies; the tables start as false (Mat.hh). *)
  Definition hasChild (r a c f : nat) : bool := over r (nth a angles 0) c f && isSome (rm_adjRank (M r) c f).
  Definition hasParent (r a c f : nat) : bool :=
    negb (over r (nth a angles 0) c f) && under r (nth a angles 0) c f && isSome (rm_adjRank (M r) c f).
  (** 87-99 calcNeighborProcs. *)
  Definition isNeighbor (r p : nat) : bool :=
    existsb (fun cf => match rm_adjCell (M r) (fst cf) (snd cf), rm_adjRank (M r) (fst cf) (snd cf) with
                       | None, Some q => q =? p | _, _ => false end)
            (list_prod (seq 0 (rm_nCells (M r))) (seq 0 4)).
  Definition neighborProcs (r : nat) : list nat := filter (isNeighbor r) (seq 0 nRanks).
  (** 225-235 glAngle. *)
  Fixpoint glAngleFrom (l : list nat) (g i : nat) : nat :=
    match l with [] => i | h :: t => if h =? g then i else glAngleFrom t g (S i) end.
  Definition glAngle (g : nat) : nat := glAngleFrom angles g 0.

  Section Loop.
    Context {X D : Type}.
    Variables (need give : nat -> nat -> nat -> nat -> bool).  (* rank angle cell face *)
    Variables (prio : nat -> nat -> nat -> N).                 (* rank angle cell *)
    Variables (maxCells : N).
    Variables (after : nat -> X -> list (nat * nat) -> X) (payload : nat -> X -> nat -> nat -> D) (accept : nat -> X -> nat -> nat -> D -> X).
    Notation counters := (nat -> nat -> N). Notation work := (nat * nat)%type.   (* cell, angle index *)

    (** 131-142 calcNumDependents. *)
    Definition numDependents (r a c : nat) : N := fold_left (fun n f => if need r a c f then N.succ n else n) (seq 0 4) 0%N.
    (** 148-160 initializeWorkQ. *)
    Definition initializeWorkQ (r : nat) : list work :=
      fold_left (fun q ac => if N.eqb (numDependents r (fst ac) (snd ac)) 0 then (snd ac, fst ac) :: q else q)
                (list_prod (seq 0 nAng) (seq 0 (rm_nCells (M r)))) [].
    (** 207-213, 324-330, 405-410: one dependency less, queue the pair when none is left. *)
    Definition srelease (s : counters * list work) (c a : nat) : counters * list work :=
      let '(nd, q) := s in
      let nd := fupd2 nd a c (dec64 (nd a c)) in
      if N.eqb (nd a c) 0 then (nd, (c, a) :: q) else (nd, q).
    (** 201-217, one face. *)
    Definition topoChild (r c a : nat) (s : counters * list work) (f : nat) : counters * list work :=
      if give r a c f then match rm_adjCell (M r) c f with Some c' => srelease s c' a | None => s end else s.
    (** 192: const unsigned maxCellsPerStep. *)
    Definition limit : N := (maxCells mod 4294967296)%N.
    (** 188-219 partialTopoSort; work is (cell, global angle). *)
    Inductive topo (r : nat) : counters * list work -> list work -> counters * list work -> list work -> Prop :=
    | topo_stop s w : snd s = [] \/ (limit <= N.of_nat (length w))%N -> topo r s w s w
    | topo_pop nd q1 q2 c a w s' w' :
        (N.of_nat (length w) < limit)%N ->
        (forall c' a', In (c', a') (q1 ++ (c, a) :: q2) -> (prio r a' c' <= prio r a c)%N) ->
        topo r (fold_left (topoChild r c a) (seq 0 4) (nd, q1 ++ q2)) (w ++ [(c, nth a angles 0)]) s' w' ->
        topo r (nd, q1 ++ (c, a) :: q2) w s' w'.

    (** 263-298 and 345-374: what rank [r] has for rank [p] after a step. *)
    Definition sideMsg (r : nat) (x : X) (p : nat) (w : work) (f : nat) : list (N * nat * D) :=
      let c := fst w in let a := glAngle (snd w) in
      if give r a c f then
        match rm_adjCell (M r) c f, rm_adjRank (M r) c f with
        | None, Some p' => if p' =? p then [(rm_lgSide (M r) (rm_side (M r) c f), a, payload r x a c)] else []
        | _, _ => []
        end
      else [].
    Definition outMsg (r : nat) (x : X) (w : list work) (p : nat) : list (N * nat * D) :=
      flat_map (fun u => flat_map (sideMsg r x p u) (seq 0 4)) w.
    (** 319-334 and 400-411, one packet. [None]: getGLSide of an unknown side. *)
    Definition recvOne (r : nat) (s : option (counters * list work * X)) (m : N * nat * D) : option (counters * list work * X) :=
      let* s := s in
      let '(sq, x) := s in
      let '(g, a, d) := m in
      let* side := rm_glSide (M r) g in
      Some (srelease sq (rm_sideCell (M r) side) a, accept r x a side d).
    (** 304-338 and 390-415. *)
    Definition recvAll (r : nat) (msg : nat -> list (N * nat * D)) (s : counters * list work * X) : option (counters * list work * X) :=
      fold_left (recvOne r) (flat_map msg (neighborProcs r)) (Some s).

    (** ** One iteration on all ranks (442-454, 493-500) *)
    Record srank := mkSrank { s_nd : counters; s_q : list work; s_x : X }.
    Definition allDone (S : nat -> srank) : Prop := forall r, r < nRanks -> s_q (S r) = [].
    Definition sround (S S' : nat -> srank) (w : nat -> list work) : Prop :=
      ~ allDone S /\
      exists mid : nat -> counters * list work,
        (forall r, r < nRanks -> topo r (s_nd (S r), s_q (S r)) [] (mid r) (w r)) /\
        forall r, r < nRanks ->
          recvAll r (fun p => outMsg p (after p (s_x (S p)) (w p)) (w p) r) (mid r, after r (s_x (S r)) (w r)) =
          Some (s_nd (S' r), s_q (S' r), s_x (S' r)).
    (** The loop; the list has the work of every step (c_workOrders). *)
    Inductive srun (S : nat -> srank) : list (nat -> list work) -> (nat -> srank) -> Prop :=
    | srun_nil : srun S [] S
    | srun_snoc L S1 w S2 : srun S L S1 -> sround S1 S2 w -> srun S (L ++ [w]) S2.
    Definition initS (x0 : nat -> X) (r : nat) : srank := mkSrank (numDependents r) (initializeWorkQ r) (x0 r).
  End Loop.

  (** 424-454 calcOrdering. *)
  Definition ordering prio maxCells (L : list (nat -> list (nat * nat))) : Prop :=
    exists S, srun (X:=unit) (D:=unit) hasChild prio maxCells (fun _ x _ => x) (fun _ _ _ _ => tt) (fun _ x _ _ _ => x)
                   (initS hasParent (fun _ => tt)) L S /\ allDone S.
  (** 365-374 stepSendProcs and 392-398 stepRecvProcs. *)
  Definition nonempty {A} (l : list A) : bool := match l with [] => false | _ => true end.
  Definition stepMsg (w : nat -> list (nat * nat)) (r p : nat) : list (N * nat * unit) :=
    outMsg hasChild (fun _ _ _ _ => tt) r tt (w r) p.
  Definition sendProcs (w : nat -> list (nat * nat)) (r : nat) : list nat := filter (fun p => nonempty (stepMsg w r p)) (neighborProcs r).
  Definition recvProcs (w : nat -> list (nat * nat)) (r : nat) : list nat := filter (fun p => nonempty (stepMsg w p r)) (neighborProcs r).

  (** ** calcLevels (472-508): private state cellLevels(angle, cell), sideLevels(angle, side) *)
  Definition levels := ((nat -> nat -> nat) * (nat -> nat -> nat))%type.
  (** 241-257 updateLevels. *)
  Definition levelFace (r c a : nat) (lev : nat -> nat -> nat) (f : nat) : nat -> nat -> nat :=
    match hasParent r a c f, rm_adjCell (M r) c f with
    | true, Some c' => fupd2 lev a c' (Nat.max (lev a c') (lev a c + 1))
    | _, _ => lev
    end.
  Definition updateLevels (r : nat) (x : levels) (w : list (nat * nat)) : levels :=
    (fold_left (fun lev u => fold_left (levelFace r (fst u) (glAngle (snd u))) (seq 0 4) lev) w (fst x), snd x).
  (** 331-332. *)
  Definition acceptLevel (r : nat) (x : levels) (a side lvl : nat) : levels :=
    let c := rm_sideCell (M r) side in
    (fupd2 (fst x) a c (Nat.max (fst x a c) (lvl + 1)), fupd2 (snd x) a side lvl).
  Definition levelled maxCells (S : nat -> srank (X:=levels)) : Prop :=
    exists L, srun hasParent (fun _ _ _ => 0%N) maxCells updateLevels (fun _ x a c => fst x a c) acceptLevel
                   (initS hasChild (fun _ => (fun _ _ => 0, fun _ _ => 0))) L S /\ allDone S.

  (** ** neighborPriorities (569-616), on one rank *)
  Variable sideLevels : nat -> nat -> N.     (* angle side *)
  Variables (boundScale boundShift parentShift : N).
  (** 583-600. *)
  Definition acrossBoundary (r a c f : nat) : bool := hasChild r a c f && negb (isSome (rm_adjCell (M r) c f)) && isSome (rm_adjRank (M r) c f).
  Definition boundaryPriority (r a c : nat) : N :=
    fold_left (fun p f => if acrossBoundary r a c f then N.max p (w64 (w64 (sideLevels a (rm_side (M r) c f) * boundScale) + boundShift)) else p) (seq 0 4) 0%N.
  Definition localChildren (r a c : nat) : N :=
    fold_left (fun n f => if acrossBoundary r a c f then dec64 n else n) (seq 0 4) (numDependents hasChild r a c).
  Definition npQueue (r : nat) : list (nat * nat) :=
    fold_left (fun q ac => if N.eqb (localChildren r (fst ac) (snd ac)) 0 then (snd ac, fst ac) :: q else q) (list_prod (seq 0 nAng) (seq 0 (rm_nCells (M r)))) [].
  (** 542-563 updatePriorities. *)
  Definition priorityFace (r c a : nat) (p : nat -> nat -> N) (f : nat) : nat -> nat -> N :=
    match hasParent r a c f, rm_adjCell (M r) c f with
    | true, Some c' => fupd2 p a c' (N.max (p a c') (w64 (p a c + parentShift)))
    | _, _ => p
    end.
  Definition updatePriorities (r : nat) (w : list (nat * nat)) (p : nat -> nat -> N) : nat -> nat -> N :=
    fold_left (fun p u => fold_left (priorityFace r (fst u) (glAngle (snd u))) (seq 0 4) p) w p.
  (** 607-615; the last argument is the result. *)
  Inductive npLoop (maxCells : N) (r : nat) : (nat -> nat -> N) * list (nat * nat) -> N -> (nat -> nat -> N) -> (nat -> nat -> N) -> Prop :=
  | np_done s n p : n = w64 (N.of_nat nAng * N.of_nat (rm_nCells (M r))) -> npLoop maxCells r s n p p
  | np_step s n p s' w p' : n <> w64 (N.of_nat nAng * N.of_nat (rm_nCells (M r))) -> topo hasParent (fun _ _ _ => 0%N) maxCells r s [] s' w ->
      npLoop maxCells r s' (w64 (n + N.of_nat (length w))) (updatePriorities r w p) p' -> npLoop maxCells r s n p p'.
  Definition neighborPriorities (maxCells : N) (r : nat) (p' : nat -> nat -> N) : Prop :=
    npLoop maxCells r (localChildren r, npQueue r) 0%N (boundaryPriority r) p'.
End Schedule.

(** 66, 74: a priority goes through double into UINT; round to nearest even, [None]: not representable in
    64 bits, undefined behaviour. *)
Definition roundDouble (p : N) : N :=
  if (p <? 9007199254740992)%N then p else
  let u := (2 ^ (N.log2 p - 52))%N in
  let d := (p / u)%N in let m := (p mod u)%N in
  (u * (if (u <? 2 * m)%N then d + 1 else if (2 * m <? u)%N then d else if N.even d then d else d + 1))%N.
Definition queuePriority (p : N) : option N := if (roundDouble p <? two64)%N then Some (roundDouble p) else None.
