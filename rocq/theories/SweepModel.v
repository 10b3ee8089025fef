(** src/SweepData.hh and Transport::populateLocalPsiBound as data of the traversal, src/Util.cc:55-79.

    The value of a (cell, angle) is the 4 x nGroups block of psi, or [None] if the solver's Assert failed
    (the run aborts there). Side data is a 3 x nGroups block. Blocks are functions [vertex group]. *)
From Verif Require Import Prelude MeshModel GeometryModel GaussModel TransportModel TraverseModel.

(** The geometry of a rank (src/TychoMesh.hh:68-117), by cell. *)
Record rgeo (T : Type) := mkRgeo {
  rg_volume : nat -> T;
  rg_area : nat -> q4 T;                  (* getFaceArea *)
  rg_omN : nat -> nat -> q4 T;            (* getOmegaDotN angle cell *)
  rg_c2f : nat -> nat -> nat -> nat;      (* getCellToFaceVrtx cell face vrtx *)
  rg_f2c : nat -> nat -> nat -> nat;      (* getFaceToCellVrtx cell face fvrtx *)
  rg_nbr : nat -> nat -> nat -> nat       (* getNeighborVrtx cell face fvrtx *)
}.
Arguments rg_volume {T}. Arguments rg_area {T}. Arguments rg_omN {T}. Arguments rg_c2f {T}. Arguments rg_f2c {T}. Arguments rg_nbr {T}.

Section Sweep.
  Context {T : Type}.
  Variables (A : arith T) (g : gaussElim) (nGroups : nat) (geo : nat -> rgeo T) (sigmaT : nat -> nat -> T).
  Definition block := nat -> nat -> T.
  Definition value := option block.
  Definition getBlock (v : value) : block := match v with Some p => p | None => fun _ _ => azero A end.

  (** Transport.cc:740-776: [localPsiBound fvrtx face group]; 0 where nothing is read. *)
  Definition localPsiBound (inputs : list (option block)) : nat -> nat -> nat -> T :=
    fun fv f G => match nth f inputs None with Some d => d fv G | None => azero A end.
  (** SweepData.hh:139-174 update. *)
  Definition sweepUpdate (source : nat -> nat -> nat -> block) (r c a : nat) (inputs : list (option block)) : value :=
    solve A g nGroups (rg_volume (geo r) c) (rg_area (geo r) c) (rg_omN (geo r) a c) (sigmaT r c) (rg_c2f (geo r) c)
      (localPsiBound inputs) (source r c a) (fun _ _ => azero A).
  (** SweepData.hh:92-103 getData; setSideData (111-120) stores the same block. *)
  Definition sweepGetData (r c f a : nat) (v : value) : block := fun fv G => getBlock v (rg_f2c (geo r) c f fv) G.
  (** Transport.cc:754-761. *)
  Definition sweepRead (r c f a : nat) (v : value) : block := fun fv G => getBlock v (rg_nbr (geo r) c f fv) G.
  Definition sweepData (source : nat -> nat -> nat -> block) (priority : nat -> nat -> nat -> N) : tdata value block :=
    mkTdata value block (sweepUpdate source) sweepGetData sweepRead priority.
End Sweep.
Arguments block T : clear implicits. Arguments value T : clear implicits.

(** Util.cc:55-76, the loops of diffBetweenGroups over [psi group vrtx angle cell]: (maxDiff, maxEntry).
    The function returns maxDiff / maxEntry (77), maximised over ranks. *)
Section Diff.
  Context {T : Type}.
  Variables (A : arith T) (nGroups nAngles nCells : nat).
  Definition diffGroup (psi : nat -> nat -> nat -> nat -> T) (vrtx angle cell : nat) (maxDiff : T) (group : nat) : T :=
    let psi0 := psi 0 vrtx angle cell in
    let psi1 := psi group vrtx angle cell in
    if agt A (aabs A (asub A psi0 psi1)) maxDiff then aabs A (asub A psi0 psi1) else maxDiff.
  Definition diffEntry (psi : nat -> nat -> nat -> nat -> T) (s : T * T) (cav : nat * nat * nat) : T * T :=
    let '(cell, angle, vrtx) := cav in
    let '(maxDiff, maxEntry) := s in
    let psi0 := psi 0 vrtx angle cell in
    let maxEntry := if agt A (aabs A psi0) maxEntry then aabs A psi0 else maxEntry in
    (fold_left (diffGroup psi vrtx angle cell) (seq 1 (nGroups - 1)) maxDiff, maxEntry).
  Definition diffLoops (psi : nat -> nat -> nat -> nat -> T) : T * T :=
    fold_left (diffEntry psi) (list_prod (list_prod (seq 0 nCells) (seq 0 nAngles)) (seq 0 4)) (azero A, azero A).
End Diff.
