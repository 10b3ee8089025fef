(** src/SweeperSchur.cc: Schur complement methods, on all ranks together.

    psi and the source are by rank, cell, angle, vertex, group; psiBound by rank, side, angle, face vertex, group.
    A Krylov vector is distributed: the part of rank [r] is an array indexed by [N]. PETSc's KSPSolve is a
    relation [solves b x] between right-hand side and solution. The phi part of the vectors of SchurKrylov, an
    array with the indexing of PhiData that starts at psiBoundSize, is kept separately (see C02 for PhiData). *)
From Coq Require Import Reals.
From Verif Require Import Prelude MeshModel GeometryModel GaussModel TransportModel TraverseModel TraverseSpec TraverseRun SweepModel CommModel BlockModel FluxModel SourceModel.

Section Pack.
  Context {T : Type}.
  Variables (nAngles nGroups : nat) (m : rmesh).
  Notation Bound := (nat -> nat -> nat -> nat -> T).       (* side angle fvrtx group *)
  Notation Vec := (N -> T).
  (** 86-94, 118-126, 150-159: the face is incoming and lies between ranks. *)
  Definition onBoundary (a c f : nat) : bool :=
    isIncoming Forward m a c f &&
    match rm_adjCell m c f, rm_adjRank m c f with None, Some _ => true | _, _ => false end.
  (** 82-85: the loops over angle, cell, group, face. *)
  Definition quads : list (nat * nat * nat * nat) := list_prod (list_prod (list_prod (seq 0 nAngles) (seq 0 (rm_nCells m))) (seq 0 nGroups)) (seq 0 4).
  Definition updN (x : Vec) (i : N) (v : T) : Vec := fun j => if N.eqb j i then v else x j.
  Definition updB (b : Bound) (s a fv g : nat) (v : T) : Bound :=
    fun s' a' fv' g' => if (s' =? s) && (a' =? a) && (fv' =? fv) && (g' =? g) then v else b s' a' fv' g'.
  (** xArrayIndex++ on an int: [None] (undefined) beyond INT_MAX. *)
  Definition incInt (i : N) : option N := if N.ltb i INT_MAX then Some (i + 1)%N else None.
  (** 76-103 psiBoundToVec: fills the array [x]. *)
  Definition packEntry (b : Bound) (s a g : nat) (st : option (N * Vec)) (fv : nat) : option (N * Vec) :=
    let* p := st in
    let '(i, x) := p in
    let* i' := incInt i in
    Some (i', updN x i (b s a fv g)).
  Definition packFace (b : Bound) (st : option (N * Vec)) (k : nat * nat * nat * nat) : option (N * Vec) :=
    let '(a, c, g, f) := k in
    if onBoundary a c f then fold_left (packEntry b (rm_side m c f) a g) (seq 0 3) st else st.
  Definition psiBoundToVec (x : Vec) (b : Bound) : option Vec :=
    let* p := fold_left (packFace b) quads (Some (0%N, x)) in Some (snd p).
  (** 109-136 vecToPsiBound. *)
  Definition unpackEntry (x : Vec) (s a g : nat) (st : option (N * Bound)) (fv : nat) : option (N * Bound) :=
    let* p := st in
    let '(i, b) := p in
    let* i' := incInt i in
    Some (i', updB b s a fv g (x i)).
  Definition unpackFace (x : Vec) (st : option (N * Bound)) (k : nat * nat * nat * nat) : option (N * Bound) :=
    let '(a, c, g, f) := k in
    if onBoundary a c f then fold_left (unpackEntry x (rm_side m c f) a g) (seq 0 3) st else st.
  Definition vecToPsiBound (x : Vec) (b : Bound) : option Bound :=
    let* p := fold_left (unpackFace x) quads (Some (0%N, b)) in Some (snd p).
  (** 142-168 getPsiBoundSize (64-bit). *)
  Definition sizeFace (n : N) (k : nat * nat * nat * nat) : N :=
    let '(a, c, g, f) := k in
    if onBoundary a c f then fold_left (fun n (_ : nat) => w64 (n + 1)) (seq 0 3) n else n.
  Definition getPsiBoundSize : N := fold_left sizeFace quads 0%N.
End Pack.

Section Schur.
  Variables (R0 : run (value R) (block R)) (g : gaussElim) (nGroups : nat) (geo : nat -> rgeo R) (sigmaT : nat -> nat -> R) (pr : nat -> nat -> nat -> N).
  Notation GPsi := (nat -> nat -> nat -> nat -> nat -> R).
  Notation GPhi := (nat -> nat -> nat -> nat -> R).
  Notation GBnd := (nat -> nat -> nat -> nat -> nat -> R).
  Notation GVec := (nat -> N -> R).
  Notation nR := (u_ranks R0).
  Notation nA := (u_angles R0).
  Notation M := (u_mesh R0).
  (** Main.cc:284-314: the traverser of the block methods, without communication. *)
  Definition blockRun (src : GPsi) : run (value R) (block R) :=
    mkRun (u_dir R0) false (u_mpi R0) nR nA (u_threads R0) (u_max R0) (u_psize R0) M (sweepData Rops g nGroups geo sigmaT src pr) (u_mate R0).
  (** Util.cc:138-145 sweepLocal on all ranks. *)
  Definition localSweep (src : GPsi) (psi : GPsi) (bnd : GBnd) (psi' : GPsi) (bnd' : GBnd) : Prop :=
    exists val, sweepLocal (blockRun src) (fun r c a => Some (psi r c a)) bnd val bnd' /\
      psi' = fun r c a v G => getBlock Rops (val r c a) v G.
  (** CommSides::commSides on all ranks. *)
  Definition commAll (psi : GPsi) (bnd bnd' : GBnd) : Prop :=
    exchange (fun _ _ => 0%R) (blockRun (fun _ _ _ _ _ => 0%R)) (fun r c a => Some (psi r c a)) bnd bnd'.
  Definition packAll (x : GVec) (bnd : GBnd) (x' : GVec) : Prop := forall r, r < nR -> psiBoundToVec nA nGroups (M r) (x r) (bnd r) = Some (x' r).
  Definition unpackAll (x : GVec) (bnd bnd' : GBnd) : Prop := forall r, r < nR -> vecToPsiBound nA nGroups (M r) (x r) (bnd r) = Some (bnd' r).
  Definition vecSize (r : nat) : N := getPsiBoundSize nA nGroups (M r).
  (** b = x - b (212-214, 349-351). *)
  Definition xMinus (x y : GVec) : GVec := fun r i => if N.ltb i (vecSize r) then (x r i - y r i)%R else y r i.
  Definition zeroSource : GPsi := fun _ _ _ _ _ => 0%R.
  Definition zeroBound : GBnd := fun _ _ _ _ _ => 0%R.

  (** 188-215 Schur; psi and psiBound of SchurData before and after, [b0] the array before. *)
  Definition schurOp (x : GVec) (psi : GPsi) (bnd : GBnd) (b0 b : GVec) (psi' : GPsi) (bnd' : GBnd) : Prop :=
    exists bndX bnd1 y, unpackAll x bnd bndX /\ localSweep zeroSource psi bndX psi' bnd1 /\ commAll psi' bnd1 bnd' /\ packAll b0 bnd' y /\ b = xMinus x y.
  (** 249-319 SweeperSchur::sweep; c_psiBoundPrev before and after, [b0] the array of c_b before. *)
  Definition schurSweep (solves : GVec -> GVec -> Prop) (src psi : GPsi) (prev : GBnd) (psi' : GPsi) (prev' : GBnd) : Prop :=
    exists psi1 bnd1 bnd2 b0 b x psi2 bnd3 bnd4 bnd5,
      localSweep src psi zeroBound psi1 bnd1 /\ commAll psi1 bnd1 bnd2 /\ packAll b0 bnd2 b /\
      solves b x /\
      unpackAll x bnd3 bnd4 /\ unpackAll x prev prev' /\ localSweep src psi2 bnd4 psi' bnd5.

  (** 329-352 SchurOuter and 358-456 SweeperSchurOuter::solve. [inner src bnd psi psi']: source iteration or Krylov
      solve with local sweeps that read [bnd] (467-479). *)
  Definition schurOuterOp (inner : GPsi -> GBnd -> GPsi -> GPsi -> Prop) (x : GVec) (psi : GPsi) (bnd : GBnd) (b0 b : GVec) (psi' : GPsi) (bnd' : GBnd) : Prop :=
    exists bndX y, unpackAll x bnd bndX /\ inner zeroSource bndX psi psi' /\ commAll psi' bndX bnd' /\ packAll b0 bnd' y /\ b = xMinus x y.
  Definition schurOuterSolve (inner : GPsi -> GBnd -> GPsi -> GPsi -> Prop) (solves : GVec -> GVec -> Prop) (src : GPsi) (psi' : GPsi) : Prop :=
    exists psi1 bnd1 b0 b x psi2 bnd2 bnd3,
      inner src zeroBound zeroSource psi1 /\ commAll psi1 zeroBound bnd1 /\ packAll b0 bnd1 b /\
      solves b x /\ unpackAll x bnd2 bnd3 /\ inner src bnd3 psi2 psi'.

  Variables (pi : R) (wt : nat -> R) (sigmaS : nat -> nat -> R).
  Notation nC := (fun r => rm_nCells (M r)).
  (** 493-530 SchurKrylov. *)
  Definition schurKrylovOp (x : GVec) (xphi : GPhi) (psi : GPsi) (bnd : GBnd) (phi : GPhi) (src : GPsi) (b0 b : GVec) (bphi : GPhi) (psi' : GPsi) (bnd' : GBnd) : Prop :=
    exists bndX bnd1 y, unpackAll x bnd bndX /\
      let phi1 := fun r => operatorS Rops pi nGroups (nC r) (sigmaS r) (xphi r) (phi r) in
      let src1 := fun r => phiToPsi nA nGroups (nC r) (phi1 r) (src r) in
      localSweep src1 psi bndX psi' bnd1 /\ commAll psi' bnd1 bnd' /\ packAll b0 bnd' y /\
      b = xMinus x y /\ bphi = fun r c v G => (xphi r c v G - gPsiToPhi Rops nA nGroups wt nC psi' r c v G)%R.
  (** 536-620 SweeperSchurKrylov::solve; [solves b bphi x xphi]. calcTotalSource writes into its own source (599-600). *)
  Definition schurKrylovSolve (solves : GVec -> GPhi -> GVec -> GPhi -> Prop) (src : GPsi) (psi' : GPsi) : Prop :=
    exists psi1 bnd1 bnd2 b0 b x xphi psi2 bnd3 bnd4 bnd5,
      localSweep src zeroSource zeroBound psi1 bnd1 /\ commAll psi1 bnd1 bnd2 /\ packAll b0 bnd2 b /\
      solves b (gPsiToPhi Rops nA nGroups wt nC psi1) x xphi /\
      unpackAll x bnd3 bnd4 /\
      localSweep (fun r => calcTotalSourceAliased Rops pi nA nGroups (nC r) (sigmaS r) (src r) (xphi r)) psi2 bnd4 psi' bnd5.
End Schur.
