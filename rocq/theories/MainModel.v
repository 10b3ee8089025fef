(** src/Main.cc:186-359, the program from its two files to its output file, for SweepType TraverseGraph (src/SweeperTraverse.cc),
    OriginalTycho1 and OriginalTycho2 (src/Sweeper.cc) with SourceIteration, in an arbitrary arithmetic.

    What the iteration prints is in ProgressModel.v. Not modelled: the timers, hatL2Error and diffBetweenGroups as called at 340-341 (they only print: PrintModel.v), the Krylov branch (see FluxModel.v) and the other sweepers (see their own models). *)
From Coq Require Import Permutation.
From Verif Require Import Prelude Bytes LayoutModel PsiFileModel DeckModel MeshModel TychoModel GeometryModel GaussModel TransportModel TraverseModel TraverseRun SweepModel FluxModel ProblemModel ViewModel BitsModel.
From Verif Require AngleModel ScheduleModel OrigModel.

(** What Quadrature holds: number of angles, directions (getXi, getEta, getMu), weights. *)
Record angles (T : Type) := mkAngles { q_num : nat; q_omega : nat -> q3 T; q_weight : nat -> T }.
Arguments mkAngles {T}. Arguments q_num {T}. Arguments q_omega {T}. Arguments q_weight {T}.

(** The globals g_mpiType, g_gaussElim as the traversal and the cell solver see them. *)
Definition mpiOf (m : DeckModel.mpiType) : TraverseModel.mpiType :=
  match m with DeckModel.TychoTwoSided => TychoTwoSided | DeckModel.CapsaicinTwoSided => CapsaicinTwoSided end.
Definition gaussOf (g : gaussElimT) : gaussElim :=
  match g with GE_Original => Original | GE_NoPivot => NoPivot | GE_CramerGlu => CramerGlu | GE_CramerIntel => CramerIntel end.
(** src/SweepData.hh:81-84 getDataSizeInBytes; size_t. *)
Definition getDataSizeInBytes (nGroups : N) : N := w64 (w64 (nGroups * 3) * 8).

Section Main.
  Context {T : Type}.
  (** [dec], [enc]: number of a bit pattern and back; [stod]: std::stod; [ltb]: [<] on coordinates;
      [quadrature]: the constructor of Quadrature, [None] if the order is not known; [pi]: M_PI; [tol]: TOL of SweepSchedule.cc:57. *)
  Variables (A : arith T) (dec : N -> T) (enc : T -> N) (stod : chars -> option T) (ltb : N -> N -> bool) (quadrature : N -> option (angles T)) (pi tol : T).
  Notation GPsi := (nat -> nat -> nat -> nat -> nat -> T).

  (** src/Problem.cc:52-84 hatSource: the value at one vertex. *)
  Definition ale (x y : T) : bool := agt A y x || aeq A x y.
  Definition hatValueA (sigmaT sigmaS : T) (p om : q3 T) : T :=
    let mid := adiv A (alit A 100) (alit A 2) in
    let x := asub A (t0 p) mid in let y := asub A (t1 p) mid in let z := asub A (t2 p) mid in
    let c := asqrt A (aadd A (aadd A (amul A x x) (amul A y y)) (amul A z z)) in
    let c30 := amul A (alit A 30) c in
    if ale c (alit A 30) then
      aadd A (asub A (asub A (amul A (adiv A (aneg A x) c30) (t0 om)) (amul A (adiv A y c30) (t1 om))) (amul A (adiv A z c30) (t2 om)))
        (amul A (asub A sigmaT sigmaS) (asub A (aone A) (adiv A c (alit A 30))))
    else azero A.
  Definition hatSourceA (om : nat -> q3 T) (t : tmesh) (xs : list T * list T) (c a v G : nat) : T :=
    match cellPoint dec t c v with
    | Some p => hatValueA (nth c (fst xs) (azero A)) (nth c (snd xs) (azero A)) p (om a)
    | None => azero A
    end.

  (** src/Main.cc:255 on one rank: the mesh of the file argv[1], and its TychoMesh. *)
  Definition createMesh (q : angles T) (file : bytes) (np r : nat) : option tmesh :=
    let* P := readInParallel file (N.of_nat np) (N.of_nat r) in
    let* t := readTychoMesh ltb P (N.of_nat r) in
    if constructs A dec (q_omega q) t (q_num q) then Some t else None.

  (** 270-274, and the constructors of GraphTraverser and SweeperTraverse. [threads]: OpenMP threads of every rank. *)
  Definition traverser (cfg : config T) (q : angles T) (t : nat -> tmesh) (np threads : nat) : run (value T) (block T) :=
    mkRun Forward true (mpiOf (cMpi cfg)) np (q_num q) threads (N.to_nat (cMaxCellsPerStep cfg)) (getDataSizeInBytes (cNGroups cfg))
      (fun r => viewMesh A dec (q_omega q) (t r))
      (mkTdata _ _ (fun _ _ _ _ => None) (fun _ _ _ _ _ _ _ => azero A) (fun _ _ _ _ _ _ _ => azero A) (fun _ _ _ => 0%N)) (fun _ => None).

  (** What the sweep needs of the other objects: cross sections, fixed source. *)
  Notation sT xs := (fun r c => nth c (fst (xs r)) (azero A)).
  Notation sS xs := (fun r c => nth c (snd (xs r)) (azero A)).
  Notation geo q t := (fun r => viewGeo A dec (q_omega q) (t r)).
  Notation views q t := (fun r => viewMesh A dec (q_omega q) (t r)).

  (** src/SweepSchedule.cc:116, 120. *)
  Definition overTol (q : angles T) (t : nat -> tmesh) (r a c f : nat) : bool := agt A (orZero A (getOmegaDotN A dec (q_omega q) (t r) a c f)) tol.
  Definition underTol (q : angles T) (t : nat -> tmesh) (r a c f : nat) : bool := agt A (aneg A tol) (orZero A (getOmegaDotN A dec (q_omega q) (t r) a c f)).
  (** The constructor of Sweeper, src/Sweeper.cc:320-350: a schedule for the angles of each thread. *)
  Definition schedules (cfg : config T) (q : angles T) (t : nat -> tmesh) (np threads : nat) (pr : nat -> nat -> nat -> N)
      (sched : nat -> list (nat -> list (nat * nat))) : Prop :=
    forall g, g < threads -> let ang := AngleModel.sweeperAngles (q_num q) threads g in
      ScheduleModel.ordering np (views q t) ang (overTol q t) (underTol q t) (fun r a c => pr r c (nth a ang 0)) (cMaxCellsPerStep cfg) (sched g).
  (** src/Sweeper.cc:369-491 from psi to its end; psiBound starts as zero (src/PsiData.hh:208-218). As in BitsModel.v, there is no
      result if a check of the cell solver fails. *)
  Definition tychoSweep (ty : OrigModel.sweepType) (cfg : config T) (q : angles T) (t : nat -> tmesh) (np threads : nat) (xs : nat -> list T * list T)
      (pr : nat -> nat -> nat -> N) (sched : nat -> list (nat -> list (nat * nat))) (src psi psi' : GPsi) : Prop :=
    exists rv n S,
      OrigModel.oreach np threads (views q t) (sweepData A (gaussOf (cGauss cfg)) (N.to_nat (cNGroups cfg)) (geo q t) (sT xs) src pr) ty rv
        (OrigModel.ostart np threads (views q t) (overTol q t) (AngleModel.sweeperAngles (q_num q) threads) sched ty
           (fun r c a => Some (psi r c a)) (fun _ _ _ _ _ => azero A)) n S /\
      OrigModel.oend np threads S /\
      (forall r c a, TraverseSpec.valid np (q_num q) (views q t) r c a -> OrigModel.o_val (OrigModel.os S r) c a <> None) /\
      psi' = fun r c a v G => getBlock A (OrigModel.o_val (OrigModel.os S r) c a) v G.
  (** src/Main.cc:268-316: the sweep of the solver that the deck names. [pr]: the priorities (whatever they are). *)
  Definition sweeper (cfg : config T) (q : angles T) (t : nat -> tmesh) (np threads : nat) (xs : nat -> list T * list T)
      (pr : nat -> nat -> nat -> N) (sweep : GPsi -> GPsi -> GPsi -> Prop) : Prop :=
    match cSweep cfg with
    | TraverseGraph => sweep = fullSweepA A (traverser cfg q t np threads) (gaussOf (cGauss cfg)) (N.to_nat (cNGroups cfg)) (geo q t) (sT xs) pr
    | OriginalTycho1 => exists sched, schedules cfg q t np threads pr sched /\ sweep = tychoSweep OrigModel.Tycho1 cfg q t np threads xs pr sched
    | OriginalTycho2 => exists sched, schedules cfg q t np threads pr sched /\ sweep = tychoSweep OrigModel.Tycho2 cfg q t np threads xs pr sched
    | _ => False
    end.
  (** src/SweeperTraverse.cc:64-73 and src/Sweeper.cc:356-365 with g_useSourceIteration; [iters] is what fixedPoint returns;
      [gsum]: MPI_Allreduce. *)
  Definition sweeperSolve (cfg : config T) (q : angles T) (t : nat -> tmesh) (np threads : nat) (xs : nat -> list T * list T)
      (pr : nat -> nat -> nat -> N) (gsum : (nat -> T) -> T) (iters : N) (psi : GPsi) : Prop :=
    exists sweep phiNew phiOld error, sweeper cfg q t np threads xs pr sweep /\
      fixedPoint A pi (q_num q) (N.to_nat (cNGroups cfg)) (q_weight q) (fun r => rm_nCells (views q t r)) (sS xs) gsum sweep (cIterMax cfg) (cErrMax cfg)
        (fun r => hatSourceA (q_omega q) (t r) (xs r)) (fun _ _ _ _ _ => azero A) iters psi phiNew phiOld error.

  (** The PsiData of a rank as it lies in memory (src/PsiData.hh:155-163). *)
  Definition psiRank (nG nA : nat) (t : tmesh) (psi : nat -> nat -> nat -> nat -> T) : psirank :=
    mkPsiRank (tm_lGCells t)
      (mkBuf (size4 (N.of_nat nG) 4 (N.of_nat nA) (N.of_nat (tm_nCells t)))
         (fun k => let g := N.of_nat nG in let a := N.of_nat nA in
            enc (psi (N.to_nat (k / (g * 4 * a))) (N.to_nat ((k / (g * 4)) mod a)) (N.to_nat ((k / g) mod 4)) (N.to_nat (k mod g)))%N)).
  (** 349-351: the writes of all ranks, in any order. *)
  Definition writePsi (nG nA np : nat) (t : nat -> tmesh) (psi : GPsi) (out : file) : Prop :=
    exists ws l, allWrites (N.of_nat nG) 4 (N.of_nat nA) (map (fun r => psiRank nG nA (t r) (psi r)) (seq 0 np)) = Some ws /\
      Permutation l (concat ws) /\ forall p, out p = applyWrites emptyFile l p.

  (** The whole program on [np] ranks. [fname], [deck]: argv[2] and its contents; [mesh]: of argv[1]; result: number of iterations, and name and
      contents of the output file if there is one. No result: the program stops in a failed check (or a solver that is not in this model). *)
  Definition mainRun (fname deck : chars) (mesh : bytes) (np threads : nat) (pr : nat -> nat -> nat -> N) (gsum : (nat -> T) -> T)
      (iters : N) (out : option (chars * file)) : Prop :=
    exists cfg q t xs psi,
      readInput stod fname (Some deck) = Some cfg /\ quadrature (cSnOrder cfg) = Some q /\
      (forall r, r < np -> createMesh q mesh np r = Some (t r)) /\
      (forall r, r < np -> createCrossSections (tm_material (t r)) (cSigmaT1 cfg) (cSigmaS1 cfg) (cSigmaT2 cfg) (cSigmaS2 cfg) = Some (xs r)) /\
      cUseSI cfg = true /\
      sweeperSolve cfg q t np threads xs pr gsum iters psi /\
      match out with
      | Some (name, f) => cOutputFile cfg = true /\ name = cOutputFilename cfg /\ writePsi (N.to_nat (cNGroups cfg)) (q_num q) np t psi f
      | None => cOutputFile cfg = false
      end.
End Main.
