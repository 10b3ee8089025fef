(** src/SweeperPBJ.cc in an arbitrary arithmetic, and the program (src/Main.cc:186-359) with SweepType PBJ, PBJOuter or PBJSI and SourceIteration:
    from its two files to its output file. BlockModel.v and PbjModel.v are the same solvers over the reals, without what they keep from one sweep to the next.

    psi and the source are by rank, cell, angle, vertex, group; psiBound by rank, side, angle, face vertex, group. The model also returns a log of
    what was done ([op]); the numbers of iterations that are printed can be read off it.
    Not modelled: the timers, the Krylov branch. What is printed is in ProgressModel.v. *)
From Verif Require Import Prelude Bytes LayoutModel PsiFileModel DeckModel MeshModel TychoModel GeometryModel GaussModel TransportModel TraverseModel TraverseSpec TraverseRun SweepModel CommModel BlockModel FluxModel ProblemModel ViewModel MainModel.

(** The scalar flux is computed (Util::psiToPhi), a local sweep done (Util::sweepLocal), side data exchanged (CommSides::commSides). *)
Inductive op := OFlux | OSweep | OExchange.

Section Jacobi.
  Context {T : Type}.
  Variables (A : arith T) (R0 : run (value T) (block T)) (g : gaussElim) (nGroups : nat) (geo : nat -> rgeo T) (sigmaT : nat -> nat -> T) (pr : nat -> nat -> nat -> N).
  Variables (pi : T) (sigmaS : nat -> nat -> T) (wt : nat -> T) (gsum : (nat -> T) -> T).
  Notation GPsi := (nat -> nat -> nat -> nat -> nat -> T).
  Notation GPhi := (nat -> nat -> nat -> nat -> T).
  Notation GBnd := (nat -> nat -> nat -> nat -> nat -> T).
  Notation nA := (u_angles R0).
  Notation nC := (fun r => rm_nCells (u_mesh R0 r)).
  (** Main.cc:284-314: the traverser without communication, with this source. *)
  Definition localRun (src : GPsi) : run (value T) (block T) :=
    mkRun (u_dir R0) false (u_mpi R0) (u_ranks R0) nA (u_threads R0) (u_max R0) (u_psize R0) (u_mesh R0) (sweepData A g nGroups geo sigmaT src pr) (u_mate R0).
  (** Util.cc:138-145 sweepLocal on all ranks, when no check of the cell solver fails (otherwise the program aborts). *)
  Definition localSweepA (src psi : GPsi) (bnd : GBnd) (psi' : GPsi) (bnd' : GBnd) : Prop :=
    exists val, sweepLocal (localRun src) (fun r c a => Some (psi r c a)) bnd val bnd' /\
      (forall r c a, valid (u_ranks R0) nA (u_mesh R0) r c a -> val r c a <> None) /\
      psi' = fun r c a v G => getBlock A (val r c a) v G.
  (** CommSides::commSides on all ranks. *)
  Definition commAllA (psi : GPsi) (bnd bnd' : GBnd) : Prop :=
    exchange (fun _ _ => azero A) (localRun (fun _ _ _ _ _ => azero A)) (fun r c a => Some (psi r c a)) bnd bnd'.
  (** SweeperPBJ.cc:190-203 (and 86-103): the loop over the array (src/PsiData.hh:155-163), Comm::gsum, the quotient. *)
  Definition psiEntries (r : nat) : list (nat * nat * nat * nat) := list_prod (list_prod (list_prod (seq 0 (nC r)) (seq 0 nA)) (seq 0 4)) (seq 0 nGroups).
  Definition psiErrorSum (r : nat) (psi0 psi : GPsi) : T :=
    fold_left (fun s k => let '(c, a, v, G) := k in aadd A s (aabs A (asub A (psi0 r c a v G) (psi r c a v G)))) (psiEntries r) (azero A).
  Definition psiNormSum (r : nat) (psi : GPsi) : T :=
    fold_left (fun s k => let '(c, a, v, G) := k in aadd A s (aabs A (psi r c a v G))) (psiEntries r) (azero A).
  Definition psiRelError (psi0 psi : GPsi) : T := adiv A (gsum (fun r => psiErrorSum r psi0 psi)) (gsum (fun r => psiNormSum r psi)).

  Variables (ddIterMax : N) (ddErrMax : T).
  (** 180-212, the loop of SweeperPBJ::sweep from [iter] on: psi0, psi and c_psiBoundPrev; what is done, psi and c_psiBoundPrev at the end. *)
  Inductive jacobiLoop (src : GPsi) : N -> GPsi -> GPsi -> GBnd -> list op -> GPsi -> GBnd -> Prop :=
  | ja_limit iter psi0 psi bnd : N.ltb iter ddIterMax = false -> jacobiLoop src iter psi0 psi bnd [] psi bnd
  | ja_break iter psi0 psi bnd psi' bnd' : N.ltb iter ddIterMax = true -> localSweepA src psi bnd psi' bnd' -> agt A ddErrMax (psiRelError psi0 psi') = true ->
      jacobiLoop src iter psi0 psi bnd [OSweep] psi' bnd'
  | ja_next iter psi0 psi bnd psi1 bnd1 bnd2 ops psi' bnd' : N.ltb iter ddIterMax = true -> localSweepA src psi bnd psi1 bnd1 -> agt A ddErrMax (psiRelError psi0 psi1) = false ->
      commAllA psi1 bnd1 bnd2 -> jacobiLoop src (N.succ iter) psi1 psi1 bnd2 ops psi' bnd' ->
      jacobiLoop src iter psi0 psi bnd (OSweep :: OExchange :: ops) psi' bnd'.
  (** 168-219 SweeperPBJ::sweep. *)
  Definition jacobiSweep (src psi : GPsi) (bnd : GBnd) : list op -> GPsi -> GBnd -> Prop := jacobiLoop src 1 psi psi bnd.
  (** 129-138 SweeperPBJOuter::sweep (fixedPoint passes zeroPsiBound = false). *)
  Definition outerSweep (src psi : GPsi) (bnd : GBnd) (ops : list op) (psi' : GPsi) (bnd' : GBnd) : Prop := ops = [OSweep] /\ localSweepA src psi bnd psi' bnd'.

  (** SourceIteration.cc:144-190 as in FluxModel.v, for a sweeper that keeps side data [bnd]. *)
  Section Fixed.
    Variables (sweep : GPsi -> GPsi -> GBnd -> list op -> GPsi -> GBnd -> Prop) (iterMax : N) (errMax : T) (source : GPsi).
    Inductive fixedLoop : N -> T -> GPsi -> GBnd -> GPsi -> GPhi -> list op -> GPsi -> GBnd -> Prop :=
    | fl_end iter error psi bnd total phiNew : (N.ltb iter iterMax && agt A error errMax) = false -> fixedLoop iter error psi bnd total phiNew [] psi bnd
    | fl_next iter error psi bnd total phiNew ops1 psi1 bnd1 ops psi' bnd' : (N.ltb iter iterMax && agt A error errMax) = true ->
        let total1 := gTotal A pi nA nGroups nC sigmaS source phiNew total in
        sweep total1 psi bnd ops1 psi1 bnd1 ->
        let phi1 := gPsiToPhi A nA nGroups wt nC psi1 in
        fixedLoop (N.succ iter) (relError A nGroups nC gsum phi1 phiNew) psi1 bnd1 total1 phi1 ops psi' bnd' ->
        fixedLoop iter error psi bnd total phiNew (ops1 ++ OFlux :: ops) psi' bnd'.
    (** 127-143: psiToPhi, then the loop. *)
    Definition fixedA (psi : GPsi) (bnd : GBnd) (ops : list op) (psi' : GPsi) (bnd' : GBnd) : Prop :=
      exists ops', ops = OFlux :: ops' /\ fixedLoop 0 (aone A) psi bnd (fun _ _ _ _ _ => azero A) (gPsiToPhi A nA nGroups wt nC psi) ops' psi' bnd'.
  End Fixed.
  Variables (iterMax : N) (errMax : T) (source : GPsi).
  Definition zeroP : GPsi := fun _ _ _ _ _ => azero A.

  (** 150-163 SweeperPBJ::solve; PsiBoundData starts as zero (src/PsiData.hh:208-218). *)
  Definition solvePBJ (ops : list op) (psi : GPsi) : Prop := exists bnd, fixedA jacobiSweep iterMax errMax source zeroP zeroP ops psi bnd.

  (** 71-112, the loop of SweeperPBJOuter::solve; psi0 starts as zero (src/PsiData.hh:92-102). *)
  Inductive outerLoopA : N -> GPsi -> GPsi -> GBnd -> list op -> GPsi -> Prop :=
  | oa_limit iter psi0 psi bnd : N.ltb iter ddIterMax = false -> outerLoopA iter psi0 psi bnd [] psi
  | oa_break iter psi0 psi bnd ops psi' bnd' : N.ltb iter ddIterMax = true -> fixedA outerSweep iterMax errMax source psi bnd ops psi' bnd' ->
      agt A ddErrMax (psiRelError psi0 psi') = true -> outerLoopA iter psi0 psi bnd ops psi'
  | oa_next iter psi0 psi bnd ops1 psi1 bnd1 bnd2 ops psi' : N.ltb iter ddIterMax = true -> fixedA outerSweep iterMax errMax source psi bnd ops1 psi1 bnd1 ->
      agt A ddErrMax (psiRelError psi0 psi1) = false -> commAllA psi1 bnd1 bnd2 -> outerLoopA (N.succ iter) psi1 psi1 bnd2 ops psi' ->
      outerLoopA iter psi0 psi bnd (ops1 ++ OExchange :: ops) psi'.
  Definition solvePBJOuter (ops : list op) (psi : GPsi) : Prop := outerLoopA 1 zeroP zeroP zeroP ops psi.

  (** 246-277, the loop of SweeperPBJSI::solve. *)
  Inductive siLoopA : N -> GPhi -> GPsi -> GBnd -> GPsi -> list op -> GPsi -> Prop :=
  | sa_limit iter phi0 psi bnd total : N.ltb iter ddIterMax = false -> siLoopA iter phi0 psi bnd total [] psi
  | sa_break iter phi0 psi bnd total psi' bnd1 bnd2 : N.ltb iter ddIterMax = true ->
      localSweepA (gTotal A pi nA nGroups nC sigmaS source phi0 total) psi bnd psi' bnd1 -> commAllA psi' bnd1 bnd2 ->
      agt A ddErrMax (relError A nGroups nC gsum (gPsiToPhi A nA nGroups wt nC psi') phi0) = true ->
      siLoopA iter phi0 psi bnd total [OSweep; OFlux; OExchange] psi'
  | sa_next iter phi0 psi bnd total psi1 bnd1 bnd2 ops psi' : N.ltb iter ddIterMax = true ->
      localSweepA (gTotal A pi nA nGroups nC sigmaS source phi0 total) psi bnd psi1 bnd1 -> commAllA psi1 bnd1 bnd2 ->
      agt A ddErrMax (relError A nGroups nC gsum (gPsiToPhi A nA nGroups wt nC psi1) phi0) = false ->
      siLoopA (N.succ iter) (gPsiToPhi A nA nGroups wt nC psi1) psi1 bnd2 (gTotal A pi nA nGroups nC sigmaS source phi0 total) ops psi' ->
      siLoopA iter phi0 psi bnd total (OSweep :: OFlux :: OExchange :: ops) psi'.
  Definition solvePBJSI (ops : list op) (psi : GPsi) : Prop := siLoopA 1 (fun _ _ _ _ => azero A) zeroP zeroP zeroP ops psi.
End Jacobi.

Section Main.
  Context {T : Type}.
  Variables (A : arith T) (dec : N -> T) (enc : T -> N) (stod : chars -> option T) (ltb : N -> N -> bool) (quadrature : N -> option (angles T)) (pi : T).
  Notation GPsi := (nat -> nat -> nat -> nat -> nat -> T).
  (** Main.cc:284-314: solve of the sweeper that the deck names. *)
  Definition solveBlock (cfg : config T) (q : angles T) (t : nat -> tmesh) (np threads : nat) (xs : nat -> list T * list T)
      (pr : nat -> nat -> nat -> N) (gsum : (nat -> T) -> T) (ops : list op) (psi : GPsi) : Prop :=
    let R0 := traverser A dec cfg q t np threads in
    let ge := gaussOf (cGauss cfg) in
    let nG := N.to_nat (cNGroups cfg) in
    let geo := fun r => viewGeo A dec (q_omega q) (t r) in
    let sT := fun r c => nth c (fst (xs r)) (azero A) in
    let sS := fun r c => nth c (snd (xs r)) (azero A) in
    let source := fun r => hatSourceA A dec (q_omega q) (t r) (xs r) in
    match cSweep cfg with
    | PBJ => cUseSI cfg = true /\ solvePBJ A R0 ge nG geo sT pr pi sS (q_weight q) gsum (cDdIterMax cfg) (cDdErrMax cfg) (cIterMax cfg) (cErrMax cfg) source ops psi
    | PBJOuter => cUseSI cfg = true /\ solvePBJOuter A R0 ge nG geo sT pr pi sS (q_weight q) gsum (cDdIterMax cfg) (cDdErrMax cfg) (cIterMax cfg) (cErrMax cfg) source ops psi
    | PBJSI => solvePBJSI A R0 ge nG geo sT pr pi sS (q_weight q) gsum (cDdIterMax cfg) (cDdErrMax cfg) source ops psi
    | _ => False
    end.
  (** The whole program on [np] ranks, as [mainRun] in MainModel.v. *)
  Definition mainBlock (fname deck : chars) (mesh : bytes) (np threads : nat) (pr : nat -> nat -> nat -> N) (gsum : (nat -> T) -> T)
      (ops : list op) (out : option (chars * file)) : Prop :=
    exists cfg q t xs psi,
      readInput stod fname (Some deck) = Some cfg /\ quadrature (cSnOrder cfg) = Some q /\
      (forall r, r < np -> createMesh A dec ltb q mesh np r = Some (t r)) /\
      (forall r, r < np -> createCrossSections (tm_material (t r)) (cSigmaT1 cfg) (cSigmaS1 cfg) (cSigmaT2 cfg) (cSigmaS2 cfg) = Some (xs r)) /\
      solveBlock cfg q t np threads xs pr gsum ops psi /\
      match out with
      | Some (name, f) => cOutputFile cfg = true /\ name = cOutputFilename cfg /\ writePsi enc (N.to_nat (cNGroups cfg)) (q_num q) np t psi f
      | None => cOutputFile cfg = false
      end.
End Main.
