(** src/Main.cc:186-359, the program from its two files to its output file, with every SweepType and both ways to treat scattering
    (SourceIteration and Krylov), in exact arithmetic. For TraverseGraph, OriginalTycho1 and OriginalTycho2 with source iteration
    this is MainModel.v.

    Not modelled: what is printed, the timers, hatL2Error and diffBetweenGroups as called at 340-341 (PrintModel.v). PETSc's KSPSolve is a relation
    that is given the operator (as a relation too: what a call may return), the right-hand side and the result. What a sweeper keeps
    from one sweep to the next (c_psiBoundPrev, the arrays of the Krylov solver) has an arbitrary value when a sweep starts. *)
From Coq Require Import Reals Permutation.
From Verif Require Import Prelude Bytes LayoutModel PsiFileModel DeckModel MeshModel TychoModel GeometryModel GaussModel TransportModel TraverseModel TraverseRun SweepModel FluxModel FluxSpec ProblemModel ViewModel BitsModel CommModel BlockModel SourceModel SchurModel PbjModel MainModel.

(** What the ranks hold: [f r] for the ranks there are. *)
Definition onRanks {X : Type} (np : nat) (none : X) (f : nat -> option X) (r : nat) : X :=
  if r <? np then match f r with Some x => x | None => none end else none.
Definition noMesh : tmesh := mkTmesh 0 0 0 [] [] [] [] (fun _ _ => 0%N) (fun _ _ => 0%N) (fun _ => 0%N) (fun _ _ => 0%N) (fun _ => 0%N) [] (fun _ _ => 0%N) (fun _ _ _ => 0%N) (fun _ _ _ => 0%N).

Section All.
  Variables (dec : N -> R) (enc : R -> N) (stod : chars -> option R) (ltb : N -> N -> bool) (quadrature : N -> option (angles R)) (pi tol : R).
  Notation GPsi := (nat -> nat -> nat -> nat -> nat -> R).
  Notation GPhi := (nat -> nat -> nat -> nat -> R).
  Notation GBnd := (nat -> nat -> nat -> nat -> nat -> R).
  Notation GVec := (nat -> N -> R).
  Notation Psi := (nat -> nat -> nat -> value R).
  (** KSPSolve (src/KrylovSolver.cc:166-169) for vectors that hold a scalar flux, interface values, or both. *)
  Variables (kspPhi : (GPhi -> GPhi -> Prop) -> GPhi -> GPhi -> Prop) (kspVec : (GVec -> GVec -> Prop) -> GVec -> GVec -> Prop)
    (kspBoth : (GVec -> GPhi -> GVec -> GPhi -> Prop) -> GVec -> GPhi -> GVec -> GPhi -> Prop).

  Section Solver.
    Variables (cfg : config R) (q : angles R) (t : nat -> tmesh) (np threads : nat) (xs : nat -> list R * list R) (pr : nat -> nat -> nat -> N) (gsum : (nat -> R) -> R).
    Notation R0 := (traverser Rops dec cfg q t np threads).
    Notation ge := (gaussOf (cGauss cfg)).
    Notation nG := (N.to_nat (cNGroups cfg)).
    Notation nA := (q_num q).
    Notation wt := (q_weight q).
    Notation geo := (fun r => viewGeo Rops dec (q_omega q) (t r)).
    Notation sT := (fun r c => nth c (fst (xs r)) 0%R).
    Notation sS := (fun r c => nth c (snd (xs r)) 0%R).
    Notation nC := (fun r => rm_nCells (viewMesh Rops dec (q_omega q) (t r))).
    Notation ddMax := (N.to_nat (cDdIterMax cfg)).

    (** Problem::getSource. *)
    Definition source : GPsi := fun r => hatSourceA Rops dec (q_omega q) (t r) (xs r).
    (** src/SourceIteration.cc:216-285 krylov with the sweep of a sweeper, and the branch on g_useSourceIteration that all sweepers share
        (e.g. src/SweeperTraverse.cc:64-73); [its]: what fixedPoint returns. *)
    Definition krylovWith (sweep : bool -> GPsi -> GPsi -> GPsi -> Prop) (src psi psi' : GPsi) : Prop :=
      krylov Rops pi nA nG wt nC sS sweep
        (kspPhi (fun x b => exists psi s psi' s', lhsOperator Rops pi nA nG wt nC sS sweep x psi s b psi' s')) src psi psi'.
    Definition iterative (sweep : bool -> GPsi -> GPsi -> GPsi -> Prop) (src psi : GPsi) (its : N) (psi' : GPsi) : Prop :=
      if cUseSI cfg
      then exists phiNew phiOld error, fixedPoint Rops pi nA nG wt nC sS gsum (sweep false) (cIterMax cfg) (cErrMax cfg) src psi its psi' phiNew phiOld error
      else krylovWith sweep src psi psi'.

    (** src/SweeperSchur.cc:249-319. *)
    Definition sweepSchur (src psi psi' : GPsi) : Prop := exists prev prev',
      schurSweep R0 ge nG geo sT pr (kspVec (fun x b => exists psi bnd b0 psi' bnd', schurOp R0 ge nG geo sT pr x psi bnd b0 b psi' bnd')) src psi prev psi' prev'.
    (** src/SweeperPBJ.cc:168-219; the test of 190-203 (and 86-103): the relative L1 error of psi over all ranks. If psi is zero the quotient is not
        finite and the test is false. *)
    Definition entriesPsi (r : nat) : list (nat * nat * nat * nat) := list_prod (list_prod (list_prod (seq 0 (nC r)) (seq 0 nA)) (seq 0 4)) (seq 0 nG).
    Definition l1Psi (f : GPsi) : R := lsum (seq 0 np) (fun r => lsum (entriesPsi r) (fun cavG => let '(c, a, v, G) := cavG in Rabs (f r c a v G))).
    Definition psiStop (psi0 psi : Psi) : bool :=
      let errL1 := l1Psi (fun r c a v G => readPsi psi0 r c a v G - readPsi psi r c a v G)%R in
      let normL1 := l1Psi (readPsi psi) in
      if Req_EM_T normL1 0 then false else if Rlt_dec (errL1 / normL1) (cDdErrMax cfg) then true else false.
    Definition sweepPBJ (src psi psi' : GPsi) : Prop := exists bnd val bnd' n,
      pbjSweep noBlock (blockRun R0 ge nG geo sT pr src) psiStop ddMax (fun r c a => Some (psi r c a)) bnd val bnd' n /\ psi' = readPsi val.
    (** src/SweeperSchur.cc:467-479 and src/SweeperPBJ.cc:129-138: a local sweep with c_psiBound or with zero. *)
    Definition sweepWith (bnd : GBnd) (zeroPsiBound : bool) (src psi psi' : GPsi) : Prop := exists bnd',
      localSweep R0 ge nG geo sT pr src psi (if zeroPsiBound then zeroBound else bnd) psi' bnd'.
    Definition inner (src : GPsi) (bnd : GBnd) (psi psi' : GPsi) : Prop := exists its, iterative (sweepWith bnd) src psi its psi'.

    (** src/Main.cc:268-325: solve of the sweeper that the deck names; [its]: number of source iterations or of block Jacobi steps (not used for
        SchurOuter and SchurKrylov). *)
    Definition solveAll (its : N) (psi : GPsi) : Prop :=
      match cSweep cfg with
      | TraverseGraph | OriginalTycho1 | OriginalTycho2 =>
          exists sweep, sweeper Rops dec tol cfg q t np threads xs pr sweep /\ iterative (fun _ => sweep) source zeroSource its psi
      | Schur => iterative (fun _ => sweepSchur) source zeroSource its psi
      | PBJ => iterative (fun _ => sweepPBJ) source zeroSource its psi
      | SchurOuter =>
          schurOuterSolve R0 ge nG geo sT pr inner
            (kspVec (fun x b => exists psi bnd b0 psi' bnd', schurOuterOp R0 ge nG geo sT pr inner x psi bnd b0 b psi' bnd')) source psi
      | SchurKrylov =>
          schurKrylovSolve R0 ge nG geo sT pr pi wt sS
            (kspBoth (fun x xphi b bphi => exists psi bnd phi src b0 psi' bnd', schurKrylovOp R0 ge nG geo sT pr pi wt sS x xphi psi bnd phi src b0 b bphi psi' bnd')) source psi
      | PBJOuter => exists val bnd n, blockOuter R0 ge nG geo sT pr (inner source) psiStop ddMax val bnd n /\ psi = readPsi val /\ its = N.of_nat n
      | PBJSI => exists tmp phi val bnd n, blockSI R0 ge nG geo sT pr pi sS wt source tmp (l1Stop R0 nG (cDdErrMax cfg)) ddMax phi val bnd n /\ psi = readPsi val /\ its = N.of_nat n
      end.
  End Solver.

  (** The meshes and cross sections of all ranks (253, 263-264). *)
  Definition meshes (q : angles R) (mesh : bytes) (np : nat) : nat -> tmesh := onRanks np noMesh (createMesh Rops dec ltb q mesh np).
  Definition sections (cfg : config R) (t : nat -> tmesh) (np : nat) : nat -> list R * list R :=
    onRanks np ([], []) (fun r => createCrossSections (tm_material (t r)) (cSigmaT1 cfg) (cSigmaS1 cfg) (cSigmaT2 cfg) (cSigmaS2 cfg)).
  (** The whole program on [np] ranks, as [mainRun] in MainModel.v. *)
  Definition mainAll (fname deck : chars) (mesh : bytes) (np threads : nat) (pr : nat -> nat -> nat -> N) (gsum : (nat -> R) -> R)
      (its : N) (out : option (chars * file)) : Prop :=
    exists cfg q psi,
      readInput stod fname (Some deck) = Some cfg /\ quadrature (cSnOrder cfg) = Some q /\
      let t := meshes q mesh np in
      let xs := sections cfg t np in
      (forall r, r < np -> createMesh Rops dec ltb q mesh np r <> None) /\
      (forall r, r < np -> createCrossSections (tm_material (t r)) (cSigmaT1 cfg) (cSigmaS1 cfg) (cSigmaT2 cfg) (cSigmaS2 cfg) <> None) /\
      solveAll cfg q t np threads xs pr gsum its psi /\
      match out with
      | Some (name, f) => cOutputFile cfg = true /\ name = cOutputFilename cfg /\ writePsi enc (N.to_nat (cNGroups cfg)) (q_num q) np t psi f
      | None => cOutputFile cfg = false
      end.
End All.
