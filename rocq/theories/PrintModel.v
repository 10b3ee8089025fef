(** src/Main.cc:339-345: the two numbers that the program prints about its result, in an arbitrary arithmetic. *)
From Coq Require Import Reals Permutation.
From Verif Require Import Prelude Bytes LayoutModel PsiFileModel DeckModel MeshModel TychoModel GeometryModel GaussModel TransportModel SweepModel FluxModel ProblemModel ViewModel BitsModel MainModel MainAllModel.

Section Print.
  Context {T : Type}.
  Variables (A : arith T) (dec : N -> T) (enc : T -> N) (stod : chars -> option T) (ltb : N -> N -> bool) (quadrature : N -> option (angles T)) (pi tol : T).
  Notation GPsi := (nat -> nat -> nat -> nat -> nat -> T).

  (** src/Util.cc:55-79; [gmax]: MPI_Allreduce with MPI_MAX; a rank contributes maxDiff / maxEntry. *)
  Definition diffRank (nG nA nC : nat) (psi : nat -> nat -> nat -> nat -> T) : T :=
    let '(maxDiff, maxEntry) := diffLoops A nG nA nC (fun G v a c => psi c a v G) in adiv A maxDiff maxEntry.
  Definition diffBetweenGroups (gmax : (nat -> T) -> T) (nG nA : nat) (nC : nat -> nat) (psi : GPsi) : T := gmax (fun r => diffRank nG nA (nC r) (psi r)).

  (** src/Problem.cc:97-127: (norm, diff) of a rank. *)
  Definition sumA (f : nat -> T) : T := fold_left (fun s v => aadd A s (f v)) (seq 0 4) (azero A).
  Definition averageA (f : nat -> T) : T := adiv A (sumA f) (alit A 4).
  Definition pointA (t : tmesh) (c v : nat) : q3 T := match cellPoint dec t c v with Some p => p | None => Q3 (azero A) (azero A) (azero A) end.
  Definition psiActualA (t : tmesh) (c : nat) : T :=
    let mid := adiv A (alit A 100) (alit A 2) in
    let x := averageA (fun v => asub A (t0 (pointA t c v)) mid) in
    let y := averageA (fun v => asub A (t1 (pointA t c v)) mid) in
    let z := averageA (fun v => asub A (t2 (pointA t c v)) mid) in
    let d := asqrt A (aadd A (aadd A (amul A x x) (amul A y y)) (amul A z z)) in
    if ale A d (alit A 30) then asub A (aone A) (adiv A d (alit A 30)) else azero A.
  Definition hatSumsA (nG nA nC : nat) (t : tmesh) (psi : nat -> nat -> nat -> nat -> T) : T * T :=
    fold_left (fun s k => let '(c, a, g) := k in
      let psiVal := averageA (fun v => psi c a v g) in
      let localDiff := asub A psiVal (psiActualA t c) in
      (aadd A (fst s) (amul A psiVal psiVal), aadd A (snd s) (amul A localDiff localDiff)))
      (list_prod (list_prod (seq 0 nC) (seq 0 nA)) (seq 0 nG)) (azero A, azero A).
  (** 130-133. *)
  Definition hatL2ErrorA (gsum : (nat -> T) -> T) (nG nA : nat) (t : nat -> tmesh) (psi : GPsi) : T :=
    let sums r := hatSumsA nG nA (tm_nCells (t r)) (t r) (psi r) in
    let norm := gsum (fun r => fst (sums r)) in
    let diff := gsum (fun r => snd (sums r)) in
    asqrt A (adiv A diff norm).

  (** src/Main.cc:340-341 with the flux of the sweeper. *)
  Definition printed (gsum gmax : (nat -> T) -> T) (cfg : config T) (q : angles T) (t : nat -> tmesh) (psi : GPsi) (psiError diffGroups : T) : Prop :=
    psiError = hatL2ErrorA gsum (N.to_nat (cNGroups cfg)) (q_num q) t psi /\
    diffGroups = diffBetweenGroups gmax (N.to_nat (cNGroups cfg)) (q_num q) (fun r => tm_nCells (t r)) psi.

  (** [mainRun] of MainModel.v with what it prints. *)
  Definition mainPrint (fname deck : chars) (mesh : bytes) (np threads : nat) (pr : nat -> nat -> nat -> N) (gsum gmax : (nat -> T) -> T)
      (iters : N) (psiError diffGroups : T) (out : option (chars * file)) : Prop :=
    exists cfg q t xs psi,
      readInput stod fname (Some deck) = Some cfg /\ quadrature (cSnOrder cfg) = Some q /\
      (forall r, r < np -> createMesh A dec ltb q mesh np r = Some (t r)) /\
      (forall r, r < np -> createCrossSections (tm_material (t r)) (cSigmaT1 cfg) (cSigmaS1 cfg) (cSigmaT2 cfg) (cSigmaS2 cfg) = Some (xs r)) /\
      cUseSI cfg = true /\
      sweeperSolve A dec pi tol cfg q t np threads xs pr gsum iters psi /\
      printed gsum gmax cfg q t psi psiError diffGroups /\
      match out with
      | Some (name, f) => cOutputFile cfg = true /\ name = cOutputFilename cfg /\ writePsi enc (N.to_nat (cNGroups cfg)) (q_num q) np t psi f
      | None => cOutputFile cfg = false
      end.
End Print.

(** [mainAll] of MainAllModel.v with what it prints. *)
Definition mainAllPrint (dec : N -> R) (enc : R -> N) (stod : chars -> option R) (ltb : N -> N -> bool) (quadrature : N -> option (angles R)) (pi tol : R)
    kspPhi kspVec kspBoth (fname deck : chars) (mesh : bytes) (np threads : nat) (pr : nat -> nat -> nat -> N) (gsum gmax : (nat -> R) -> R)
    (its : N) (psiError diffGroups : R) (out : option (chars * file)) : Prop :=
  exists cfg q psi,
    readInput stod fname (Some deck) = Some cfg /\ quadrature (cSnOrder cfg) = Some q /\
    let t := meshes dec ltb q mesh np in
    let xs := sections cfg t np in
    (forall r, r < np -> createMesh Rops dec ltb q mesh np r <> None) /\
    (forall r, r < np -> createCrossSections (tm_material (t r)) (cSigmaT1 cfg) (cSigmaS1 cfg) (cSigmaT2 cfg) (cSigmaS2 cfg) <> None) /\
    solveAll dec pi tol kspPhi kspVec kspBoth cfg q t np threads xs pr gsum its psi /\
    printed Rops dec gsum gmax cfg q t psi psiError diffGroups /\
    match out with
    | Some (name, f) => cOutputFile cfg = true /\ name = cOutputFilename cfg /\ writePsi enc (N.to_nat (cNGroups cfg)) (q_num q) np t psi f
    | None => cOutputFile cfg = false
    end.
