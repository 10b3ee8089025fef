(** What the solvers print about their iterations, in an arbitrary arithmetic: src/SourceIteration.cc:127-207 and src/SweeperPBJ.cc, by rank 0.

    A [line] is one call of printf, or the timers that one sweep prints. The loops are those of FluxModel.v and JacobiModel.v; here they also
    return the lines in order. Times are left out of the lines; [text] takes them, and the digits of %e, as parameters.
    Not modelled: the Krylov branch, what PETSc prints. *)
From Coq Require Import String.
From Verif Require Import Prelude Bytes LayoutModel PsiFileModel DeckModel MeshModel TychoModel GeometryModel GaussModel TransportModel TraverseModel TraverseSpec TraverseRun SweepModel CommModel BlockModel FluxModel ProblemModel ViewModel BitsModel MainModel JacobiModel MoabModel.
Local Open Scope list_scope.

Inductive line (T : Type) :=
| LTimers                                  (* GraphTraverser.cc:753-757 or Sweeper.cc:511-513: times of one sweep *)
| LIteration (iter : N) (error : T)        (* SourceIteration.cc:183-184 *)
| LSourceTime                              (* 198-199 *)
| LAverage (iter : N)                      (* 200-201: the time divided by iter *)
| LRelative (error : T)                    (* SweeperPBJ.cc:99, 268 *)
| LPbj (iter : N)                          (* 117, 282 *)
| LSourceIts (its : list N)                (* 118-121, 283-286 *)
| LPbjSweep (iter : N)                     (* 217 *)
| LLocal (n : N).                          (* 160 *)
Arguments LTimers {T}. Arguments LIteration {T}. Arguments LSourceTime {T}. Arguments LAverage {T}. Arguments LRelative {T}. Arguments LPbj {T}.
Arguments LSourceIts {T}. Arguments LPbjSweep {T}. Arguments LLocal {T}.

(** The text of a line that shows a number; [fmtE] is %e, [time] what stands for the time. *)
Definition text {T} (fmtE : T -> list N) (time : list N) (l : line T) : list N :=
  match l with
  | LTimers => time
  | LIteration iter error => str "   iteration: " ++ toString iter ++ str "   error: " ++ fmtE error ++ str "   time: " ++ time ++ [10%N]
  | LSourceTime => [10%N] ++ str "Total source iteration time: " ++ time ++ [10%N]
  | LAverage _ => str "Average source iteration time: " ++ time ++ [10%N; 10%N]
  | LRelative error => str "Relative error: " ++ fmtE error ++ [10%N]
  | LPbj iter => str "PBJ Iters: " ++ toString iter ++ [10%N]
  | LSourceIts its => str "Num source iterations:" ++ flat_map (fun n => 32%N :: toString n) its ++ [10%N]
  | LPbjSweep iter => str "      PBJ Iters: " ++ toString iter ++ [10%N]
  | LLocal n => str "Num source iters: " ++ toString n ++ [10%N]
  end.

Section Progress.
  Context {T : Type}.
  Variables (A : arith T) (pi : T) (nA nGroups : nat) (wt : nat -> T) (nC : nat -> nat) (sigmaS : nat -> nat -> T) (gsum : (nat -> T) -> T).
  Notation GPsi := (nat -> nat -> nat -> nat -> nat -> T).
  Notation GPhi := (nat -> nat -> nat -> nat -> T).
  Notation log := (list (line T)).

  (** SourceIteration.cc:144-190 for a sweeper with a state [X] of its own that prints lines. *)
  Section Fixed.
    Context {X : Type}.
    Variables (sweep : GPsi -> GPsi -> X -> log -> GPsi -> X -> Prop) (iterMax : N) (errMax : T) (source : GPsi).
    Inductive fixedLog : N -> T -> GPsi -> X -> GPsi -> GPhi -> log -> N -> GPsi -> X -> Prop :=
    | fg_end iter error psi x total phiNew : (N.ltb iter iterMax && agt A error errMax) = false -> fixedLog iter error psi x total phiNew [] iter psi x
    | fg_next iter error psi x total phiNew log1 psi1 x1 log iter' psi' x' : (N.ltb iter iterMax && agt A error errMax) = true ->
        let total1 := gTotal A pi nA nGroups nC sigmaS source phiNew total in
        sweep total1 psi x log1 psi1 x1 ->
        let phi1 := gPsiToPhi A nA nGroups wt nC psi1 in
        let error1 := relError A nGroups nC gsum phi1 phiNew in
        fixedLog (N.succ iter) error1 psi1 x1 total1 phi1 log iter' psi' x' ->
        fixedLog iter error psi x total phiNew (log1 ++ LIteration iter error1 :: log) iter' psi' x'.
    (** 127-207; [its] is what it returns. *)
    Definition fixedPointLog (psi : GPsi) (x : X) (l : log) (its : N) (psi' : GPsi) (x' : X) : Prop :=
      exists l', l = l' ++ [LSourceTime; LAverage its] /\
        fixedLog 0 (aone A) psi x (fun _ _ _ _ _ => azero A) (gPsiToPhi A nA nGroups wt nC psi) l' its psi' x'.
  End Fixed.
  (** A sweeper without a state of its own, which prints its timers. *)
  Definition plain (sweep : GPsi -> GPsi -> GPsi -> Prop) (src psi : GPsi) (x : unit) (l : log) (psi' : GPsi) (x' : unit) : Prop := sweep src psi psi' /\ l = [LTimers].
End Progress.

Section Jacobi.
  Context {T : Type}.
  Variables (A : arith T) (R0 : run (value T) (block T)) (g : gaussElim) (nGroups : nat) (geo : nat -> rgeo T) (sigmaT : nat -> nat -> T) (pr : nat -> nat -> nat -> N).
  Variables (pi : T) (sigmaS : nat -> nat -> T) (wt : nat -> T) (gsum : (nat -> T) -> T).
  Notation GPsi := (nat -> nat -> nat -> nat -> nat -> T).
  Notation GPhi := (nat -> nat -> nat -> nat -> T).
  Notation GBnd := (nat -> nat -> nat -> nat -> nat -> T).
  Notation log := (list (line T)).
  Notation nA := (u_angles R0).
  Notation nC := (fun r => rm_nCells (u_mesh R0 r)).
  Notation local := (localSweepA A R0 g nGroups geo sigmaT pr).
  Notation comm := (commAllA A R0 g nGroups geo sigmaT pr).
  Notation psiError := (psiRelError A R0 nGroups gsum).
  Notation fixed := (fixedPointLog A pi nA nGroups wt nC sigmaS gsum).

  Variables (ddIterMax : N) (ddErrMax : T).
  (** SweeperPBJ.cc:180-219; c_psiBoundPrev and c_iters (64 bits) are kept from one sweep to the next. *)
  Inductive jacobiLog (src : GPsi) : N -> GPsi -> GPsi -> GBnd * N -> log -> GPsi -> GBnd * N -> Prop :=
  | jl_limit iter psi0 psi x : N.ltb iter ddIterMax = false -> jacobiLog src iter psi0 psi x [LPbjSweep iter] psi x
  | jl_break iter psi0 psi bnd n psi' bnd' : N.ltb iter ddIterMax = true -> local src psi bnd psi' bnd' -> agt A ddErrMax (psiError psi0 psi') = true ->
      jacobiLog src iter psi0 psi (bnd, n) [LTimers; LPbjSweep iter] psi' (bnd', w64 (n + 1))
  | jl_next iter psi0 psi bnd n psi1 bnd1 bnd2 l psi' x' : N.ltb iter ddIterMax = true -> local src psi bnd psi1 bnd1 -> agt A ddErrMax (psiError psi0 psi1) = false ->
      comm psi1 bnd1 bnd2 -> jacobiLog src (N.succ iter) psi1 psi1 (bnd2, w64 (n + 1)) l psi' x' ->
      jacobiLog src iter psi0 psi (bnd, n) (LTimers :: l) psi' x'.
  (** 168-219 SweeperPBJ::sweep. *)
  Definition jacobiSweepLog (src psi : GPsi) (x : GBnd * N) : log -> GPsi -> GBnd * N -> Prop := jacobiLog src 1 psi psi x.
  (** 129-138 SweeperPBJOuter::sweep. *)
  Definition outerSweepLog (src psi : GPsi) (bnd : GBnd) (l : log) (psi' : GPsi) (bnd' : GBnd) : Prop := l = [LTimers] /\ local src psi bnd psi' bnd'.

  Variables (iterMax : N) (errMax : T) (source : GPsi).
  Notation zero := (zeroP A).
  (** 144-163 SweeperPBJ::solve. *)
  Definition solvePBJLog (l : log) (its n : N) (psi : GPsi) : Prop :=
    exists l' bnd, l = l' ++ [LLocal n] /\ fixed jacobiSweepLog iterMax errMax source zero (zero, 0%N) l' its psi (bnd, n).
  (** 71-121 SweeperPBJOuter::solve from [iter] on; [its]: sourceIts so far. *)
  Inductive outerLog : N -> GPsi -> GPsi -> GBnd -> list N -> log -> GPsi -> Prop :=
  | ol_limit iter psi0 psi bnd its : N.ltb iter ddIterMax = false -> outerLog iter psi0 psi bnd its [LPbj iter; LSourceIts its] psi
  | ol_break iter psi0 psi bnd its k l psi' bnd' : N.ltb iter ddIterMax = true -> fixed outerSweepLog iterMax errMax source psi bnd l k psi' bnd' ->
      agt A ddErrMax (psiError psi0 psi') = true ->
      outerLog iter psi0 psi bnd its (l ++ [LRelative (psiError psi0 psi'); LPbj iter; LSourceIts (its ++ [k])]) psi'
  | ol_next iter psi0 psi bnd its k l1 psi1 bnd1 bnd2 l psi' : N.ltb iter ddIterMax = true -> fixed outerSweepLog iterMax errMax source psi bnd l1 k psi1 bnd1 ->
      agt A ddErrMax (psiError psi0 psi1) = false -> comm psi1 bnd1 bnd2 -> outerLog (N.succ iter) psi1 psi1 bnd2 (its ++ [k]) l psi' ->
      outerLog iter psi0 psi bnd its (l1 ++ LRelative (psiError psi0 psi1) :: l) psi'.
  Definition solvePBJOuterLog (l : log) (psi : GPsi) : Prop := outerLog 1 zero zero zero [] l psi.
  (** 246-287 SweeperPBJSI::solve; its sourceIts is never filled. *)
  Notation flux psi := (gPsiToPhi A nA nGroups wt nC psi).
  Notation change phi phi0 := (relError A nGroups nC gsum phi phi0).
  Inductive siLog : N -> GPhi -> GPsi -> GBnd -> GPsi -> log -> GPsi -> Prop :=
  | sl_limit iter phi0 psi bnd total : N.ltb iter ddIterMax = false -> siLog iter phi0 psi bnd total [LPbj iter; LSourceIts []] psi
  | sl_break iter phi0 psi bnd total psi' bnd1 bnd2 : N.ltb iter ddIterMax = true ->
      local (gTotal A pi nA nGroups nC sigmaS source phi0 total) psi bnd psi' bnd1 -> comm psi' bnd1 bnd2 ->
      agt A ddErrMax (change (flux psi') phi0) = true ->
      siLog iter phi0 psi bnd total [LTimers; LRelative (change (flux psi') phi0); LPbj iter; LSourceIts []] psi'
  | sl_next iter phi0 psi bnd total psi1 bnd1 bnd2 l psi' : N.ltb iter ddIterMax = true ->
      local (gTotal A pi nA nGroups nC sigmaS source phi0 total) psi bnd psi1 bnd1 -> comm psi1 bnd1 bnd2 ->
      agt A ddErrMax (change (flux psi1) phi0) = false ->
      siLog (N.succ iter) (flux psi1) psi1 bnd2 (gTotal A pi nA nGroups nC sigmaS source phi0 total) l psi' ->
      siLog iter phi0 psi bnd total (LTimers :: LRelative (change (flux psi1) phi0) :: l) psi'.
  Definition solvePBJSILog (l : log) (psi : GPsi) : Prop := siLog 1 (fun _ _ _ _ => azero A) zero zero zero l psi.
End Jacobi.

Section Main.
  Context {T : Type}.
  Variables (A : arith T) (dec : N -> T) (enc : T -> N) (stod : chars -> option T) (ltb : N -> N -> bool) (quadrature : N -> option (angles T)) (pi tol : T).
  Notation GPsi := (nat -> nat -> nat -> nat -> nat -> T).
  (** [sweeperSolve] of MainModel.v with what it prints. *)
  Definition sweeperSolveLog (cfg : config T) (q : angles T) (t : nat -> tmesh) (np threads : nat) (xs : nat -> list T * list T)
      (pr : nat -> nat -> nat -> N) (gsum : (nat -> T) -> T) (l : list (line T)) (iters : N) (psi : GPsi) : Prop :=
    exists sweep, sweeper A dec tol cfg q t np threads xs pr sweep /\
      fixedPointLog A pi (q_num q) (N.to_nat (cNGroups cfg)) (q_weight q) (fun r => rm_nCells (viewMesh A dec (q_omega q) (t r)))
        (fun r c => nth c (snd (xs r)) (azero A)) gsum (plain sweep) (cIterMax cfg) (cErrMax cfg)
        (fun r => hatSourceA A dec (q_omega q) (t r) (xs r)) (fun _ _ _ _ _ => azero A) tt l iters psi tt.
  (** [mainRun] of MainModel.v with what its solver prints. *)
  Definition mainRunLog (fname deck : chars) (mesh : bytes) (np threads : nat) (pr : nat -> nat -> nat -> N) (gsum : (nat -> T) -> T)
      (l : list (line T)) (iters : N) (out : option (chars * file)) : Prop :=
    exists cfg q t xs psi,
      readInput stod fname (Some deck) = Some cfg /\ quadrature (cSnOrder cfg) = Some q /\
      (forall r, r < np -> createMesh A dec ltb q mesh np r = Some (t r)) /\
      (forall r, r < np -> createCrossSections (tm_material (t r)) (cSigmaT1 cfg) (cSigmaS1 cfg) (cSigmaT2 cfg) (cSigmaS2 cfg) = Some (xs r)) /\
      cUseSI cfg = true /\
      sweeperSolveLog cfg q t np threads xs pr gsum l iters psi /\
      match out with
      | Some (name, f) => cOutputFile cfg = true /\ name = cOutputFilename cfg /\ writePsi enc (N.to_nat (cNGroups cfg)) (q_num q) np t psi f
      | None => cOutputFile cfg = false
      end.
  (** [solveBlock] of JacobiModel.v with what it prints. *)
  Definition solveBlockLog (cfg : config T) (q : angles T) (t : nat -> tmesh) (np threads : nat) (xs : nat -> list T * list T)
      (pr : nat -> nat -> nat -> N) (gsum : (nat -> T) -> T) (l : list (line T)) (psi : GPsi) : Prop :=
    let R0 := traverser A dec cfg q t np threads in
    let ge := gaussOf (cGauss cfg) in
    let nG := N.to_nat (cNGroups cfg) in
    let geo := fun r => viewGeo A dec (q_omega q) (t r) in
    let sT := fun r c => nth c (fst (xs r)) (azero A) in
    let sS := fun r c => nth c (snd (xs r)) (azero A) in
    let source := fun r => hatSourceA A dec (q_omega q) (t r) (xs r) in
    match cSweep cfg with
    | PBJ => cUseSI cfg = true /\ exists its n, solvePBJLog A R0 ge nG geo sT pr pi sS (q_weight q) gsum (cDdIterMax cfg) (cDdErrMax cfg) (cIterMax cfg) (cErrMax cfg) source l its n psi
    | PBJOuter => cUseSI cfg = true /\ solvePBJOuterLog A R0 ge nG geo sT pr pi sS (q_weight q) gsum (cDdIterMax cfg) (cDdErrMax cfg) (cIterMax cfg) (cErrMax cfg) source l psi
    | PBJSI => solvePBJSILog A R0 ge nG geo sT pr pi sS (q_weight q) gsum (cDdIterMax cfg) (cDdErrMax cfg) source l psi
    | _ => False
    end.
End Main.
