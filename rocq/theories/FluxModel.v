(** src/Util.cc:82-159 and src/SourceIteration.cc, for an arbitrary arithmetic.

    Arrays are functions: psi cell angle vrtx group, phi cell vrtx group (PsiData and PhiData index them
    injectively, C03). The loops run in order; the omp loops are over cells, which do not interact.
    With several ranks the first argument is the rank. M_PI is a parameter. *)
From Verif Require Import Prelude MeshModel GeometryModel.

Section Flux.
  Context {T : Type}.
  Variables (A : arith T) (pi : T) (nAngles nGroups : nat) (wt : nat -> T).
  Notation Phi := (nat -> nat -> nat -> T).
  Notation Psi := (nat -> nat -> nat -> nat -> T).

  Definition quad (nCells : nat) : list (nat * nat * nat * nat) :=
    list_prod (list_prod (list_prod (seq 0 nCells) (seq 0 nAngles)) (seq 0 4)) (seq 0 nGroups).
  Definition tri (nCells : nat) : list (nat * nat * nat) := list_prod (list_prod (seq 0 nCells) (seq 0 4)) (seq 0 nGroups).
  Definition upd3 (phi : Phi) (c v g : nat) (x : T) : Phi := fun c' v' g' => if (c' =? c) && (v' =? v) && (g' =? g) then x else phi c' v' g'.
  Definition upd4 (psi : Psi) (c a v g : nat) (x : T) : Psi := fun c' a' v' g' => if (c' =? c) && (a' =? a) && (v' =? v) && (g' =? g) then x else psi c' a' v' g'.

  (** Util.cc:85-97. *)
  Definition psiToPhi (nCells : nat) (psi : Psi) : Phi :=
    fold_left (fun phi k => let '(c, a, v, g) := k in upd3 phi c v g (aadd A (phi c v g) (amul A (psi c a v g) (wt a)))) (quad nCells) (fun _ _ _ => azero A).
  (** 103-112; [psi]: the contents of the output before. *)
  Definition phiToPsi (nCells : nat) (phi : Phi) (psi : Psi) : Psi :=
    fold_left (fun psi k => let '(c, a, v, g) := k in upd4 psi c a v g (phi c v g)) (quad nCells) psi.
  (** 118-130; [total]: the contents of the output before. *)
  Definition calcTotalSource (nCells : nat) (sigmaS : nat -> T) (source : Psi) (phi : Phi) (total : Psi) : Psi :=
    fold_left (fun total k => let '(c, a, v, g) := k in
      upd4 total c a v g (aadd A (source c a v g) (amul A (adiv A (sigmaS c) (amul A (alit A 4) pi)) (phi c v g)))) (quad nCells) total.
  (** The same when totalSource is source itself. *)
  Definition calcTotalSourceAliased (nCells : nat) (sigmaS : nat -> T) (source : Psi) (phi : Phi) : Psi :=
    fold_left (fun source k => let '(c, a, v, g) := k in
      upd4 source c a v g (aadd A (source c a v g) (amul A (adiv A (sigmaS c) (amul A (alit A 4) pi)) (phi c v g)))) (quad nCells) source.
  (** 151-159, and as it is called in SourceIteration.cc:95, with phi2 and phi1 the same object. *)
  Definition operatorS (nCells : nat) (sigmaS : nat -> T) (phi1 phi2 : Phi) : Phi :=
    fold_left (fun phi2 k => let '(c, v, g) := k in upd3 phi2 c v g (amul A (adiv A (sigmaS c) (amul A (alit A 4) pi)) (phi1 c v g))) (tri nCells) phi2.
  Definition operatorSAliased (nCells : nat) (sigmaS : nat -> T) (phi : Phi) : Phi :=
    fold_left (fun phi k => let '(c, v, g) := k in upd3 phi c v g (amul A (adiv A (sigmaS c) (amul A (alit A 4) pi)) (phi c v g))) (tri nCells) phi.

  (** ** SourceIteration.cc, on all ranks *)
  Variables (nCells : nat -> nat) (sigmaS : nat -> nat -> T) (gsum : (nat -> T) -> T).   (* gsum: MPI_Allreduce *)
  Notation GPsi := (nat -> Psi).
  Notation GPhi := (nat -> Phi).
  (** 166-175: order of the loop is that of the array (any order in exact arithmetic). *)
  Definition errorSum (r : nat) (phiNew phiOld : GPhi) : T :=
    fold_left (fun s k => let '(c, v, g) := k in aadd A s (aabs A (asub A (phiNew r c v g) (phiOld r c v g)))) (tri (nCells r)) (azero A).
  Definition normSum (r : nat) (phiNew : GPhi) : T :=
    fold_left (fun s k => let '(c, v, g) := k in aadd A s (aabs A (phiNew r c v g))) (tri (nCells r)) (azero A).
  Definition relError (phiNew phiOld : GPhi) : T :=
    adiv A (gsum (fun r => errorSum r phiNew phiOld)) (gsum (fun r => normSum r phiNew)).
  Definition gPsiToPhi (psi : GPsi) : GPhi := fun r => psiToPhi (nCells r) (psi r).
  Definition gTotal (source : GPsi) (phi : GPhi) (total : GPsi) : GPsi := fun r => calcTotalSource (nCells r) (sigmaS r) (source r) (phi r) (total r).

  Section FixedPoint.
    (** [sweep source psi psi']: a call of sweeper.sweep with this source. *)
    Variable sweep : GPsi -> GPsi -> GPsi -> Prop.
    Variables (iterMax : N) (errMax : T) (source : GPsi).
    (** 144-190, from the top of the loop; result: iter, psi and phiNew, phiOld, error at the end. *)
    Inductive fixedPointLoop : N -> T -> GPsi -> GPsi -> GPhi -> GPhi -> N -> GPsi -> GPhi -> GPhi -> T -> Prop :=
    | fp_end iter error psi total phiNew phiOld : (N.ltb iter iterMax && agt A error errMax) = false ->
        fixedPointLoop iter error psi total phiNew phiOld iter psi phiNew phiOld error
    | fp_next iter error psi total phiNew phiOld psi1 iter' psi' phiNew' phiOld' error' : (N.ltb iter iterMax && agt A error errMax) = true ->
        let total1 := gTotal source phiNew total in
        sweep total1 psi psi1 ->
        let phi1 := gPsiToPhi psi1 in
        fixedPointLoop (N.succ iter) (relError phi1 phiNew) psi1 total1 phi1 phiNew iter' psi' phiNew' phiOld' error' ->
        fixedPointLoop iter error psi total phiNew phiOld iter' psi' phiNew' phiOld' error'.
    (** 127-207: returns the number of iterations, psi, and (for the statements) phiNew, phiOld and the error. *)
    Definition fixedPoint (psi : GPsi) : N -> GPsi -> GPhi -> GPhi -> T -> Prop :=
      fixedPointLoop 0 (aone A) psi (fun _ _ _ _ _ => azero A) (gPsiToPhi psi) (fun _ _ _ _ => azero A).
  End FixedPoint.

  Section Krylov.
    (** [sweep zeroPsiBound source psi psi']. *)
    Variable sweep : bool -> GPsi -> GPsi -> GPsi -> Prop.
    (** 76-114 lhsOperator: [x] to [b], c_psi and c_source of LHSData before and after. *)
    Definition lhsOperator (x : GPhi) (psi src : GPsi) (b : GPhi) (psi' src' : GPsi) : Prop :=
      let phi := fun r => operatorSAliased (nCells r) (sigmaS r) (x r) in
      src' = (fun r => phiToPsi (nCells r) (phi r) (src r)) /\
      sweep true src' psi psi' /\
      b = (fun r c v g => asub A (x r c v g) (gPsiToPhi psi' r c v g)).
    (** 216-285 krylov; [solves b x]: what PETSc's KSPSolve leaves in x for this operator and right-hand side. *)
    Definition krylov (solves : GPhi -> GPhi -> Prop) (source psi psi' : GPsi) : Prop :=
      exists psiB x psi1 tmp, sweep false source psi psiB /\ solves (gPsiToPhi psiB) x /\
        sweep false (gTotal source x tmp) psi1 psi'.
  End Krylov.
End Flux.
