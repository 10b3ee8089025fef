(** src/Problem.cc: the test problem.  Exact real arithmetic; a division by zero is [None]
    (0/0 is NaN in the program, and every later use of a NaN is one). *)
From Coq Require Import Reals.
From Verif Require Import Prelude MeshModel FluxModel.
Local Open Scope R_scope.

(** Lines 149-172: the loop body; [None]: Insist fails and the program exits. *)
Definition crossSection {T} (sigmaT1 sigmaS1 sigmaT2 sigmaS2 : T) (material : N) : option (T * T) :=
  if (material =? 1)%N then Some (sigmaT1, sigmaS1)
  else if (material =? 2)%N then Some (sigmaT2, sigmaS2)
  else None.
(** The loop; [materials]: getCellMaterial of every cell. *)
Definition createCrossSections {T} (materials : list N) (sigmaT1 sigmaS1 sigmaT2 sigmaS2 : T) : option (list T * list T) :=
  match mapM (crossSection sigmaT1 sigmaS1 sigmaT2 sigmaS2) materials with
  | None => None
  | Some l => Some (map fst l, map snd l)
  end.

Definition rdiv (a b : R) : option R := if Req_EM_T b 0 then None else Some (a / b).

(** Line 47. *)
Definition cubeSize : R := 100.

Section Hat.
  (** getCellNode and getNodeCoord together; getXi, getEta, getMu. *)
  Variables (pos : nat -> nat -> q3 R) (omega : nat -> q3 R) (sigmaT sigmaS : nat -> R) (nAngles nGroups : nat).

  (** Lines 60-79: value stored for one cell, angle, vertex (the same for every group). *)
  Definition hatValue (c a v : nat) : option R :=
    let x := t0 (pos c v) - cubeSize / 2 in
    let y := t1 (pos c v) - cubeSize / 2 in
    let z := t2 (pos c v) - cubeSize / 2 in
    let xi := t0 (omega a) in let eta := t1 (omega a) in let mu := t2 (omega a) in
    let d := sqrt (x*x + y*y + z*z) in
    if Rle_dec d 30 then
      let* p := rdiv (- x) (30 * d) in
      let* q := rdiv y (30 * d) in
      let* r := rdiv z (30 * d) in
      Some (p * xi - q * eta - r * mu + (sigmaT c - sigmaS c) * (1 - d / 30))
    else Some 0.
  (** Lines 56-81; [source]: the contents before. *)
  Definition hatSource (nCells : nat) (source : nat -> nat -> nat -> nat -> option R) : nat -> nat -> nat -> nat -> option R :=
    fold_left (fun s k => let '(c, a, v, g) := k in upd4 s c a v g (hatValue c a v)) (quad nAngles nGroups nCells) source.

  (** Lines 97-127. *)
  Definition sum4 (f : nat -> R) : R := fold_left (fun s v => s + f v) (seq 0 4) 0.
  Definition average (f : nat -> R) : R := sum4 f / 4.
  Definition psiActual (c : nat) : R :=
    let x := average (fun v => t0 (pos c v) - cubeSize / 2) in
    let y := average (fun v => t1 (pos c v) - cubeSize / 2) in
    let z := average (fun v => t2 (pos c v) - cubeSize / 2) in
    let d := sqrt (x*x + y*y + z*z) in
    if Rle_dec d 30 then 1 - d / 30 else 0.
  Definition hatSums (nCells : nat) (psi : nat -> nat -> nat -> nat -> R) : R * R :=
    fold_left (fun s k => let '(c, a, g) := k in
      let psiVal := average (fun v => psi c a v g) in
      let localDiff := psiVal - psiActual c in
      (fst s + psiVal * psiVal, snd s + localDiff * localDiff))
      (list_prod (list_prod (seq 0 nCells) (seq 0 nAngles)) (seq 0 nGroups)) (0, 0).
End Hat.

(** Lines 91-134 on all ranks; [gsum]: MPI_Allreduce with MPI_SUM. *)
Definition hatL2Error (nRanks : nat) (pos : nat -> nat -> nat -> q3 R) (nAngles nGroups : nat) (nCells : nat -> nat)
    (psi : nat -> nat -> nat -> nat -> nat -> R) : option R :=
  let gsum f := fold_right (fun r s => f r + s) 0 (seq 0 nRanks) in
  let norm := gsum (fun r => fst (hatSums (pos r) nAngles nGroups (nCells r) (psi r))) in
  let diff := gsum (fun r => snd (hatSums (pos r) nAngles nGroups (nCells r) (psi r))) in
  let* q := rdiv diff norm in Some (sqrt q).
