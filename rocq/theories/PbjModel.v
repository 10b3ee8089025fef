(** src/SweeperPBJ.cc on the transport problem, over the reals: the block solvers with scattering.

    psi is by rank, cell, angle; a value is the array of a cell and angle. *)
From Coq Require Import Reals.
From Verif Require Import Prelude MeshModel GeometryModel GaussModel TransportModel TraverseModel TraverseSpec TraverseRun SweepModel CommModel BlockModel FluxModel FluxSpec SourceModel SchurModel.

Section Pbj.
  Variables (R0 : run (value R) (block R)) (g : gaussElim) (nGroups : nat) (geo : nat -> rgeo R) (sigmaT : nat -> nat -> R) (pr : nat -> nat -> nat -> N).
  Variables (pi : R) (sigmaS : nat -> nat -> R) (wt : nat -> R).
  Notation Psi := (nat -> nat -> nat -> value R).
  Notation GPsi := (nat -> nat -> nat -> nat -> nat -> R).
  Notation GPhi := (nat -> nat -> nat -> nat -> R).
  Notation GBnd := (nat -> nat -> nat -> nat -> nat -> R).
  Notation nA := (u_angles R0).
  Notation nC := (fun r => rm_nCells (u_mesh R0 r)).
  Definition readPsi (psi : Psi) : GPsi := fun r c a v G => getBlock Rops (psi r c a) v G.
  Definition zeroPsi : Psi := fun _ _ _ => Some (fun _ _ => 0%R).
  Definition zeroPhi : GPhi := fun _ _ _ _ => 0%R.
  Definition noBlock : block R := fun _ _ => 0%R.

  (** SweeperPBJ.cc:255-272: the relative L1 error, summed over the entries of all ranks (exact addition, so the order
      does not matter), below g_ddErrMax. If the new flux is zero the quotient is not finite and the test is false. *)
  Definition entriesPhi (r : nat) : list (nat * nat * nat) := list_prod (list_prod (seq 0 (nC r)) (seq 0 4)) (seq 0 nGroups).
  Definition l1 (f : nat -> nat -> nat -> nat -> R) : R := lsum (seq 0 (u_ranks R0)) (fun r => lsum (entriesPhi r) (fun cvG => let '(c, v, G) := cvG in Rabs (f r c v G))).
  Definition l1Stop (ddErrMax : R) (phi0 phi1 : GPhi) : bool :=
    let errL1 := l1 (fun r c v G => phi1 r c v G - phi0 r c v G)%R in
    let normL1 := l1 phi1 in
    if Req_EM_T normL1 0 then false else if Rlt_dec (errL1 / normL1) ddErrMax then true else false.

  (** 229-277 SweeperPBJSI::solve; [t] is what totalSource holds before it is filled. *)
  Definition blockSI (Q t : GPsi) (stop : GPhi -> GPhi -> bool) (ddIterMax : nat) : GPhi -> Psi -> GBnd -> nat -> Prop :=
    siLoop noBlock (fun phi0 => blockRun R0 g nGroups geo sigmaT pr (gTotal Rops pi nA nGroups nC sigmaS Q phi0 t))
      (fun psi => gPsiToPhi Rops nA nGroups wt nC (readPsi psi)) stop ddIterMax 1 zeroPhi zeroPsi zeroBound.
  (** 60-112 SweeperPBJOuter::solve; [inner bnd psi psi'] is fixedPoint or krylov with local sweeps that read [bnd] (129-138). *)
  Definition blockOuter (inner : GBnd -> GPsi -> GPsi -> Prop) (stop : Psi -> Psi -> bool) (ddIterMax : nat) : Psi -> GBnd -> nat -> Prop :=
    outerLoop noBlock (blockRun R0 g nGroups geo sigmaT pr zeroSource)
      (fun psi bnd psi' bnd' => inner bnd (readPsi psi) (readPsi psi') /\ bnd' = bnd) stop ddIterMax 1 zeroPsi zeroPsi zeroBound.
End Pbj.
