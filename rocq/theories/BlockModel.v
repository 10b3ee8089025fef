(** src/SweeperPBJ.cc and Util::sweepLocal: parallel block Jacobi.

    A run [R] (TraverseRun) holds the meshes, the traverser and the source; Main.cc:284-314 creates the
    traverser of the block methods with doComm = false. psi is by rank, cell, angle; psiBound by rank, side, angle.
    The error test needs psi of all ranks (gsum); it is an arbitrary function of the old and the new psi here. *)
From Coq Require Import Permutation.
From Verif Require Import Prelude MeshModel TraverseModel TraverseSpec TraverseRun CommModel.

Section Block.
  Context {V D : Type}.
  Variables (zeroD : D).
  Notation Psi := (nat -> nat -> nat -> V).
  Notation Bnd := (nat -> nat -> nat -> D).

  (** Util.cc:138-145 sweepLocal on all ranks: some complete execution of the traversal; psi and psiBound as it leaves them. *)
  Definition sweepLocal (R : run V D) (psi : Psi) (bnd : Bnd) (psi' : Psi) (bnd' : Bnd) : Prop :=
    exists S0 S, starts R psi bnd S0 /\ reaches R S0 S /\ ends R S /\
      forall r, r < u_ranks R -> psi' r = r_val (g_r S r) /\ bnd' r = r_bnd (g_r S r).
  (** CommSides::commSides on all ranks. *)
  Definition exchange (R : run V D) (psi : Psi) (bnd bnd' : Bnd) : Prop :=
    forall r, r < u_ranks R -> exists order, Permutation order (posted (u_angles R) (u_mesh R) r) /\
      commSides (u_angles R) (u_mesh R) (td_getData (u_data R)) zeroD psi r order (bnd r) = Some (bnd' r).

  (** SweeperPBJ.cc:180-212, the loop from [iter] on; [stop psi0 psi]: the test in 202.
      Result: psi, c_psiBoundPrev and the number of sweeps done. *)
  Inductive pbjLoop (R : run V D) (stop : Psi -> Psi -> bool) (ddIterMax : nat) : nat -> Psi -> Psi -> Bnd -> Psi -> Bnd -> nat -> Prop :=
  | pbj_limit iter psi0 psi bnd : ~ iter < ddIterMax -> pbjLoop R stop ddIterMax iter psi0 psi bnd psi bnd 0
  | pbj_break iter psi0 psi bnd psi' bnd' : iter < ddIterMax -> sweepLocal R psi bnd psi' bnd' -> stop psi0 psi' = true ->
      pbjLoop R stop ddIterMax iter psi0 psi bnd psi' bnd' 1
  | pbj_next iter psi0 psi bnd psi1 bnd1 bnd2 psi' bnd' n : iter < ddIterMax -> sweepLocal R psi bnd psi1 bnd1 -> stop psi0 psi1 = false ->
      exchange R psi1 bnd1 bnd2 -> pbjLoop R stop ddIterMax (S iter) psi1 psi1 bnd2 psi' bnd' n ->
      pbjLoop R stop ddIterMax iter psi0 psi bnd psi' bnd' (S n).
  (** 168-219 SweeperPBJ::sweep; zeroPsiBound is ignored (170). *)
  Definition pbjSweep (R : run V D) (stop : Psi -> Psi -> bool) (ddIterMax : nat) (psi : Psi) (bnd : Bnd) : Psi -> Bnd -> nat -> Prop :=
    pbjLoop R stop ddIterMax 1 psi psi bnd.

  (** 71-112 SweeperPBJOuter::solve: [inner bnd psi psi' bnd']: one source iteration or Krylov solve with the given boundary data. *)
  Inductive outerLoop (R : run V D) (inner : Psi -> Bnd -> Psi -> Bnd -> Prop) (stop : Psi -> Psi -> bool) (ddIterMax : nat)
    : nat -> Psi -> Psi -> Bnd -> Psi -> Bnd -> nat -> Prop :=
  | outer_limit iter psi0 psi bnd : ~ iter < ddIterMax -> outerLoop R inner stop ddIterMax iter psi0 psi bnd psi bnd 0
  | outer_break iter psi0 psi bnd psi' bnd' : iter < ddIterMax -> inner psi bnd psi' bnd' -> stop psi0 psi' = true ->
      outerLoop R inner stop ddIterMax iter psi0 psi bnd psi' bnd' 1
  | outer_next iter psi0 psi bnd psi1 bnd1 bnd2 psi' bnd' n : iter < ddIterMax -> inner psi bnd psi1 bnd1 -> stop psi0 psi1 = false ->
      exchange R psi1 bnd1 bnd2 -> outerLoop R inner stop ddIterMax (S iter) psi1 psi1 bnd2 psi' bnd' n ->
      outerLoop R inner stop ddIterMax iter psi0 psi bnd psi' bnd' (S n).

  (** 229-277 SweeperPBJSI::solve: the source of a sweep depends on phi0; [phiOf] is psiToPhi, [Rof phi0] the run with the total source. *)
  Inductive siLoop {F : Type} (Rof : F -> run V D) (phiOf : Psi -> F) (stop : F -> F -> bool) (ddIterMax : nat)
    : nat -> F -> Psi -> Bnd -> F -> Psi -> Bnd -> nat -> Prop :=
  | si_limit iter phi0 psi bnd : ~ iter < ddIterMax -> siLoop Rof phiOf stop ddIterMax iter phi0 psi bnd phi0 psi bnd 0
  | si_break iter phi0 psi bnd psi' bnd1 bnd' : iter < ddIterMax -> sweepLocal (Rof phi0) psi bnd psi' bnd1 ->
      exchange (Rof phi0) psi' bnd1 bnd' -> stop phi0 (phiOf psi') = true ->
      siLoop Rof phiOf stop ddIterMax iter phi0 psi bnd (phiOf psi') psi' bnd' 1
  | si_next iter phi0 psi bnd psi1 bnd1 bnd2 phi' psi' bnd' n : iter < ddIterMax -> sweepLocal (Rof phi0) psi bnd psi1 bnd1 ->
      exchange (Rof phi0) psi1 bnd1 bnd2 -> stop phi0 (phiOf psi1) = false ->
      siLoop Rof phiOf stop ddIterMax (S iter) (phiOf psi1) psi1 bnd2 phi' psi' bnd' n ->
      siLoop Rof phiOf stop ddIterMax iter phi0 psi bnd phi' psi' bnd' (S n).
End Block.
